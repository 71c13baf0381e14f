(** Solvable two-layer stacks of patterned cells, one diffraction order, lit from either side. *)
From Coq Require Import Reals ZArith Lra Psatz.
From mathcomp Require Import all_ssreflect ssralg matrix.
From Coquelicot Require Import Complex.
From Verif Require Import Cplx Mx ModelTM ModelFourier ModelState ProofFlux ProofEnergy1D ProofEnergy2D Spec SpecSolve SpecLayer SpecState SpecSym SpecRecipT ProofSetup
  ProofWell ProofWellSolve ProofConv ProofLayer ProofInvert ProofEnd ProofObjEx ExampleKit ProofSymEx.

Set Implicit Arguments.
Unset Strict Implicit.
Unset Printing Implicit Defensive.
Local Open Scope ring_scope.
Import GRing.Theory.

Definition bench (ny nx : nat) (fs : seq (nat -> nat -> C)) (ts : seq R) (nt nb th : R) (ph : option C) (ps po : C) : obj :=
  Obj false 0 (RtoC nt) (RtoC nb) (Some (RtoC th)) ph ps po (Fto 0 0) (A1 [:: 2; 2]%coqR) 1 (A1 ts) TMM false
    (CRaster ny nx fs) (Some false) 0 true None MNone.
Lemma bench_period ny nx fs ts nt nb th ph ps po : period_of (bench ny nx fs ts nt nb th ph ps po) = Some (2, 2)%coqR.
Proof. by rewrite /period_of /= /reqb; case: Req_EM_T => //= h; lra. Qed.

(** The convolution matrices of two positive cells, and a bound below which the one order propagates in both. *)
Lemma two_cells pv (ny nx : nat) f g : (0 < ny)%N -> (0 < nx)%N -> positive_cell f -> positive_cell g -> exists2 m, (0 < m)%coqR &
  forall h, h = f \/ h = g -> exists x y z : R,
  [/\ (0 < x)%coqR, (m < y)%coqR, (m < z)%coqR
    & conv_discrete pv false true 0 0 (Raster ny nx h) = Some ((RtoC x)%:M, (RtoC y)%:M, (RtoC (/ z))%:M)].
Proof.
move=> hy hx hf hg; have [x [y [z [x0 y0 z0 e]]]] := cell_convs pv hy hx hf; have [x' [y' [z' [x0' y0' z0' e']]]] := cell_convs pv hy hx hg.
pose a := Rmin (Rmin y z) (Rmin y' z'); have a0 : (0 < a)%coqR by rewrite /a; do 2 ?apply: Rmin_pos.
have a1 : (a <= y)%coqR := Rle_trans _ _ _ (Rmin_l _ _) (Rmin_l _ _).
have a2 : (a <= z)%coqR := Rle_trans _ _ _ (Rmin_l _ _) (Rmin_r _ _).
have a3 : (a <= y')%coqR := Rle_trans _ _ _ (Rmin_r _ _) (Rmin_l _ _).
have a4 : (a <= z')%coqR := Rle_trans _ _ _ (Rmin_r _ _) (Rmin_r _ _).
exists (a / 2)%coqR; first by lra.
by move=> h [->|->]; [exists x, y, z|exists x', y', z']; split=> //; lra.
Qed.

Lemma bench_classical pv nx f g : (0 < nx)%N -> positive_cell f -> positive_cell g -> exists2 m, (0 < m)%coqR &
  forall nt nb th ps u v t1 t2, (0 < nt)%coqR -> (0 < nb)%coqR -> (- (PI / 2) < th < PI / 2)%coqR ->
  (nt * sin th * (nt * sin th) < m)%coqR -> u = f \/ u = g -> v = f \/ v = g -> exists o' d,
  conv_solve pv eig_ex (bench 1 nx [:: u; v] [:: t1; t2] nt nb th None ps 0) = (o', Solved d).
Proof.
move=> hx hf hg; have [m m0 hm] := two_cells pv (ltn0Sn 0) hx hf hg; exists m => // nt nb th ps u v t1 t2 n0 b0 hth hk hu hv.
have [x [y [z [x0 y0 z0 e]]]] := hm _ hu; have [x' [y' [z' [x0' y0' z0' e']]]] := hm _ hv.
have nx0 : (nx == 0%N) = false by case: (nx) hx.
set o := bench 1 nx [:: u; v] [:: t1; t2] nt nb th None ps 0.
have ec : convs_of pv o 0 0 = Some [:: ((RtoC x)%:M, (RtoC y)%:M, (RtoC (/ z))%:M); ((RtoC x')%:M, (RtoC y')%:M, (RtoC (/ z'))%:M)].
  by rewrite /convs_of /= nx0 e e'.
have ew : o_wavelength o <> 0%coqR by rewrite /=; lra.
rewrite (conv_solve_run (o := o) (fx := 0) (fy := 0) (th := RtoC th) eig_ex erefl ec erefl (bench_period _ _ _ _ _ _ _ _ _ _) ew).
have -> : grating_of o 0 = Some 0%N by rewrite /grating_of /= eqxx.
rewrite /solve_with /=.
set s := setup_of _ _ _ _ _ _.
have sE : sin_theta s = RtoC (sin th).
  rewrite /sin_theta /= Re_RtoC; case: (Rle_dec pi32 th) => h'; last exact: csin_real.
  by exfalso; have := pi32_gt; lra.
have ekx : kx_vector s 1 0%N = RtoC (nt * sin th).
  rewrite /kx_vector sE /phi_val /= ccos_real cos_0 mulr1 /order /= -!RtoC_mul -RtoC_add conjR.
  by congr RtoC; field.
have cos0 := cos_gt_0 th (proj1 hth) (proj2 hth); have sc := sin2_cos2 th; rewrite /Rsqr in sc.
have s1 : (0 < 1 - sin th * sin th)%coqR by nra.
have kn : (nt * sin th * (nt * sin th) < nt * nt)%coqR.
  by have := Rmult_lt_0_compat _ _ (Rmult_lt_0_compat _ _ n0 n0) s1; lra.
have op a b c : (m < b)%coqR -> lossless_convs ((RtoC a)%:M, (RtoC b)%:M, (RtoC (/ c))%:M : 'M[C]_1) /\
    propagating_modes eig_ex (te_operator (kx_vector s 1) ((RtoC a)%:M, (RtoC b)%:M, (RtoC (/ c))%:M : 'M[C]_1)).
  move=> hb; split; first by split=> i j; rewrite !mxE !(ord1 i) !(ord1 j) eqxx conjR.
  rewrite te_operatorE /=; have -> : diagf 1 (kx_vector s 1) = (RtoC (nt * sin th))%:M.
    by apply/matrixP => i j; rewrite !mxE -ekx; case: i j => [[|i] hi] // [[|j] hj].
  by rewrite -scalar_mxM -RtoC_mul -raddfB /= -RtoC_sub; apply: scalar_modes; lra.
have [|||||r [T1 [infos e1]]] := te_returns pv (s := s) (w := 1) (nt := nt) (nb := nb)
  (convs := [:: crop3 1 ((RtoC x)%:M, (RtoC y)%:M, (RtoC (/ z))%:M : 'M[C]_1); crop3 1 ((RtoC x')%:M, (RtoC y')%:M, (RtoC (/ z'))%:M : 'M[C]_1)]) n0 erefl erefl.
- by [].
- by [].
- by [].
- move=> [[|i] hi] //=; by exists (nt * sin th)%coqR.
- by move=> c /= [<-|[<-|//]]; rewrite /crop3 !crop_id; exact: op.
by rewrite e1; do 2 eexists.
Qed.

Lemma bench_sp pv ny nx f g : (1 < ny)%N -> (0 < nx)%N -> positive_cell f -> positive_cell g -> exists2 m, (0 < m)%coqR &
  forall nt nb th (p : R) ps po u v t1 t2, (0 < nt)%coqR -> (0 < nb)%coqR -> (0 < th < PI / 2)%coqR ->
  (nt * sin th * (nt * sin th) < m)%coqR -> p = 0%coqR \/ p = PI -> u = f \/ u = g -> v = f \/ v = g -> exists o' d,
  conv_solve pv eig_ex (bench ny nx [:: u; v] [:: t1; t2] nt nb th (Some (RtoC p)) ps po) = (o', Solved d).
Proof.
move=> hy hx hf hg; have [m m0 hm] := two_cells pv (ltnW hy) hx hf hg; exists m => // nt nb th p ps po u v t1 t2 n0 b0 hth hk hp hu hv.
have [x [y [z [x0 y0 z0 e]]]] := hm _ hu; have [x' [y' [z' [x0' y0' z0' e']]]] := hm _ hv.
have nx0 : (nx == 0%N) = false by case: (nx) hx.
have ny0 : (ny == 0%N) = false by case: (ny) hy.
have ny1 : (ny == 1%N) = false by case: (ny) hy => [|[]].
set o := bench ny nx [:: u; v] [:: t1; t2] nt nb th (Some (RtoC p)) ps po.
have ec : convs_of pv o 0 0 = Some [:: ((RtoC x)%:M, (RtoC y)%:M, (RtoC (/ z))%:M); ((RtoC x')%:M, (RtoC y')%:M, (RtoC (/ z'))%:M)].
  by rewrite /convs_of /= nx0 ny0 e e'.
have ew : o_wavelength o <> 0%coqR by rewrite /=; lra.
rewrite (conv_solve_run (o := o) (fx := 0) (fy := 0) (th := RtoC th) eig_ex erefl ec erefl (bench_period _ _ _ _ _ _ _ _ _ _) ew).
have -> : grating_of o 0 = Some 2%N by rewrite /grating_of /= ny1.
rewrite /solve_with; change (o_algo o) with TMM; change (o_thickness o) with (A1 [:: t1; t2]); cbv beta iota.
set s := setup_of _ _ _ _ _ _.
have sp : sin p = 0%coqR by case: hp => ->; rewrite ?sin_0 ?sin_PI.
have cp : (cos p * cos p = 1)%coqR by case: hp => ->; rewrite ?cos_0 ?cos_PI; ring.
have hth' : (0 <= th < PI / 2)%coqR by lra.
have [kE kE'] := kx_phys (s := s) (f := p) 1 erefl erefl hth' erefl.
set k := (nt * sin th * cos p)%coqR.
have ekx : kx_tiled s 1 0%N = RtoC k by rewrite /kx_tiled /tile_x mod0n kE /order /= /k; congr RtoC; field.
have eky : ky_tiled s 1 0%N = 0 by rewrite /ky_tiled /tile_y div0n kE' sp /order /= (_ : (_ + _)%coqR = 0%coqR) //; field.
have kk : (k * k = nt * sin th * (nt * sin th))%coqR.
  transitivity (nt * sin th * (nt * sin th) * (cos p * cos p))%coqR; first by rewrite /k; ring.
  by rewrite cp; field.
have p0 := PI_RGT_0; have st : (0 < sin th)%coqR by apply: sin_gt_0; lra.
have cos0 : (0 < cos th)%coqR by apply: cos_gt_0; lra.
have sc := sin2_cos2 th; rewrite /Rsqr in sc.
have s1 : (0 < 1 - sin th * sin th)%coqR by nra.
have kn : (nt * sin th * (nt * sin th) < nt * nt)%coqR.
  by have := Rmult_lt_0_compat _ _ (Rmult_lt_0_compat _ _ n0 n0) s1; lra.
have kp : (0 < nt * sin th)%coqR by apply: Rmult_lt_0_compat.
have op a b c : (0 < a)%coqR -> (m < b)%coqR -> (m < c)%coqR -> lossless_convs ((RtoC a)%:M, (RtoC b)%:M, (RtoC (/ c))%:M : 'M[C]_1) /\
    propagating_layer eig_ex (kx_tiled s 1) (ky_tiled s 1) ((RtoC a)%:M, (RtoC b)%:M, (RtoC (/ c))%:M : 'M[C]_1).
  move=> ha hb hc; split; first by split=> i j; rewrite !mxE !(ord1 i) !(ord1 j) eqxx conjR.
  by apply: (scalar_layer ekx eky); rewrite ?kk //; lra.
have [|||||r [infos e1]] := well_solve_2d pv eig_ex_ok (s := s) (w := 1) (nt := nt) (nb := nb)
  (convs := [:: ((RtoC x)%:M, (RtoC y)%:M, (RtoC (/ z))%:M : 'M[C]_1); ((RtoC x')%:M, (RtoC y')%:M, (RtoC (/ z'))%:M : 'M[C]_1)]) _ erefl erefl.
- split=> /=; try lra.
  + by exists nt.
  + by exists th.
  + by move=> q [<-]; exists p.
- by [].
- by [].
- move=> [[|i] hi] //=; exists k, 0%coqR; split=> //; first by rewrite kk; lra.
  by left=> k0; rewrite k0 in kk; nra.
- by move=> c /= [<-|[<-|//]]; apply: op.
by rewrite e1; do 2 eexists.
Qed.
