(** Solvable objects with a patterned unit cell: one diffraction order, superstrate of low index. *)
From Coq Require Import Reals ZArith Lra Psatz.
From mathcomp Require Import all_ssreflect ssralg matrix.
From Coquelicot Require Import Complex.
From Verif Require Import Cplx Mx ModelTM ModelFourier ModelState ProofFlux ProofEnergy1D ProofEnergy2D Spec SpecSolve SpecLayer SpecState SpecSym ProofSetup
  ProofWell ProofWellSolve ProofConv ProofLayer ProofInvert ProofEnd ProofObjEx ExampleKit.

Set Implicit Arguments.
Unset Strict Implicit.
Unset Printing Implicit Defensive.
Local Open Scope ring_scope.
Import GRing.Theory.

Definition positive_cell (f : nat -> nat -> C) : Prop := forall i j, exists2 x : R, (0 < x)%coqR & f i j = RtoC x.

(** One-by-one coercive Hermitian matrices. *)
Lemma pos_entry (A : 'M[C]_1) : hermitian A -> coercive 1 A -> exists2 x : R, (0 < x)%coqR & A = (RtoC x)%:M.
Proof.
move=> hA [mu hmu hc]; have hr : conj (A ord0 ord0) = A ord0 ord0 := esym (hA ord0 ord0).
have := hc (fun _ => 1); rewrite /form /norms !big_ord_recl !big_ord0 conj1 !mul1r mulr1 ?addr0.
have -> : nrm2 1 = 1%coqR by rewrite /nrm2 (_ : 1 = RtoC 1) // Re_RtoC Im_RtoC; ring.
move=> h; exists (Re (A ord0 ord0)); first lra.
rewrite [LHS]mx11_scalar; congr (_%:M); move: hr {h}; case: (A ord0 ord0) => a b [/=] hb.
by rewrite /RtoC; congr pair; lra.
Qed.

Lemma cell_convs pv (ny nx : nat) f : (0 < ny)%N -> (0 < nx)%N -> positive_cell f -> exists x y z : R,
  [/\ (0 < x)%coqR, (0 < y)%coqR, (0 < z)%coqR
    & conv_discrete pv false true 0 0 (Raster ny nx f) = Some ((RtoC x)%:M, (RtoC y)%:M, (RtoC (/ z))%:M)].
Proof.
move=> hy hx hf.
have hpx : all_px (fun n => 0 < Re (1 * n ^+ 2)%R)%coqR (Raster ny nx f).
  move=> i j _ _ /=; have [x x0 ->] := hf i j; rewrite mul1r expr2 -RtoC_mul Re_RtoC; nra.
have hpr : all_px real_index (Raster ny nx f).
  by move=> i j _ _ /=; have [x x0 ->] := hf i j; rewrite /real_index conjR.
have u1 : nrm2 1 = 1%coqR by rewrite /nrm2 (_ : 1 = RtoC 1) // Re_RtoC Im_RtoC; ring.
have [ex [ey [ez [e c1 c2 c3]]]] := discrete_defined pv true 0 0 (l := Raster ny nx f) hy hx u1 hpx.
have [h1 h2 h3] := discrete_lossless (l := Raster ny nx f) hy hx hpr e.
have h4 : hermitian ez by have := herm_inv h3; rewrite invmxK.
have [x x0 e1] := pos_entry h1 c1; have [y y0 e2] := pos_entry h2 c2; have [z z0 e3] := pos_entry h4 c3.
exists x, y, z; split=> //; rewrite e e1 e2 e3; congr (Some (_, _, _)).
rewrite invmx_scalar; congr (_%:M); rewrite RtoC_inv //; lra.
Qed.

(** The 1D solver, TE, whatever the sign of the angle. *)
Lemma te_returns pv s w (convs : seq (conv3 (ff_x s))) (nt nb : R) :
  (0 < nt)%coqR -> n_top s = RtoC nt -> n_bot s = RtoC nb -> (0 < nb)%coqR -> pol s = 0%coqR ->
  (size (thickness s) <= size convs)%N -> all_orders_propagate (ff_x s) nt (kx_vector s w) ->
  (forall c, List.In c (used s convs) -> lossless_convs c /\ propagating_modes eig_ex (te_operator (kx_vector s w) c)) ->
  exists r T1 infos, solve_1d pv eig_ex false s w convs = Some (r, T1, infos).
Proof.
move=> h0 ent enb hnb hpol hsz hall hl; rewrite /solve_1d.
have rk : real_vec (ff_x s) (kx_vector s w) by move=> i li; have [x /= -> _] := hall (Ordinal li); rewrite conjR.
have [ls e] := layers_of_some hsz; rewrite e ent enb.
apply: well_1d => //.
  by left.
  by move=> i li; have [x e1 /kz_pos] := hall (Ordinal li); rewrite /kz_1d /= in e1 *; rewrite e1.
move=> l /(layers_of_in e) /hl [[hx hy hz] hm].
have ll : lossless l by split; apply: hermitian_herm.
by rewrite te_operatorE /= in hm; rewrite hpol; exact: (good_te pv (eigen_eig_ok eig_ex_ok) rk ll hm).
Qed.

Lemma scalar_modes n (a : R) : (a < 0)%coqR -> propagating eig_ex ((RtoC a)%:M : 'M[C]_n).
Proof.
move=> ha; apply: (eig_ex_prop (mu := const_mx (RtoC a)) (U := 1%:M)).
  by split; [exact: unitmx1|rewrite /= mulmx1 mul1mx; apply/matrixP => i j; rewrite !mxE].
by move=> i; exists (- a)%coqR; rewrite ?mxE ?Ropp_involutive //; lra.
Qed.

(** One order of a layer with scalar matrices. *)
Lemma scalar_layer kx ky (k x y z : R) : kx 0%N = RtoC k -> ky 0%N = 0 -> (0 < x)%coqR -> (0 < z)%coqR -> (k * k < y)%coqR -> (k * k < z)%coqR ->
  propagating_layer eig_ex kx ky ((RtoC x)%:M, (RtoC y)%:M, (RtoC (/ z))%:M : 'M[C]_1).
Proof.
move=> ek ek' x0 z0 h1 h2.
have eK : diagf 1 kx = (RtoC k)%:M by apply/matrixP => i j; rewrite !mxE (ord1 i) ek.
have eK' : diagf 1 ky = 0 by apply/matrixP => i j; rewrite !mxE (ord1 i) ek' mul0rn.
rewrite /propagating_layer (e_from_hE (n := 1)) (h_from_eE (n := 1)) eK eK' /=.
set b := (k * / z * k - 1)%coqR.
have b0 : (b < 0)%coqR.
  rewrite /b; have : (k * k * / z < z * / z)%coqR by apply: Rmult_lt_compat_r => //; exact: Rinv_0_lt_compat.
  by rewrite Rinv_r; lra.
have eL : OmL (RtoC k)%:M 0 (RtoC (/ z))%:M = block_mx 0 (RtoC b)%:M 1%:M 0 :> 'M[C]_(1 + 1).
  rewrite /OmL !mulmx0 !mul0mx ?oppr0 ?addr0 -!scalar_mxM -!RtoC_mul.
  by congr block_mx; rewrite /b RtoC_sub raddfB.
have eI : OmL (RtoC k)%:M 0 (RtoC (/ z))%:M *m block_mx 0 1%:M (RtoC (/ b))%:M 0 = 1%:M :> 'M[C]_(1 + 1).
  rewrite eL mulmx_block !mulmx0 !mul0mx !mul1mx !addr0 !add0r -scalar_mxM -RtoC_mul Rinv_r; last lra.
  by rewrite -scalar_mx_block.
have [uL _] := mulmx1_unit eI.
split=> //.
- apply/positive_definiteE; rewrite -/(Jxy 1).
  have -> : invmx (OmL (RtoC k)%:M 0 (RtoC (/ z))%:M) = block_mx 0 1%:M (RtoC (/ b))%:M 0 :> 'M[C]_(1 + 1).
    by rewrite -[RHS](mulKmx uL) eI mulmx1.
  have -> : - (Jxy 1 *m block_mx 0 1%:M (RtoC (/ b))%:M 0) = block_mx (RtoC (- / b))%:M 0 0 1%:M :> 'M[C]_(1 + 1).
    rewrite /Jxy mulmx_block !mulmx0 !mul0mx !mul1mx !addr0 !add0r mulmx1 opp_block_mx oppr0 opprK.
    by congr block_mx; rewrite RtoC_opp raddfN.
  apply: pos_def_block; last exact: pos_def1.
  have -> : (RtoC (- / b))%:M = diag_mx (const_mx (RtoC (- / b))) :> 'M[C]_1 by rewrite diag_const_mx.
  apply: pos_def_diag => i; exists (- / b)%coqR; last by rewrite mxE.
  have := Rinv_lt_0_compat _ b0; lra.
have -> : OmL (RtoC k)%:M 0 (RtoC (/ z))%:M *m OmR (RtoC k)%:M 0 (RtoC x)%:M (RtoC y)%:M
    = block_mx (RtoC (b * x))%:M 0 0 (RtoC (k * k - y))%:M :> 'M[C]_(1 + 1).
  rewrite eL /OmR !mulmx0 !mul0mx subr0 mulmx_block !mulmx0 !mul0mx !mul1mx !addr0 !add0r -!scalar_mxM -!RtoC_mul.
  by congr block_mx; rewrite -raddfB /= -RtoC_sub.
have dg (a : R) : diag_by ((RtoC a)%:M : 'M[C]_1) (const_mx (RtoC a), 1%:M).
  by split; [exact: unitmx1|rewrite /= mulmx1 mul1mx diag_const_mx].
apply: eig_ex_prop (diag_by_block (dg _) (dg _)) _ => i; rewrite mxE.
case: splitP => j _; rewrite mxE; [exists (- (b * x))%coqR|exists (y - k * k)%coqR]; try nra; congr RtoC; ring.
Qed.

(** A patterned layer of thickness 3 between index [nt] and index 2; zeroth order only. *)
Definition pattern (ny nx : nat) (f : nat -> nat -> C) (nt th : R) (ph : option C) (ps po : C) : obj :=
  Obj false 0 (RtoC nt) (RtoC 2) (Some (RtoC th)) ph ps po (Fto 0 0) (A1 [:: 2; 2]%coqR) 1 (A1 [:: 3%coqR]) TMM false
    (CRaster ny nx [:: f]) (Some false) 0 true None MNone.

Lemma pattern_period ny nx f nt th ph ps po : period_of (pattern ny nx f nt th ph ps po) = Some (2, 2)%coqR.
Proof. by rewrite /period_of /= /reqb; case: Req_EM_T => //= h; lra. Qed.
Lemma sin_pm th : th = th_ex \/ th = (- th_ex)%coqR -> (sin th * sin th = 1 / 9)%coqR.
Proof. by case=> ->; rewrite ?sin_neg sin_th_ex; field. Qed.
Lemma sin_pat s th : theta s = RtoC th -> th = th_ex \/ th = (- th_ex)%coqR -> sin_theta s = RtoC (sin th).
Proof.
move=> e h; rewrite /sin_theta e Re_RtoC; case: (Rle_dec pi32 th) => h'; last exact: csin_real.
by exfalso; have := pi32_gt; have := th_ex_bound; case: h h' => ->; lra.
Qed.

Lemma classical_pattern pv nx f : (0 < nx)%N -> positive_cell f -> exists2 m, (0 < m)%coqR &
  forall nt th ps, (0 < nt < m)%coqR -> th = th_ex \/ th = (- th_ex)%coqR -> exists o' d,
  conv_solve pv eig_ex (pattern 1 nx f nt th None ps 0) = (o', Solved d).
Proof.
move=> hx hf; have [x [y [z [x0 y0 z0 e]]]] := cell_convs pv (ltn0Sn 0) hx hf.
exists (Rmin 1 y); first by apply: Rmin_pos; lra.
move=> nt th ps [n0 nm] hth; have n1 := Rlt_le_trans _ _ _ nm (Rmin_l _ _); have ny := Rlt_le_trans _ _ _ nm (Rmin_r _ _).
have nx0 : (nx == 0%N) = false by case: (nx) hx.
have ec : convs_of pv (pattern 1 nx f nt th None ps 0) 0 0 = Some [:: ((RtoC x)%:M, (RtoC y)%:M, (RtoC (/ z))%:M)].
  by rewrite /convs_of /= nx0 e.
have ew : o_wavelength (pattern 1 nx f nt th None ps 0) <> 0%coqR by rewrite /=; lra.
rewrite (conv_solve_run (o := pattern 1 nx f nt th None ps 0) (fx := 0) (fy := 0) (th := RtoC th) eig_ex erefl ec erefl (pattern_period _ _ _ _ _ _ _ _) ew).
have -> : grating_of (pattern 1 nx f nt th None ps 0) 0 = Some 0%N by rewrite /grating_of /= eqxx.
rewrite /solve_with /=.
set s := setup_of _ _ _ _ _ _.
have ekx : kx_vector s 1 0%N = RtoC (nt * sin th).
  rewrite /kx_vector (sin_pat (s := s) erefl hth) /phi_val /= ccos_real cos_0 mulr1 /order /= -!RtoC_mul -RtoC_add conjR.
  by congr RtoC; field.
have s9 := sin_pm hth.
have [|||||r [T1 [infos e1]]] := te_returns pv (s := s) (w := 1) (nt := nt) (nb := 2)
  (convs := [:: crop3 1 ((RtoC x)%:M, (RtoC y)%:M, (RtoC (/ z))%:M : 'M[C]_1)]) n0 erefl erefl.
- lra.
- by [].
- by [].
- move=> [[|i] hi] //=; exists (nt * sin th)%coqR => //; nra.
- move=> c /= [<-|//]; rewrite /crop3 !crop_id; split.
    by split=> i j; rewrite !mxE !(ord1 i) !(ord1 j) eqxx conjR.
  rewrite te_operatorE /=; have -> : diagf (ff_x s) (kx_vector s 1) = (RtoC (nt * sin th))%:M.
    by apply/matrixP => i j; rewrite !mxE -ekx; case: i j => [[|i] hi] // [[|j] hj].
  rewrite -scalar_mxM -RtoC_mul -raddfB /= -RtoC_sub; apply: scalar_modes; nra.
by rewrite e1; do 2 eexists.
Qed.

Lemma sp_pattern pv ny nx f : (1 < ny)%N -> (0 < nx)%N -> positive_cell f -> exists2 m, (0 < m)%coqR &
  forall nt (p : R) ps po, (0 < nt < m)%coqR -> p = 0%coqR \/ p = PI -> exists o' d,
  conv_solve pv eig_ex (pattern ny nx f nt th_ex (Some (RtoC p)) ps po) = (o', Solved d).
Proof.
move=> hy hx hf; have [x [y [z [x0 y0 z0 e]]]] := cell_convs pv (ltnW hy) hx hf.
exists (Rmin 1 (Rmin y z)); first by do 2?apply: Rmin_pos; lra.
move=> nt p ps po [n0 nm] hp; have n1 := Rlt_le_trans _ _ _ nm (Rmin_l _ _); have nyz := Rlt_le_trans _ _ _ nm (Rmin_r _ _).
have hny := Rlt_le_trans _ _ _ nyz (Rmin_l _ _); have hnz := Rlt_le_trans _ _ _ nyz (Rmin_r _ _).
have nx0 : (nx == 0%N) = false by case: (nx) hx.
have ny0 : (ny == 0%N) = false by case: (ny) hy.
have ny1 : (ny == 1%N) = false by case: (ny) hy => [|[]].
set o := pattern ny nx f nt th_ex (Some (RtoC p)) ps po.
have ec : convs_of pv o 0 0 = Some [:: ((RtoC x)%:M, (RtoC y)%:M, (RtoC (/ z))%:M)].
  by rewrite /convs_of /= nx0 ny0 e.
have ew : o_wavelength o <> 0%coqR by rewrite /=; lra.
rewrite (conv_solve_run (o := o) (fx := 0) (fy := 0) (th := RtoC th_ex) eig_ex erefl ec erefl (pattern_period _ _ _ _ _ _ _ _) ew).
have -> : grating_of o 0 = Some 2%N by rewrite /grating_of /= ny1.
rewrite /solve_with; change (o_algo o) with TMM; change (o_thickness o) with (A1 [:: 3%coqR]); cbv beta iota.
set s := setup_of _ _ _ _ _ _.
have s9 : (sin th_ex * sin th_ex = 1 / 9)%coqR by apply: sin_pm; left.
have sp : sin p = 0%coqR by case: hp => ->; rewrite ?sin_0 ?sin_PI.
have cp : (cos p * cos p = 1)%coqR by case: hp => ->; rewrite ?cos_0 ?cos_PI; ring.
have [kE kE'] := kx_phys (s := s) (f := p) 1 erefl erefl th_ex_bound erefl.
set k := (nt * sin th_ex * cos p)%coqR.
have ekx : kx_tiled s 1 0%N = RtoC k by rewrite /kx_tiled /tile_x mod0n kE /order /= /k; congr RtoC; field.
have eky : ky_tiled s 1 0%N = 0 by rewrite /ky_tiled /tile_y div0n kE' sp /order /= (_ : (_ + _)%coqR = 0%coqR) //; field.
have kk : (k * k = nt * nt / 9)%coqR.
  transitivity (nt * nt * (sin th_ex * sin th_ex) * (cos p * cos p))%coqR; first by rewrite /k; ring.
  by rewrite s9 cp; field.
have [|||||r [infos e1]] := well_solve_2d pv eig_ex_ok (s := s) (w := 1) (nt := nt) (nb := 2)
  (convs := [:: ((RtoC x)%:M, (RtoC y)%:M, (RtoC (/ z))%:M : 'M[C]_1)]) _ erefl erefl.
- split=> /=; try lra.
  + by exists nt.
  + by exists th_ex => //; exact: th_ex_bound.
  + by move=> q [<-]; exists p.
- lra.
- by [].
- move=> [[|i] hi] //=; exists k, 0%coqR; split=> //; first nra.
  left=> k0; rewrite k0 in kk; nra.
- move=> c /= [<-|//]; split.
    by split=> i j; rewrite !mxE !(ord1 i) !(ord1 j) eqxx conjR.
  by apply: scalar_layer; rewrite ?ekx ?eky ?kk //; nra.
by rewrite e1; do 2 eexists.
Qed.
