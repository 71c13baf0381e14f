From Coq Require Import Reals ZArith Lra Psatz.
From mathcomp Require Import all_ssreflect ssralg matrix.
From Coquelicot Require Import Complex.
From Verif Require Import Cplx Mx ModelTM ModelFourier ModelField ModelState ModelTorch ModelTorchObj ProofFlux ProofEnergy1D ProofEnergy2D Spec SpecSolve
  SpecLayer SpecState SpecSym SpecTorchObj SpecPort ProofSetup ProofWell ProofWellSolve ProofConv ProofLayer ProofInvert ProofEnd ProofObjEx ProofSymEx ExampleKit.

Set Implicit Arguments.
Unset Strict Implicit.
Unset Printing Implicit Defensive.
Local Open Scope ring_scope.
Import GRing.Theory.

Lemma unit_scalar n (a : R) : a <> 0%coqR -> (RtoC a)%:M \in @unitmx _ n.
Proof.
move=> h; have e : (RtoC a)%:M *m (RtoC (/ a))%:M = 1%:M :> 'M[C]_n by rewrite -scalar_mxM -RtoC_mul Rinv_r.
by have [] := mulmx1_unit e.
Qed.

(** One order of a line grating in the conical mount. *)
Lemma scalar_layer_conical kx ky (k x y : R) : kx 0%N = RtoC k -> ky 0%N = 0 -> (0 < x)%coqR -> (k * k < y)%coqR ->
  propagating_layer_conical eig_ex kx ky ((RtoC x)%:M, (RtoC y)%:M, (RtoC (/ y))%:M : 'M[C]_1).
Proof.
move=> ek ek' x0 h1; have y0 : (0 < y)%coqR by nra.
have [u pd _] := scalar_layer ek ek' x0 y0 h1 h1.
have ed : dk 1 kx kx = (RtoC (k * k))%:M by apply/matrixP => i j; rewrite !mxE !(ord1 i) !(ord1 j) /= ek RtoC_mul.
have ed' : dk 1 ky ky = 0 by apply/matrixP => i j; rewrite !mxE !(ord1 i) !(ord1 j) /= ek' mul0r.
have et : tk kx kx (RtoC (/ y))%:M = (RtoC (k * / y * k))%:M :> 'M[C]_1.
  by apply/matrixP => i j; rewrite !mxE !(ord1 i) !(ord1 j) /= ek !mulr1n !RtoC_mul.
set b := (k * / y * k - 1)%coqR.
have b0 : (b < 0)%coqR.
  rewrite /b; have : (k * k * / y < y * / y)%coqR by apply: Rmult_lt_compat_r => //; exact: Rinv_0_lt_compat.
  by rewrite Rinv_r; lra.
have e1 : dk 1 kx kx - (RtoC y)%:M = (RtoC (k * k - y))%:M by rewrite ed -raddfB /= RtoC_sub.
have e2 : tk kx kx (RtoC (/ y))%:M - 1%:M = (RtoC b)%:M :> 'M[C]_1 by rewrite et /b RtoC_sub raddfB.
split=> //.
- by rewrite e1 e2; split; apply: unit_scalar; lra.
- by rewrite e1 ed' add0r; apply: scalar_modes; lra.
by rewrite e2 ed' add0r -scalar_mxM -RtoC_mul; apply: scalar_modes; nra.
Qed.

Lemma con_pattern pv nx f : (0 < nx)%N -> positive_cell f -> exists2 m, (0 < m)%coqR &
  forall nt (p : R) ps po, (0 < nt < m)%coqR -> sin p = 0%coqR -> exists o' d,
  conv_solve pv eig_ex (pattern 1 nx f nt th_ex (Some (RtoC p)) ps po) = (o', Solved d) /\ no_flat_memo (o_memo o').
Proof.
move=> hx hf; have [x [y [z [x0 y0 z0 e]]]] := cell_convs pv (ltn0Sn 0) hx hf.
exists (Rmin 1 y); first by apply: Rmin_pos; lra.
move=> nt p ps po [n0 nm] sp; have n1 := Rlt_le_trans _ _ _ nm (Rmin_l _ _); have hny := Rlt_le_trans _ _ _ nm (Rmin_r _ _).
have nx0 : (nx == 0%N) = false by case: (nx) hx.
set o := pattern 1 nx f nt th_ex (Some (RtoC p)) ps po.
have ec : convs_of pv o 0 0 = Some [:: ((RtoC x)%:M, (RtoC y)%:M, (RtoC (/ z))%:M)].
  by rewrite /convs_of /= nx0 e.
have ezy : z = y.
  have := convs_line (pinv := pv) (o := o) erefl erefl erefl ec (or_introl erefl).
  rewrite /line_convs -scalar_mxM -RtoC_mul => /matrixP /(_ ord0 ord0); rewrite !mxE /= => -[h].
  have h' : (z * (/ z * y) = z * 1)%coqR by rewrite h.
  by rewrite -Rmult_assoc Rinv_r in h'; lra.
rewrite {}ezy in ec.
have ew : o_wavelength o <> 0%coqR by rewrite /=; lra.
rewrite (conv_solve_run (o := o) (fx := 0) (fy := 0) (th := RtoC th_ex) eig_ex erefl ec erefl (pattern_period _ _ _ _ _ _ _ _) ew).
have -> : grating_of o 0 = Some 1%N by rewrite /grating_of /= andbF.
rewrite /solve_with; change (o_algo o) with TMM; change (o_thickness o) with (A1 [:: 3%coqR]); cbv beta iota.
set s := setup_of _ _ _ _ _ _.
have s9 : (sin th_ex * sin th_ex = 1 / 9)%coqR by apply: sin_pm; left.
have cp : (cos p * cos p = 1)%coqR by have := sin2_cos2 p; rewrite sp /Rsqr; lra.
have [kE kE'] := kx_phys (s := s) (f := p) 1 erefl erefl th_ex_bound erefl.
set k := (nt * sin th_ex * cos p)%coqR.
have ekx : kx_tiled s 1 0%N = RtoC k by rewrite /kx_tiled /tile_x mod0n kE /order /= /k; congr RtoC; field.
have eky : ky_tiled s 1 0%N = 0 by rewrite /ky_tiled /tile_y div0n kE' sp /order /= (_ : (_ + _)%coqR = 0%coqR) //; field.
have kk : (k * k = nt * nt / 9)%coqR.
  transitivity (nt * nt * (sin th_ex * sin th_ex) * (cos p * cos p))%coqR; first by rewrite /k; ring.
  by rewrite s9 cp; field.
have [||||||r [infos e1]] := well_solve_conical pv eig_ex_ok (s := s) (w := 1) (nt := nt) (nb := 2)
  (convs := [:: ((RtoC x)%:M, (RtoC y)%:M, (RtoC (/ y))%:M : 'M[C]_1)]) _ _ erefl erefl.
- split=> /=; try lra.
  + by exists nt.
  + by exists th_ex => //; exact: th_ex_bound.
  + by move=> q [<-]; exists p.
- by [].
- lra.
- by [].
- move=> [[|i] hi] //=; exists k, 0%coqR; split=> //; first nra.
  left=> k0; rewrite k0 in kk; nra.
- move=> c /= [<-|//]; split.
  + by split=> i j; rewrite !mxE !(ord1 i) !(ord1 j) eqxx conjR.
  + by rewrite /line_convs -scalar_mxM -RtoC_mul Rinv_l //; lra.
  by apply: scalar_layer_conical; rewrite ?ekx ?eky ?kk //; nra.
by rewrite e1; do 2 eexists.
Qed.

Lemma classical_no_flat pv eig o o' r : promised o 0 -> conv_solve pv eig o = (o', Solved r) -> no_flat_memo (o_memo o').
Proof.
move=> hpr /conv_solveE [fx [fy [cs [g [th [p [[ef ec eg pg et] [ep ew hg es]]]]]]]].
have eg0 : g = 0%N.
  inversion hpr as [nx ls h1 h2 h3 h4 [f h5 _]| | |].
  have fy0 : fy = 0%N by move: ef; rewrite h5 => -[].
  by move: eg; rewrite /grating_of h1 h2 h4 fy0 /=; case: h3 => ->; rewrite eqxx ?orbT => -[].
rewrite {}eg0 in es; move: es; rewrite /solve_with /=.
case: (o_algo o) => //; case: (o_thickness o) => [|ts|] //.
by case: (solve_1d _ _ _ _ _ _) => [[[d T1] infos]|] // [<- _].
Qed.
