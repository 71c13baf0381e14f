(** Solver objects with one absorbing line in a lossless grating. *)
From Coq Require Import Reals ZArith Lra.
From mathcomp Require Import all_ssreflect ssralg matrix mxalgebra.
From Coquelicot Require Import Complex.
From Verif Require Import Cplx Mx Spec SpecSolve SpecFilm SpecLayer SpecPassive SpecAbsorb SpecStrict SpecSpot ModelTM ModelFourier ModelVec ModelField ModelState
  SpecState ProofSetup ProofConv ProofLayer ProofInvert ProofState ProofState2 ProofEnd ProofWell ProofPassive ProofPassive3 ProofAbsorb3
  ProofAbsorb5 ModelTorchObj ProofStrict3 ExampleKit ProofObjEx ProofTorchPassEx ProofSymEx PropertiesFilm ProofSpot ProofSpot2.

Set Implicit Arguments.
Unset Strict Implicit.
Unset Printing Implicit Defensive.
Local Open Scope ring_scope.
Import GRing.Theory.

(** Air, one line of index 2 - i, air. *)
Definition dot_ex (i j : nat) : C := if j == 1%N then nab 2 else 1.
Lemma dot_passive i j : passive_index (dot_ex i j).
Proof.
rewrite /dot_ex; case: eqP => _; last by rewrite /passive_index expr1n /Im /=; lra.
have : absorbing_index (nab 2) by apply: nab_absorbs; lra.
by rewrite /absorbing_index /passive_index; lra.
Qed.
Lemma dot_spot ny nx : (0 < ny)%N -> (1 < nx)%N -> absorbing_pixel ny nx dot_ex.
Proof. by move=> h1 h2; exists 0%N, 1%N; split=> //; apply: nab_absorbs; lra. Qed.
Lemma dot_forward i j : (0 < Re (1 * dot_ex i j ^+ 2)%R)%coqR.
Proof.
rewrite mul1r /dot_ex; case: eqP => _; last by rewrite expr1n /Re /=; lra.
by rewrite /nab expr2 ReM /Re /Im /=; lra.
Qed.

(** A grating of [nx] lines one of which absorbs, order 0 only. *)
Definition dot_at (nx : nat) (ps : C) : obj := pattern 1 nx dot_ex 3 th_ex None ps 0.
Definition dot_t (nx : nat) (ps : C) : tobj := TObj (dot_at nx ps) (TRaster3 1 nx [:: dot_ex]) false.

Lemma dot_convs pv nx : (1 < nx)%N -> exists c, conv_discrete pv false true 0 0 (Raster 1 nx dot_ex) = Some c /\ absorbing_convs c.
Proof.
move=> hx; have n1 : nrm2 (1 : C) = 1%coqR by rewrite /nrm2 /Re /Im /=; ring.
have [|ex [ey [ez [e _ _ _]]]] := @discrete_defined pv true 0 0 (Raster 1 nx dot_ex) 1 (ltn0Sn 0) (ltnW hx) n1.
  by move=> i j _ _; exact: dot_forward.
exists (ex, ey, invmx ez); split=> //; apply: (discrete_spot _ _ e); last exact: dot_spot.
by move=> i j _ _; apply: passive_pxE; exact: dot_passive.
Qed.

Lemma dot_run pv nx ps : (1 < nx)%N -> exists o' (d : diffraction 1), conv_solve pv eig_ex (dot_at nx ps) = (o', Solved (Report (Some d) None None)).
Proof.
move=> hx; have [c [e hc]] := dot_convs pv hx.
have nx0 : (nx == 0%N) = false by case: (nx) hx.
have ec : convs_of pv (dot_at nx ps) 0 0 = Some [:: c] by rewrite /convs_of /= nx0 e.
have ew : o_wavelength (dot_at nx ps) <> 0%coqR by rewrite /=; lra.
rewrite (conv_solve_run (o := dot_at nx ps) (fx := 0) (fy := 0) (th := RtoC th_ex) eig_ex erefl ec erefl (pattern_period _ _ _ _ _ _ _ _) ew).
have -> : grating_of (dot_at nx ps) 0 = Some 0%N by rewrite /grating_of /= eqxx.
rewrite /solve_with /=; set s := setup_of _ _ _ _ _ _.
have dk : dark_1d eig_ex (pol s) (kx_vector s 1) (crop3 1 c).
  split; first exact: crop3_absorb.
  have -> : helmholtz (pol s) (kx_vector s 1) (crop3 1 c) = diag_mx (\row_i helmholtz (pol s) (kx_vector s 1) (crop3 1 c) i i).
    by apply/matrixP => i j; rewrite !mxE (ord1 i) (ord1 j) eqxx mulr1n.
  exact: eig_ex_splits.
have [||||||||r [T1 [infos e1]]] := absorb_solve_1d pv eig_ex_ok (s := s) (w := 1) (convs := [:: crop3 1 c]) (nt := 3) (nb := 2) _ erefl erefl.
- split=> //.
  + by exists 3%coqR => //; lra.
  + by exists th_ex => //; exact: th_ex_bound.
  + by rewrite /=; lra.
  + by rewrite /=; lra.
- lra.
- by left.
- lra.
- by move=> t /= [<-|//]; lra.
- by [].
- by move=> c' /= [<-|//]; right.
- by right; exists (crop3 1 c) => //; left.
by rewrite e1; do 2 eexists.
Qed.

Lemma dot_ok nx ps : (1 < nx)%N -> is_real ps -> let o := dot_at nx ps in
  [/\ physical_obj o, passive_cell_of o, absorbing_spot_of o & thick_obj o].
Proof.
move=> hx hps o; split.
- split=> //=; try lra.
  + by exists 3%coqR => //; lra.
  + by move=> th [<-]; exists th_ex => //; exact: th_ex_bound.
  + by move=> us [<-] p /= [<-|[<-|//]]; lra.
- by move=> f /= [<-|//] i j _ _; exact: dot_passive.
- exists 0%N, [:: 3%coqR], 3%coqR; split=> //; first lra.
  by split; [right|exists dot_ex => //; exact: dot_spot].
by move=> us u [<-] /= [<-|//]; lra.
Qed.
