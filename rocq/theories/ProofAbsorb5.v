(** Patterns whose every pixel absorbs have absorbing convolution matrices. *)
From Coq Require Import Reals Lra.
From mathcomp Require Import all_ssreflect ssralg matrix.
From Coquelicot Require Import Complex.
From Verif Require Import Cplx Mx Spec SpecFourier ModelTM ModelFourier SpecSolve SpecLayer SpecPassive SpecAbsorb ProofWell ProofInvert ProofPassive ProofPassive3.

Set Implicit Arguments.
Unset Strict Implicit.
Unset Printing Implicit Defensive.
Local Open Scope ring_scope.
Import GRing.Theory.

Lemma coercive_quad n u (A : 'M[C]_n) (v : 'cV[C]_n) : coercive u A -> v <> 0 -> (0 < Re (u * quad A v)%R)%coqR.
Proof. by move=> /coercive_definite h v0; have := h v v0; rewrite quad_form formE. Qed.

Lemma coercive_absorbs n (ex ey ez : 'M[C]_n) : coercive ci ex -> coercive ci ey -> coercive ci ez ->
  absorbing_convs (ex, ey, invmx ez).
Proof.
move=> hx hy hz v v0; have h1 := coercive_quad hx v0; have h2 := coercive_quad hy v0.
have h3 := coercive_quad (coercive_inv hz) v0.
rewrite Re_ci in h1; rewrite Re_ci in h2; rewrite conjI mulNr ReN Re_ci in h3; split; lra.
Qed.

Lemma nrm2_ci : nrm2 ci = 1%coqR. Proof. by rewrite /nrm2 /ci /Re /Im /=; ring. Qed.

Lemma absorbing_px n : absorbing_index n -> (0 < Re (ci * n ^+ 2)%R)%coqR.
Proof. by rewrite /absorbing_index Re_ci; lra. Qed.

Section S.
Variables (pinv : forall n, 'M[C]_n -> 'M[C]_n) (fx fy : nat) (l : raster).

Lemma discrete_absorbs e : (0 < rows l)%N -> (0 < cols l)%N -> all_px absorbing_index l ->
  exists2 c, conv_discrete pinv false e fx fy l = Some c & absorbing_convs c.
Proof.
move=> hr hc h; have h' : all_px (fun n => 0 < Re (ci * n ^+ 2)%R)%coqR l by move=> i j hi hj; apply: absorbing_px; exact: h.
have [ex [ey [ez [e1 h1 h2 h3]]]] := discrete_defined pinv e fx fy hr hc nrm2_ci h'.
by exists (ex, ey, invmx ez) => //; exact: coercive_absorbs.
Qed.

Lemma continuous_absorbs : (0 < rows l)%N -> (0 < cols l)%N -> all_px absorbing_index l ->
  exists2 c, conv_continuous pinv false fx fy l = Some c & absorbing_convs c.
Proof.
move=> hr hc h; have h' : all_px (fun n => 0 < Re (ci * n ^+ 2)%R)%coqR l by move=> i j hi hj; apply: absorbing_px; exact: h.
have [ex [ey [ez [e1 h1 h2 h3]]]] := continuous_defined pinv fx fy hr hc nrm2_ci h'.
by exists (ex, ey, invmx ez) => //; exact: coercive_absorbs.
Qed.

Lemma vector_absorbs x y px py : covers x px -> covers y py -> rows l = size y -> cols l = size x -> all_px absorbing_index l ->
  exists2 c, conv_vector pinv false fx fy (l, x, y) = Some c & absorbing_convs c.
Proof.
move=> cx cy hr hc h; have h' : all_px (fun n => 0 < Re (ci * n ^+ 2)%R)%coqR l by move=> i j hi hj; apply: absorbing_px; exact: h.
have [ex [ey [ez [e1 h1 h2 h3]]]] := vector_defined pinv fx fy cx cy hr hc nrm2_ci h'.
by exists (ex, ey, invmx ez) => //; exact: coercive_absorbs.
Qed.
End S.
