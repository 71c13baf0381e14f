(** The PyTorch inversion: the fallback makes use_pinv irrelevant, and no 1D solve fails. *)
From Coq Require Import Reals Lra FunctionalExtensionality.
From mathcomp Require Import all_ssreflect ssralg matrix mxalgebra.
From Coquelicot Require Import Complex.
From Verif Require Import Cplx Mx Spec ModelTM ModelTorch SpecSolve ProofSetup ProofPinv ProofFlux ProofEnergy1D ProofWellSolve.

Set Implicit Arguments.
Unset Strict Implicit.
Unset Printing Implicit Defensive.
Local Open Scope ring_scope.
Import GRing.Theory.

Section Fallback.
Variable pinv : forall n, 'M[C]_n -> 'M[C]_n.
Variable eig : forall n, 'M[C]_n -> 'rV[C]_n * 'M[C]_n.
Hypothesis hp : pinv_oracle pinv.

Lemma t_inv_same : @t_inv pinv false = @t_inv pinv true.
Proof.
apply: functional_extensionality_dep => n; apply: functional_extensionality => x.
by rewrite /t_inv; case: ifP => // u; rewrite (pinv_inv hp u).
Qed.

Lemma fallback_1d s w convs : t_solve_1d pinv eig false s w convs = t_solve_1d pinv eig true s w convs.
Proof. by rewrite /t_solve_1d /t_rcwa_1d /t_transfer_1d_4 t_inv_same. Qed.
Lemma fallback_conical s w convs : t_solve_1d_conical pinv eig false s w convs = t_solve_1d_conical pinv eig true s w convs.
Proof. by rewrite /t_solve_1d_conical /t_rcwa_conical /t_transfer_sp_4 t_inv_same. Qed.
Lemma fallback_2d s w convs : t_solve_2d pinv eig false s w convs = t_solve_2d pinv eig true s w convs.
Proof. by rewrite /t_solve_2d /t_rcwa_2d /t_transfer_sp_4 /t_step_2d t_inv_same. Qed.
End Fallback.

Section Total.
Variable pinv : forall n, 'M[C]_n -> 'M[C]_n.
Variable eig : forall n, 'M[C]_n -> 'rV[C]_n * 'M[C]_n.

Lemma stack_total pol n kx k0 (ls : seq (layer n)) st : pol = 0%coqR \/ pol = 1%coqR ->
  exists st', stack_with (step_1d pinv eig true pol kx k0) ls st = Some st'.
Proof.
move=> hpol; elim: ls => [|l ls [st' IH]] /=; first by exists st.
rewrite IH; case: st' {IH} => [[[F G] T] infos]; rewrite /step_1d.
have [W [V [q ->]]] : exists W V q, transfer_1d_2 pinv eig true pol kx (epx l) (epy l) (epzi l) = Some (W, V, q).
  rewrite /transfer_1d_2; case: hpol => ->; rewrite /reqb; case: Req_EM_T => // h.
  - by case: (eig _) => l0 W0; do 3 eexists; reflexivity.
  - lra.
  - case: Req_EM_T => // h2 /=; case: (eig _) => l0 W0; do 3 eexists; reflexivity.
by rewrite /transfer_1d_3 /layer_update /=; eexists.
Qed.

End Total.

Section Total1d.
Variable pinv : forall n, 'M[C]_n -> 'M[C]_n.
Variable eig : forall n, 'M[C]_n -> 'rV[C]_n * 'M[C]_n.
Lemma total_1d up s w (convs : seq (conv3 (ff_x s))) : (size (thickness s) <= size convs)%N -> pol s = 0%coqR \/ pol s = 1%coqR ->
  exists r, t_solve_1d pinv eig up s w convs = Some r.
Proof.
move=> hs hpol; have [ls e] := layers_of_some hs; rewrite /t_solve_1d e /t_rcwa_1d /t_transfer_1d_1.
have hr : reqb (pol s) 0 \/ reqb (pol s) 0 = false /\ reqb (pol s) 1.
  rewrite /reqb; case: hpol => ->; first by left; case: Req_EM_T.
  right; split; case: Req_EM_T => // h; lra.
case: hr => [h0|[h0 h1]]; rewrite /t_transfer_1d_4 h0 ?h1.
- by have [[[[F G] T] infos] ->] := stack_total (t_inv pinv up) eig (t_kx_vector s w) (k0_of w) ls (1%:M, ci *: diagf (ff_x s) (t_kz_1d (n_bot s) (t_kx_vector s w)), 1%:M, [::]) hpol; eexists.
- have [[[[F G] T] infos] ->] := stack_total (t_inv pinv up) eig (t_kx_vector s w) (k0_of w) ls
    (1%:M, ci *: diagf (ff_x s) (fun i => t_kz_1d (n_bot s) (t_kx_vector s w) i / n_bot s ^+ 2), 1%:M, [::]) hpol; by eexists.
Qed.
End Total1d.
