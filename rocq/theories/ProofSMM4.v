From Coq Require Import Reals Lra Psatz.
From mathcomp Require Import all_ssreflect ssralg matrix mxalgebra.
From Coquelicot Require Import Complex.
From Verif Require Import Cplx Mx Spec SpecSolve SpecField ModelTM ModelSMM SpecSMM ProofSMM ProofSMM2 ProofSMM3 ProofSMMEx.

Set Implicit Arguments.
Unset Strict Implicit.
Unset Printing Implicit Defensive.
Local Open Scope ring_scope.
Import GRing.Theory.

Lemma builder_cases n (l : seq (smat n)) :
  (forall A, l = [:: A] -> construct_global_scatter l = Some (Dict A)) /\
  (forall A B AB, l = [:: A; B] -> star A B = Some AB ->
     construct_global_scatter l = Some (Pair (block_mx (S11 AB) (S12 AB) (S21 AB) (S22 AB)) AB)) /\
  ((3 <= size l)%N -> construct_global_scatter l = None).
Proof.
split; first by move=> A ->.
split; first by move=> A B AB -> /= ->.
case: l => [|a [|b [|c l]]] //= _.
have none (l' : seq (smat n)) : foldl (fun acc x => if acc is Some a0 then redheffer a0 (Dict x) else None) None l' = None by elim: l'.
by case: star.
Qed.

Lemma film_gap2 n : exists S, device (2 * PI) 1%:M (k 0 2)%:M (k 0 1)%:M (k 0 2)%:M [:: film n] = Some S.
Proof.
rewrite /device.
have -> : ab_half ((k 0 1)%:M : 'M[C]_n) (k 0 2)%:M = Some ((k (3/2) 0)%:M, (k (1/2) 0)%:M).
  rewrite /ab_half (@np_inv_by _ _ (k 0 (-1/2))); last by kc.
  by rewrite -scalar_mxM -raddfD -raddfB; congr (Some (_%:M, _%:M)); kc.
have -> : s_rt ((k (3/2) 0)%:M : 'M[C]_n) (k (1/2) 0)%:M true = Some (sc n (k (-1/3) 0) (k (4/3) 0) (k (2/3) 0) (k (1/3) 0)).
  rewrite /s_rt (@np_inv_by _ _ (k (2/3) 0)); last by kc.
  rewrite !scN -!scalar_mxM !scB !scale_scalar_mx.
  by congr (Some (Smat _%:M _%:M _%:M _%:M)); kc.
rewrite /=.
have -> : ab (1%:M : 'M[C]_n) 1%:M (k 0 2)%:M (k 0 2)%:M = Some ((k 2 0)%:M, (k 0 0)%:M).
  rewrite /ab (@np_inv_by _ 1 1) ?mulr1 // (@np_inv_by _ _ (k 0 (-1/2))); last by kc.
  by rewrite -!scalar_mxM -raddfD -raddfB; congr (Some (_%:M, _%:M)); kc.
have -> : s_layer ((k 2 0)%:M : 'M[C]_n) (k 0 0)%:M (1/8) (2 * PI) (const_mx (k 0 2)) = Some (sc n (k 0 0) (k 0 (-1)) (k 0 (-1)) (k 0 0)).
  rewrite /s_layer film_X (@np_inv_by _ _ (k (1/2) 0)); last by kc.
  rewrite -!scalar_mxM !scB (@np_inv_by _ _ (k (1/2) 0)); last by kc.
  by rewrite -!scalar_mxM; congr (Some (Smat _%:M _%:M _%:M _%:M)); kc.
rewrite star_sc; last by rewrite [k 0 0](_ : _ = 0) // mul0r subr0 oner_neq0.
have -> : ab_half ((k 0 2)%:M : 'M[C]_n) (k 0 2)%:M = Some ((k 2 0)%:M, (k 0 0)%:M).
  rewrite /ab_half (@np_inv_by _ _ (k 0 (-1/2))); last by kc.
  by rewrite -scalar_mxM -raddfD -raddfB; congr (Some (_%:M, _%:M)); kc.
by rewrite film_rt star_id_r; eexists.
Qed.

Lemma grazing_admittance : exists (nn : R) (kx : nat -> C), (0 < nn)%coqR /\ kx 0%N = RtoC nn /\
  kz_of (RtoC nn) (kx 0%N) 0 = 0 /\ homog_v false (RtoC nn) kx 0%N = ci.
Proof.
exists 1%coqR, (fun=> RtoC 1); do !split; first lra.
- by rewrite /kz_of subrr expr0n subr0 csqrt0 conj0.
- rewrite /homog_v /homog_kz subrr csqrt0 conj0 /orp eqxx.
  have p0 : perturbation != 0.
    by rewrite /perturbation; apply/eqP => /(congr1 fst) e; change ((/ 10 ^ 10)%coqR = 0%coqR) in e; move: e; apply: Rinv_neq_0_compat; apply: pow_nonzero; lra.
  have i0 : - ci != 0 by rewrite oppr_eq0; apply/eqP => /(congr1 snd) /= e; change (1%coqR = 0%coqR) in e; lra.
  by apply: (mulfI i0); rewrite [RHS]mulNr ci2 opprK invfM (mulrCA perturbation) mulfV // mulr1 mulfV.
Qed.
