(** Properties of the hand-written backward passes (eigen-decomposition, pseudo-inverse). *)
From Coq Require Import Reals Lra Psatz.
From mathcomp Require Import all_ssreflect ssralg matrix.
From Coquelicot Require Import Complex.
From Verif Require Import Cplx Mx ModelGrad SpecGrad ProofGrad ProofGrad2 ProofGradEx.

Set Implicit Arguments.
Unset Strict Implicit.
Unset Printing Implicit Defensive.
Local Open Scope ring_scope.
Import GRing.Theory.

(** ** C41: the gradient of the eigen-decomposition pairs with any perturbation to the first-order change. *)

(** What the first-order change is: it exists for every perturbation, is unique up to the scaling of the eigenvectors, and
    is what differentiable decompositions have. *)
Theorem C41_first_order n (A : 'M[C]_n) lam W dA : diagonalises A lam W -> W \in unitmx -> distinct lam ->
  (exists dlam dW, first_order A lam W dA dlam dW /\ fixed_scale W dW) /\
  forall dlam dW dlam' dW', first_order A lam W dA dlam dW -> first_order A lam W dA dlam' dW' ->
  dlam = dlam' /\ forall i j, i != j -> component W dW i j = component W dW' i j.
Proof.
move=> hA hW hd; split; first exact (first_order_exists hA hW dA hd).
move=> dlam dW dlam' dW'; exact (first_order_unique hA hW hd).
Qed.
Print Assumptions C41_first_order.

Theorem C41_curve n (A W : R -> 'M[C]_n) (lam : R -> 'rV[C]_n) dA dlam dW :
  (forall t, diagonalises (A t) (lam t) (W t)) -> derM A dA -> derM lam dlam -> derM W dW ->
  first_order (A 0%coqR) (lam 0%coqR) (W 0%coqR) dA dlam dW.
Proof. exact (@curve_first_order n A W lam dA dlam dW). Qed.
Print Assumptions C41_curve.

(** PyTorch, with or without regularisation (the regularised formula needs no distinct eigenvalues): the pairing is the
    first-order change, minus what belongs to the scaling of the eigenvectors, minus the damping of each pair of modes. *)
Theorem C41_torch n eps (real_in : bool) (A : 'M[C]_n) lam W gl gW dA dlam dW :
  diagonalises A lam W -> W \in unitmx -> first_order A lam W dA dlam dW -> (0 <= eps)%coqR ->
  ((0 < eps)%coqR \/ distinct lam) -> (real_in -> real_matrix dA) ->
  exists2 G, eig_backward eps real_in lam W gl gW = Some G &
  torch_dot G dA = (torch_dot gl dlam + torch_dot gW dW
    - \big[Rplus/0%coqR]_(i < n) Re (conj ((adj W *m gW) i i) * component W dW i i)%R
    - \big[Rplus/0%coqR]_(i < n) \big[Rplus/0%coqR]_(j < n | i != j)
        (eps / (nrm2 (lam ord0 j - lam ord0 i)%R + eps) * Re (conj ((adj W *m gW) i j) * component W dW i j)%R))%coqR.
Proof. exact (@backward_all n eps real_in A lam W gl gW dA dlam dW). Qed.
Print Assumptions C41_torch.

(** JAX is the same function in JAX's conjugated convention. *)
Theorem C41_jax eps real_in n (lam : 'rV[C]_n) W gl gW : eig_bwd eps real_in lam W gl gW =
  omap (map_mx conj) (eig_backward eps real_in lam W (map_mx conj gl) (map_mx conj gW)).
Proof. exact (@eig_bwdE eps real_in n lam W gl gW). Qed.
Print Assumptions C41_jax.

(** Hence the chain rule for every real loss that does not depend on the scaling of the eigenvectors. *)
Theorem C41_loss_torch n (real_in : bool) (A W : R -> 'M[C]_n) (lam : R -> 'rV[C]_n) dA dlam dW L gl gW :
  (forall t, diagonalises (A t) (lam t) (W t)) -> (real_in -> forall t, real_matrix (A t)) ->
  derM A dA -> derM lam dlam -> derM W dW ->
  W 0%coqR \in unitmx -> distinct (lam 0%coqR) -> scale_free L -> gradient_at L (lam 0%coqR) (W 0%coqR) gl gW ->
  exists2 G, eig_backward 0 real_in (lam 0%coqR) (W 0%coqR) gl gW = Some G &
  derivable_pt_lim (fun t => L (lam t) (W t)) 0 (torch_dot G dA).
Proof. exact (@loss_torch n real_in A W lam dA dlam dW L gl gW). Qed.
Print Assumptions C41_loss_torch.

Theorem C41_loss_jax n (real_in : bool) (A W : R -> 'M[C]_n) (lam : R -> 'rV[C]_n) dA dlam dW L gl gW :
  (forall t, diagonalises (A t) (lam t) (W t)) -> (real_in -> forall t, real_matrix (A t)) ->
  derM A dA -> derM lam dlam -> derM W dW ->
  W 0%coqR \in unitmx -> distinct (lam 0%coqR) -> scale_free L -> jax_gradient_at L (lam 0%coqR) (W 0%coqR) gl gW ->
  exists2 G, eig_bwd 0 real_in (lam 0%coqR) (W 0%coqR) gl gW = Some G &
  derivable_pt_lim (fun t => L (lam t) (W t)) 0 (jax_dot G dA).
Proof. exact (@loss_jax n real_in A W lam dA dlam dW L gl gW). Qed.
Print Assumptions C41_loss_jax.

(** A real 2 x 2 family with distinct eigenvalues and a loss that depends on the direction of an eigenvector. *)
Example C41_ex : exists dW,
  [/\ forall t, diagonalises (A_ex t) lam_ex (W_ex t), forall t, real_matrix (A_ex t), derM A_ex dA_ex /\ derM W_ex dW,
      W_ex 0 \in unitmx /\ distinct lam_ex & scale_free L_ex /\ gradient_at L_ex lam_ex (W_ex 0) 0 gW_ex].
Proof.
exists dA_ex; split; [exact: diag_ex|exact: real_ex|by split; [exact: der_A|exact: der_W]| |].
- by split; [exact: unit_ex|exact: distinct_ex].
- by split; [exact: L_ex_free|exact: L_ex_grad].
Qed.

(** The restriction is needed: for the unit-length eigenvectors LAPACK returns, the backward pass is not the gradient of a
    loss that depends on their length. *)
Theorem C41_unit_columns_refuted : ~ (forall n (A W : R -> 'M[C]_n) (lam : R -> 'rV[C]_n) dA dlam dW L gl gW,
  (forall t, diagonalises (A t) (lam t) (W t)) -> (forall t, unit_columns (W t)) ->
  derM A dA -> derM lam dlam -> derM W dW ->
  W 0%coqR \in unitmx -> distinct (lam 0%coqR) -> gradient_at L (lam 0%coqR) (W 0%coqR) gl gW ->
  forall G, eig_backward 0 false (lam 0%coqR) (W 0%coqR) gl gW = Some G ->
  derivable_pt_lim (fun t => L (lam t) (W t)) 0 (torch_dot G dA)).
Proof.
move=> h; have [dU hU eU] := der_U.
have h0 := h _ A_ex U_ex (fun _ => lam_ex) dA_ex 0 dU L_co 0 g_co diag_U unit_U der_A (derM_const lam_ex) hU inv_U distinct_ex
  (@L_co_grad _ _) _ U_backward.
have [h1 _] := hU (lift ord0 ord0) (lift ord0 ord0); rewrite eU in h1.
have := uniqueness_limite _ _ _ _ h0 h1; rewrite dot0 Re_RtoC /dnx.
have s2 : (0 < sqrt 2)%coqR by apply: sqrt_lt_R0; lra.
have : (0 < / (2 * sqrt 2))%coqR by apply: Rinv_0_lt_compat; lra.
lra.
Qed.
Print Assumptions C41_unit_columns_refuted.

(** ** C77: the backward pass of the pseudo-inverse is its derivative at invertible matrices, and only there. *)
Theorem C77_pinv n (A P : R -> 'M[C]_n) dA : (forall t, A t \in unitmx) -> (forall t, moore_penrose (A t) (P t)) ->
  derM A dA -> exists2 dP, derM P dP & forall g, torch_dot (pinv_backward (P 0%coqR) g) dA = torch_dot g dP.
Proof. exact (@pinv_exact n A P dA). Qed.
Print Assumptions C77_pinv.

Example C77_ex : [/\ forall t, A_ex t \in unitmx, forall t, moore_penrose (A_ex t) (invmx (A_ex t)) & derM A_ex dA_ex].
Proof. by split; [exact: inv_A|move=> t; apply: mp_inv; exact: inv_A|exact: der_A]. Qed.

Theorem C77_singular_refuted : ~ (forall n (A P : R -> 'M[C]_n) dA dP, (forall t, moore_penrose (A t) (P t)) ->
  derM A dA -> derM P dP -> forall g, torch_dot (pinv_backward (P 0%coqR) g) dA = torch_dot g dP).
Proof. by move=> h; exact: (pinv_wrong (h _ _ _ _ _ mp_ex der_S der_P _)). Qed.
Print Assumptions C77_singular_refuted.
