(** Vocabulary for derivatives: pairings of gradients with perturbations, derivatives of matrix curves, first-order
    perturbations of an eigen-decomposition. *)
From Coq Require Import Reals.
From mathcomp Require Import all_ssreflect ssralg matrix.
From Coquelicot Require Import Complex.
From Verif Require Import Cplx Mx.

Set Implicit Arguments.
Unset Strict Implicit.
Unset Printing Implicit Defensive.
Local Open Scope ring_scope.
Import GRing.Theory.

(** PyTorch's convention: the change of a real loss is the sum of Re (conj g dz). *)
Definition torch_dot m n (g d : 'M[C]_(m, n)) : R :=
  \big[Rplus/0%coqR]_(i < m) \big[Rplus/0%coqR]_(j < n) Re (conj (g i j) * d i j).
(** JAX's convention: the sum of Re (g dz). *)
Definition jax_dot m n (g d : 'M[C]_(m, n)) : R :=
  \big[Rplus/0%coqR]_(i < m) \big[Rplus/0%coqR]_(j < n) Re (g i j * d i j).

(** The derivative at 0 of a curve in C, and of a curve of matrices. *)
Definition derC (f : R -> C) (d : C) : Prop :=
  derivable_pt_lim (fun t => Re (f t)) 0 (Re d) /\ derivable_pt_lim (fun t => Im (f t)) 0 (Im d).
Definition derM m n (f : R -> 'M[C]_(m, n)) (d : 'M[C]_(m, n)) : Prop :=
  forall i j, derC (fun t => f t i j) (d i j).

(** Columns of [W] are eigenvectors of [A] for the eigenvalues [lam]. *)
Definition diagonalises n (A : 'M[C]_n) (lam : 'rV[C]_n) (W : 'M[C]_n) : Prop := A *m W = W *m diag_mx lam.
Definition distinct n (lam : 'rV[C]_n) : Prop := forall i j, i != j -> lam ord0 i <> lam ord0 j.
(** The linearised eigen equation. *)
Definition first_order n (A : 'M[C]_n) (lam : 'rV[C]_n) (W dA : 'M[C]_n) (dlam : 'rV[C]_n) (dW : 'M[C]_n) : Prop :=
  dA *m W + A *m dW = dW *m diag_mx lam + W *m diag_mx dlam.
(** Component of the change of eigenvector j along eigenvector i. *)
Definition component n (W dW : 'M[C]_n) (i j : 'I_n) : C := (invmx W *m dW) i j.
(** No eigenvector changes along itself. *)
Definition fixed_scale n (W dW : 'M[C]_n) : Prop := forall i, component W dW i i = 0.

(** [gl], [gW] is the gradient of the real function [L] at [lam], [W]: it gives the derivative along every curve. *)
Definition gradient_at n (L : 'rV[C]_n -> 'M[C]_n -> R) (lam : 'rV[C]_n) (W : 'M[C]_n) (gl : 'rV[C]_n) (gW : 'M[C]_n) : Prop :=
  forall l w dl dw, l 0%coqR = lam -> w 0%coqR = W -> derM l dl -> derM w dw ->
  derivable_pt_lim (fun t => L (l t) (w t)) 0 (torch_dot gl dl + torch_dot gW dw)%coqR.
(** The same in JAX's convention. *)
Definition jax_gradient_at n (L : 'rV[C]_n -> 'M[C]_n -> R) lam W gl gW : Prop :=
  forall l w dl dw, l 0%coqR = lam -> w 0%coqR = W -> derM l dl -> derM w dw ->
  derivable_pt_lim (fun t => L (l t) (w t)) 0 (jax_dot gl dl + jax_dot gW dw)%coqR.
(** The function does not depend on the scaling of the eigenvectors. *)
Definition scale_free n (L : 'rV[C]_n -> 'M[C]_n -> R) : Prop :=
  forall lam W (c : 'rV[C]_n), (forall i, c ord0 i <> 0) -> L lam (W *m diag_mx c) = L lam W.

(** Columns of unit length, as LAPACK returns them. *)
Definition unit_columns n (W : 'M[C]_n) : Prop := forall j, \big[Rplus/0%coqR]_(i < n) nrm2 (W i j) = 1%coqR.

(** The Moore-Penrose conditions. *)
Definition moore_penrose n (A P : 'M[C]_n) : Prop :=
  [/\ A *m P *m A = A, P *m A *m P = P, adj (A *m P) = A *m P & adj (P *m A) = P *m A].

Definition real_matrix m n (A : 'M[C]_(m, n)) : Prop := forall i j, Im (A i j) = 0%coqR.
