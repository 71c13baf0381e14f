(** Model of the hand-written backward passes of the PyTorch and JAX backends.
    Sources: /repo/meent/on_torch/emsolver/primitives.py (Eig.backward, RobustPinv.backward),
    /repo/meent/on_jax/emsolver/primitives.py (eig_bwd).
    [inv] of a singular matrix raises in PyTorch and gives nan in JAX; both are [None] here.  The quotient 0/0 (equal
    eigenvalues and [perturbation = 0]) is nan in both; the field convention x/0 = 0 stands for it here and every theorem
    that needs the quotient assumes distinct eigenvalues or a positive perturbation. *)
From Coq Require Import Reals.
From mathcomp Require Import all_ssreflect ssralg matrix.
From Coquelicot Require Import Complex.
From Verif Require Import Cplx Mx ModelTM.

Set Implicit Arguments.
Unset Strict Implicit.
Unset Printing Implicit Defensive.
Local Open Scope ring_scope.
Import GRing.Theory.

(** [Fij / (torch.abs(Fij) ** 2 + Eig.perturbation)] (on_torch primitives.py:39; on_jax primitives.py:53). *)
Definition gap (eps : R) (d : C) : C := d / RtoC (Cmod d ^ 2 + eps)%coqR.

(** on_torch primitives.py:38-41; on_jax primitives.py:52-54: entry (i, j) from [eig_val[j] - eig_val[i]], diagonal 0. *)
Definition eig_F (eps : R) n (lam : 'rV[C]_n) : 'M[C]_n :=
  \matrix_(i, j) if i == j then 0 else gap eps (lam ord0 j - lam ord0 i).

(** The elementwise product [*]. *)
Definition times m n (A B : 'M[C]_(m, n)) : 'M[C]_(m, n) := \matrix_(i, j) (A i j * B i j).

(** [.real] of an array. *)
Definition real_mx m n (A : 'M[C]_(m, n)) : 'M[C]_(m, n) := map_mx (fun z => RtoC (Re z)) A.

(** [Eig.backward] (on_torch primitives.py:33-48); [real_in] is [not torch.is_complex(matrix)]. *)
Definition eig_backward (eps : R) (real_in : bool) n (lam : 'rV[C]_n) (W : 'M[C]_n) (gl : 'rV[C]_n) (gW : 'M[C]_n)
  : option 'M[C]_n :=
  let W_H := adj W in
  if W_H \in unitmx then
    let grad := invmx W_H *m (diag_mx gl + times (eig_F eps lam) (W_H *m gW)) *m W_H in
    Some (if real_in then real_mx grad else grad)
  else None.

(** [eig_bwd] (on_jax primitives.py:46-69). *)
Definition eig_bwd (eps : R) (real_in : bool) n (lam : 'rV[C]_n) (W : 'M[C]_n) (gl : 'rV[C]_n) (gW : 'M[C]_n)
  : option 'M[C]_n :=
  let W_H := adj W in
  if W_H \in unitmx then
    let grad := invmx W_H *m (map_mx conj (diag_mx gl) + times (eig_F eps lam) (W_H *m map_mx conj gW)) *m W_H in
    let grad := map_mx conj grad in
    Some (if real_in then real_mx grad else grad)
  else None.

(** [RobustPinv.backward] (on_torch primitives.py:84-89); [res] is the pseudo-inverse saved by the forward pass. *)
Definition pinv_backward n (res g : 'M[C]_n) : 'M[C]_n := - adj res *m g *m adj res.
