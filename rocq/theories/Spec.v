(** Vocabulary in which the properties are stated.  Nothing here refers to the helpers of the model. *)
From Coq Require Import Reals.
From mathcomp Require Import all_ssreflect ssralg matrix.
From Coquelicot Require Import Complex.
From Verif Require Import Cplx.

Set Implicit Arguments.
Unset Strict Implicit.
Unset Printing Implicit Defensive.
Local Open Scope ring_scope.

(** Sum of a finite family of reals. *)
Definition total n (f : 'I_n -> R) : R := \big[Rplus/0%coqR]_(i < n) f i.

(** Entrywise definition of a Hermitian matrix. *)
Definition hermitian n (A : 'M[C]_n) : Prop := forall i j, A i j = conj (A j i).

(** What is assumed of [np.linalg.eig]: column j of the returned matrix is an eigenvector for the j-th returned
    eigenvalue.  Nothing is assumed about independence of the columns. *)
Definition eigen_oracle (eig : forall n, 'M[C]_n -> 'rV[C]_n * 'M[C]_n) : Prop :=
  forall n (A : 'M[C]_n) (j : 'I_n),
    A *m col j (eig n A).2 = (eig n A).1 ord0 j *: col j (eig n A).2.

(** What is assumed of [np.linalg.pinv]: the first Penrose equation. *)
Definition pinv_oracle (pinv : forall n, 'M[C]_n -> 'M[C]_n) : Prop :=
  forall n (A : 'M[C]_n), A *m pinv n A *m A = A.

(** A real, non-grazing plane wave incident from a lossless medium. *)
Definition is_real (z : C) : Prop := exists r : R, z = RtoC r.
Definition pos_real (z : C) : Prop := exists2 r : R, (0 < r)%coqR & z = RtoC r.
Definition angle_below_90 (z : C) : Prop := exists2 t : R, (0 <= t < PI / 2)%coqR & z = RtoC t.


(** An eigen-solver that returns independent eigenvectors for a diagonal matrix. *)
Definition splits_diagonal (eig : forall n, 'M[C]_n -> 'rV[C]_n * 'M[C]_n) : Prop :=
  forall n (D : 'rV[C]_n), (eig n (diag_mx D)).2 \in unitmx.
