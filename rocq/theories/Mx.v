(** Matrix helpers over C: adjoint, diagonal matrices built from index functions. *)
From Coq Require Import Reals Lra Psatz.
From mathcomp Require Import all_ssreflect ssralg matrix mxalgebra.
From Coquelicot Require Import Complex.
From Verif Require Import Cplx.

Set Implicit Arguments.
Unset Strict Implicit.
Unset Printing Implicit Defensive.
Local Open Scope ring_scope.
Import GRing.Theory.

(** Conjugate transpose. *)
Definition adj m n (A : 'M[C]_(m, n)) : 'M[C]_(n, m) := map_mx conj A^T.

Lemma adjE m n (A : 'M[C]_(m, n)) i j : adj A i j = conj (A j i).
Proof. by rewrite !mxE. Qed.
Lemma adjM m n p (A : 'M[C]_(m, n)) (B : 'M[C]_(n, p)) : adj (A *m B) = adj B *m adj A.
Proof. by rewrite /adj trmx_mul map_mxM. Qed.
Lemma adjD m n (A B : 'M[C]_(m, n)) : adj (A + B) = adj A + adj B.
Proof. by rewrite /adj linearD map_mxD. Qed.
Lemma adjN m n (A : 'M[C]_(m, n)) : adj (- A) = - adj A.
Proof. by rewrite /adj linearN map_mxN. Qed.
Lemma adjB m n (A B : 'M[C]_(m, n)) : adj (A - B) = adj A - adj B.
Proof. by rewrite adjD adjN. Qed.
Lemma adjZ m n (a : C) (A : 'M[C]_(m, n)) : adj (a *: A) = conj a *: adj A.
Proof. by rewrite /adj linearZ map_mxZ. Qed.
Lemma adjK m n (A : 'M[C]_(m, n)) : adj (adj A) = A.
Proof. by apply/matrixP => i j; rewrite !mxE conjK. Qed.
Lemma adj1 n : adj (1%:M : 'M[C]_n) = 1%:M.
Proof. by rewrite /adj trmx1 map_mx1. Qed.
Lemma adj0 m n : adj (0 : 'M[C]_(m, n)) = 0.
Proof. by apply/matrixP => i j; rewrite !mxE conj0. Qed.
Lemma adj_inj m n (A B : 'M[C]_(m, n)) : adj A = adj B -> A = B.
Proof. by move=> h; rewrite -(adjK A) h adjK. Qed.
Lemma adj_scalar n (a : C) : adj (a%:M : 'M[C]_n) = (conj a)%:M.
Proof. by rewrite /adj tr_scalar_mx map_scalar_mx. Qed.

(** [np.diag] of a vector given as an index function. *)
Definition diagf n (f : nat -> C) : 'M[C]_n := diag_mx (\row_(i < n) f i).

Lemma adj_diag n (v : 'rV[C]_n) : adj (diag_mx v) = diag_mx (map_mx conj v).
Proof. by rewrite /adj tr_diag_mx map_diag_mx. Qed.
Lemma diagfE n f (i j : 'I_n) : diagf n f i j = f i *+ (i == j).
Proof. by rewrite !mxE. Qed.
Lemma adj_diagf n f : adj (diagf n f) = diagf n (fun i => conj (f i)).
Proof. by rewrite adj_diag; congr diag_mx; apply/rowP => i; rewrite !mxE. Qed.
Lemma diagfM n f g : diagf n f *m diagf n g = diagf n (fun i => f i * g i).
Proof. by rewrite /diagf mulmx_diag; congr diag_mx; apply/rowP => i; rewrite !mxE. Qed.
Lemma diagfD n f g : diagf n f + diagf n g = diagf n (fun i => f i + g i).
Proof. by rewrite /diagf -raddfD; congr diag_mx; apply/rowP => i; rewrite !mxE. Qed.
Lemma diagfN n f : - diagf n f = diagf n (fun i => - f i).
Proof. by rewrite /diagf -raddfN; congr diag_mx; apply/rowP => i; rewrite !mxE. Qed.
Lemma diagfZ n a f : a *: diagf n f = diagf n (fun i => a * f i).
Proof. by rewrite /diagf -linearZ; congr diag_mx; apply/rowP => i; rewrite !mxE. Qed.
Lemma diagf1 n : diagf n (fun _ => 1) = 1%:M.
Proof. by apply/matrixP => i j; rewrite !mxE. Qed.
Lemma diagf_eq n f g : (forall i, (i < n)%N -> f i = g i) -> diagf n f = diagf n g.
Proof. by move=> h; congr diag_mx; apply/rowP => i; rewrite !mxE h. Qed.

(** Left multiplication by an invertible matrix. *)
Lemma invmx_lK n (A : 'M[C]_n) m (B : 'M[C]_(n, m)) : A \in unitmx -> A *m (invmx A *m B) = B.
Proof. by move=> u; rewrite mulKVmx. Qed.

(** Scalar ring goals whose atoms are matrix entries. *)
Ltac genmx :=
  repeat match goal with
  | |- context [@fun_of_matrix _ ?m ?n ?A ?i ?j] =>
      let x := fresh "x" in set x := (@fun_of_matrix C m n A i j); clearbody x
  end.
Ltac mring := ceq; genmx; cnorm; ring.

(** Equalities of matrices in the abelian group generated by maximal products. *)
Ltac genprod :=
  repeat match goal with
  | |- context [@mulmx _ ?m ?n ?p ?A ?B] =>
      let x := fresh "x" in set x := (@mulmx C_ringType m n p A B); clearbody x
  end;
  repeat match goal with
  | |- context [@scalar_mx _ ?n ?a] =>
      let x := fresh "x" in set x := (@scalar_mx C_ringType n a); clearbody x
  end.
Ltac mxab := genprod; apply/matrixP => ? ?; rewrite !mxE; mring.
(** Distribute products over sums, then close by [mxab]. *)
Ltac mxring := rewrite ?(mulmxDl, mulmxDr, mulmxBl, mulmxBr, mulNmx, mulmxN, mul1mx, mulmx1, mulmx0, mul0mx,
  opprK, mulmxA, scalemxAl); mxab.
