(** Vocabulary for gradients and gradient methods. *)
From Coq Require Import Reals.
From mathcomp Require Import all_ssreflect ssralg.
From Coquelicot Require Import Complex Derive_2d.
From Verif Require Import Cplx.

Set Implicit Arguments.
Unset Strict Implicit.
Unset Printing Implicit Defensive.
Local Open Scope ring_scope.

Section Names.
Variable A : eqType.

(** The assignment [p] with entry [k] of the array [a] replaced by [z]. *)
Definition put (p : A -> nat -> C) (a : A) (k : nat) (z : C) : A -> nat -> C :=
  fun b j => if (b == a) && (j == k) then z else p b j.

(** The real loss [L] is differentiable in the real and imaginary part of one entry, with partial derivatives [dx] and [dy]. *)
Definition partials (L : (A -> nat -> C) -> R) (p : A -> nat -> C) (a : A) (k : nat) (dx dy : R) : Prop :=
  differentiable_pt_lim (fun x y => L (put p a k (x, y))) (Re (p a k)) (Im (p a k)) dx dy.

(** PyTorch returns dx + i dy, JAX returns dx - i dy. *)
Definition is_torch_gradient (L : (A -> nat -> C) -> R) (p : A -> nat -> C) (a : A) (g : nat -> C) : Prop :=
  forall k, partials L p a k (Re (g k)) (Im (g k)).
Definition is_jax_gradient (L : (A -> nat -> C) -> R) (p : A -> nat -> C) (a : A) (g : nat -> C) : Prop :=
  forall k, partials L p a k (Re (g k)) (- Im (g k))%coqR.

(** Rate of change of the loss when one entry moves against [g]. *)
Definition slope_against (L : (A -> nat -> C) -> R) (p : A -> nat -> C) (a : A) (k : nat) (g : C) (l : R) : Prop :=
  derivable_pt_lim (fun t => L (put p a k (p a k - RtoC t * g))) 0 l.

(** [L] has the derivative given by [g] (dx + i dy) along every direction supported on the entries [dom]. *)
Definition directional (L : (A -> nat -> C) -> R) (p : A -> nat -> C) (dom : seq (A * nat)) (g : A -> nat -> C) : Prop :=
  forall d : A -> nat -> C, (forall a k, (a, k) \notin dom -> d a k = 0) ->
  derivable_pt_lim (fun t => L (fun a k => p a k + RtoC t * d a k)) 0
    (foldr Rplus 0%coqR [seq (Re (g e.1 e.2) * Re (d e.1 e.2) + Im (g e.1 e.2) * Im (d e.1 e.2))%coqR | e <- dom]).

(** Plain gradient descent with learning rate [lr]. *)
Definition sgd (lr : R) (_ : unit) (p g : A -> nat -> C) : unit * (A -> nat -> C) := (tt, fun a k => p a k - RtoC lr * g a k).

(** [rounds] steps of the method [M] with gradient [G], on the arrays named in [pois]; the others stay. *)
Fixpoint gradient_method (S : Type) (M : S -> (A -> nat -> C) -> (A -> nat -> C) -> S * (A -> nat -> C)) (G : (A -> nat -> C) -> A -> nat -> C)
  (pois : seq A) (rounds : nat) (s : S) (p : A -> nat -> C) : S * (A -> nat -> C) :=
  if rounds is r.+1 then
    let (s', p') := gradient_method M G pois r s p in
    let (s2, q) := M s' p' (G p') in (s2, fun a => if a \in pois then q a else p' a)
  else (s, p).
End Names.
