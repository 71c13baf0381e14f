(** Vocabulary about stacks with absorbing layers. *)
From Coq Require Import Reals.
From mathcomp Require Import all_ssreflect ssralg matrix.
From Coquelicot Require Import Complex.
From Verif Require Import Cplx Spec SpecSolve SpecPassive ModelTM.

Set Implicit Arguments.
Unset Strict Implicit.
Unset Printing Implicit Defensive.
Local Open Scope ring_scope.

(** The layer takes power out of every field (time dependence exp(+i w t); the third matrix is an inverse permittivity). *)
Definition absorbing_convs n (c : conv3 n) : Prop :=
  let '(ex, ey, ez) := c in
  forall v, v <> 0 -> [/\ (Im (quad ex v) < 0)%coqR, (Im (quad ey v) < 0)%coqR & (0 < Im (quad ez v))%coqR].

(** The eigen-solver returns independent eigenvectors. *)
Definition basis (eig : forall n, 'M[C]_n -> 'rV[C]_n * 'M[C]_n) n (A : 'M[C]_n) : Prop := (eig n A).2 \in unitmx.

(** Classical mount: lossless layers all of whose modes propagate, and absorbing layers. *)
Definition clear_1d eig n (p : R) kx (c : conv3 n) : Prop :=
  [/\ lossless_convs c, propagating_modes eig (helmholtz p kx c) & p = 1%coqR -> c.1.1 \in unitmx /\ positive_definite c.1.1].
Definition dark_1d eig n (p : R) kx (c : conv3 n) : Prop := absorbing_convs c /\ basis eig (helmholtz p kx c).

(** 2D. *)
Definition clear_2d eig n kx ky (c : conv3 n) : Prop := lossless_convs c /\ propagating_layer eig kx ky c.
Definition dark_2d eig n kx ky (c : conv3 n) : Prop :=
  absorbing_convs c /\ basis eig (e_from_h kx ky c *m h_from_e kx ky c).

(** Conical mount: two separate eigenproblems. *)
Definition clear_conical eig n kx ky (c : conv3 n) : Prop :=
  [/\ lossless_convs c, line_convs c & propagating_layer_conical eig kx ky c].
Definition dark_conical eig n kx ky (c : conv3 n) : Prop :=
  [/\ absorbing_convs c, line_convs c, basis eig (dk n ky ky + (dk n kx kx - c.1.2))
    & basis eig (dk n ky ky + (tk kx kx c.2 - 1%:M) *m c.1.1)].

(** No order runs exactly along the normal. *)
Definition oblique_orders n (kx ky : nat -> C) : Prop := forall i : 'I_n, kx i <> 0 \/ ky i <> 0.

(** The permittivity of the pixel has a strictly negative imaginary part. *)
Definition absorbing_index (n : C) : Prop := (Im (n ^+ 2)%R < 0)%coqR.
