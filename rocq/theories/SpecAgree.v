(** Vocabulary for comparing two runs: field arrays with the same samples, results related by a polarisation change. *)
From Coq Require Import Reals.
From mathcomp Require Import all_ssreflect ssralg matrix.
From Coquelicot Require Import Complex.
From Verif Require Import Cplx ModelTM ModelField SpecSolve.

Set Implicit Arguments.
Unset Strict Implicit.
Unset Printing Implicit Defensive.
Local Open Scope ring_scope.

(** Two field arrays have the same number of layers and the same value at every z sample. *)
Definition same_samples (A : Type) (res_z : nat) (f f' : seq (nat -> A)) : Prop :=
  size f = size f' /\
  forall k a b, List.nth_error f k = Some a -> List.nth_error f' k = Some b -> forall iz, (iz < res_z)%N -> a iz = b iz.

(** The classical-mount result [r1] (TE, or TM if [tm]) and a conical result [r] for incidence of the same polarisation
    carry the same power in every order, none of it in the other polarisation; the amplitudes differ by [f]. *)
Definition same_orders (n m : nat) (tm : bool) (f : C) (r1 : diffraction n) (r : diffraction m) : Prop :=
  forall (i : 'I_n) (j : 'I_m), i = j :> nat ->
  [/\ co_R tm r j ord0 = f * co_R tm r1 i ord0, co_T tm r j ord0 = f * co_T tm r1 i ord0,
      cross_R tm r j ord0 = 0 & cross_T tm r j ord0 = 0] /\
  [/\ de_ri r j = de_ri r1 i, de_ti r j = de_ti r1 i,
      de_ri_s r j = de_ri_s r1 i /\ de_ri_p r j = de_ri_p r1 i
    & de_ti_s r j = de_ti_s r1 i /\ de_ti_p r j = de_ti_p r1 i].

(** The same convolution matrices, indexed by an equal number of orders. *)
Definition cast_conv n m (e : n = m) (c : conv3 n) : conv3 m :=
  let '(a, b, d) := c in (castmx (e, e) a, castmx (e, e) b, castmx (e, e) d).

(** The efficiencies of a mixed incidence are the mixture, with weights [a] and [b], of the efficiencies of the two pure
    ones. *)
Definition mixture n (a b : R) (r r1 r2 : diffraction n) : Prop :=
  forall i, de_ri r i = (a * de_ri r1 i + b * de_ri r2 i)%coqR /\ de_ti r i = (a * de_ti r1 i + b * de_ti r2 i)%coqR.

(** Two results agree in all three reported incidences. *)
Definition same3 n (r r' : sp_result n) := [/\ res r = res r', res_te_inc r = res_te_inc r' & res_tm_inc r = res_tm_inc r'].

(** Two field arrays, as functions of the grid and of the transmitted amplitudes, have the same samples in all three
    incidences. *)
Definition same_fields n (r r' : sp_result n)
  (f f' : R -> R -> nat -> nat -> nat -> 'cV[C]_(n + n) -> seq (nat -> nat -> nat -> seq C)) : Prop :=
  forall px py rx ry rz,
  [/\ same_samples rz (f px py rx ry rz (T1_res r)) (f' px py rx ry rz (T1_res r')),
      same_samples rz (f px py rx ry rz (T1_te r)) (f' px py rx ry rz (T1_te r'))
    & same_samples rz (f px py rx ry rz (T1_tm r)) (f' px py rx ry rz (T1_tm r'))].

(** The polarisation of the classical-mount solver, the incidence of the same polarisation among the three of the conical
    and 2D solvers, and the ratio of the amplitudes (the classical mount counts TM amplitudes of H, the other solvers of E). *)
Definition tm_of s := is_tm (pol s).
Definition pure n (s : setup) (r : sp_result n) : diffraction n := if tm_of s then res_tm_inc r else res_te_inc r.
Definition scale_of (s : setup) : C := if tm_of s then ci * n_top s else 1.
