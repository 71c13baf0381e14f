(** Vocabulary about layers that absorb in one place. *)
From Coq Require Import Reals ZArith.
From mathcomp Require Import all_ssreflect ssralg matrix.
From Coquelicot Require Import Complex.
From Verif Require Import Cplx Spec SpecVec SpecPassive SpecAbsorb ModelTM ModelVec ModelState.

Set Implicit Arguments.
Unset Strict Implicit.
Unset Printing Implicit Defensive.
Local Open Scope ring_scope.

(** One pixel of the array absorbs. *)
Definition absorbing_pixel (ny nx : nat) (f : nat -> nat -> C) : Prop :=
  exists i j, [/\ (i < ny)%N, (j < nx)%N & absorbing_index (f i j)].

(** One point of the drawing absorbs: a point off all edges at which one sees an absorbing material. *)
Definition absorbing_point (px py : R) (base : C) (rs : seq rect) : Prop :=
  exists x y, [/\ (0 < x < px)%coqR, (0 < y < py)%coqR, ~ List.In x (x_edges rs), ~ List.In y (y_edges rs)
    & forall n, painted base rs x y n -> absorbing_index n].

(** In the attributes of the solver: layer [k] has positive thickness and absorbs somewhere.  Arrays are transformed as step
    functions: fourier_type 1, or fourier_type 0 with enhanced_dfs. *)
Definition absorbing_spot_of (o : obj) : Prop := exists k ts t,
  [/\ o_thickness o = A1 ts, List.nth_error ts k = Some t, (0 < t)%coqR &
  match o_cell o with
  | CRaster ny nx layers => (o_fourier_type o = 1%Z \/ o_enhanced o = true) /\
      exists2 f, List.nth_error layers k = Some f & absorbing_pixel ny nx f
  | CVector ins => exists b objs px py, [/\ List.nth_error ins k = Some (b, objs), period_of o = Some (px, py)
      & absorbing_point px py b (flatten (map draw_object objs))]
  | _ => False
  end].
