(** What a list of rectangles painted one after the other looks like. *)
From Coq Require Import Reals.
From mathcomp Require Import all_ssreflect ssralg.
From Coquelicot Require Import Complex.
From Verif Require Import Cplx ModelFourier ModelVec.

Set Implicit Arguments.
Unset Strict Implicit.
Unset Printing Implicit Defensive.
Local Open Scope R_scope.

Definition covers (o : rect) (x y : R) : Prop :=
  r_left o < x < r_right o /\ r_top o < y < r_bottom o.

(** [c] is what one sees at (x, y): the last rectangle that covers the point, or the base. *)
Definition painted (base : C) (objs : seq rect) (x y : R) (c : C) : Prop :=
  (exists pre o post, [/\ objs = pre ++ o :: post, covers o x y, forall o', List.In o' post -> ~ covers o' x y
                        & c = r_index o]) \/
  ((forall o, List.In o objs -> ~ covers o x y) /\ c = base).

(** Grid lines: strictly increasing; cell [i] lies between line [i - 1] (or 0) and line [i]. *)
Definition increasing (a : seq R) : Prop := forall i j, (i < j)%N -> (j < size a)%N -> nth 0 a i < nth 0 a j.
Definition in_cell (a : seq R) (i : nat) (v : R) : Prop :=
  (i < size a)%N /\ (if i is i'.+1 then nth 0 a i' else 0) < v < nth 0 a i.

(** A grid for edges [es] of a period [p]: the edges and the period, without 0. *)
Definition grid_for (p : R) (es : seq R) (a : seq R) : Prop :=
  [/\ increasing a, last 0 a = p & forall v, List.In v a <-> v <> 0 /\ (v = p \/ List.In v es)].

Definition x_edges (objs : seq rect) : seq R := flatten [seq [:: r_left o; r_right o] | o <- objs].
Definition y_edges (objs : seq rect) : seq R := flatten [seq [:: r_top o; r_bottom o] | o <- objs].

(** All rectangles lie in the period and no two edges coincide. *)
Definition general_position (px py : R) (objs : seq rect) : Prop :=
  [/\ 0 < px /\ 0 < py, List.NoDup (x_edges objs), List.NoDup (y_edges objs)
    & forall o, List.In o objs -> 0 <= r_left o < r_right o /\ r_right o <= px /\ 0 <= r_top o < r_bottom o /\ r_bottom o <= py].

(** Rectangles inside the period, edges may coincide. *)
Definition in_period (px py : R) (objs : seq rect) : Prop :=
  [/\ 0 < px, 0 < py & forall o, List.In o objs ->
      0 <= r_left o < r_right o /\ r_right o <= px /\ 0 <= r_top o < r_bottom o /\ r_bottom o <= py].

(** Coinciding edges may be moved apart by this much at most (four edges for each of [n] rectangles, a unit of 10^-14 per
    coincidence, relative to the edge). *)
Definition nudge (n : nat) (p : R) : R := INR (4 * n) / 10 ^ 14 * (1 + p).
(** Two edges coincide or are clearly apart. *)
Definition apart (d : R) (es : seq R) : Prop := forall u w, List.In u es -> List.In w es -> u = w \/ 2 * d < Rabs (u - w).
Definition away (d : R) (es : seq R) (v : R) : Prop := forall u, List.In u es -> d < Rabs (v - u).
Definition grid_near (d p : R) (es a : seq R) : Prop :=
  [/\ last 0 a = p,
      forall v, List.In v a -> exists2 u, List.In u (0 :: p :: es) & Rabs (v - u) <= d
    & forall u, u <> 0 -> List.In u (p :: es) -> exists2 v, List.In v a & Rabs (v - u) <= d].
