(** Model of the vector modelling of unit cells (object lists to non-uniform grids).
    Source: /repo/meent/on_numpy/modeler/modeling.py.
    Conventions
      - coordinates are real (the solver accepts one-element complex arrays whose imaginary part is zero);
      - a raised exception is [None];
      - rotated rectangles and ellipses are represented by the list of axis-parallel rectangles they return. *)
From Coq Require Import Reals.
From mathcomp Require Import all_ssreflect ssralg matrix.
From Coquelicot Require Import Complex.
From Verif Require Import Cplx ModelTM ModelFourier.

Set Implicit Arguments.
Unset Strict Implicit.
Unset Printing Implicit Defensive.
Local Open Scope ring_scope.

(** An entry [[top_left, bottom_right, index]] of an object list, with top_left = [top, left] and
    bottom_right = [bottom, right] (modeling.py:26-29). *)
Record rect := Rect { r_top : R; r_left : R; r_bottom : R; r_right : R; r_index : C }.

(** modeling.py:23-31. *)
Definition rectangle_no_approximation (cx cy lx ly : R) (base : C) : seq rect :=
  [:: Rect (cy - ly / 2) (cx - lx / 2) (cy + ly / 2) (cx + lx / 2) base]%coqR.

(** Comparison of two numbers as booleans. *)
Definition rltb (x y : R) : bool := if Rlt_dec x y then true else false.
Definition rleb (x y : R) : bool := if Rle_dec x y then true else false.

(** [bisect_left(a, x)] of the standard library: binary search for the insertion point (used in modeling.py:521, 543,
    558, 583).  [fuel] bounds the number of halvings; [size a] is always enough. *)
Fixpoint bisect (fuel : nat) (a : seq R) (x : R) (lo hi : nat) : nat :=
  match fuel with
  | 0 => lo
  | k.+1 => if (lo < hi)%N then
              let mid := (lo + hi)./2 in
              if rltb (nth 0%coqR a mid) x then bisect k a x mid.+1 hi else bisect k a x lo mid
            else lo
  end.
Definition bisect_left (a : seq R) (x : R) : nat := bisect (size a) a x 0 (size a).

(** [list.insert(index, x)]. *)
Definition insert_at (a : seq R) (i : nat) (x : R) : seq R := take i a ++ x :: drop i a.

(** [list.index(x)]: ValueError when absent. *)
Fixpoint index_of (a : seq R) (x : R) : option nat :=
  match a with
  | [::] => None
  | y :: a' => if reqb y x then Some 0%N else (if index_of a' x is Some k then Some k.+1 else None)
  end.

(** [perturbation_unit] (modeling.py:499). *)
Definition perturbation_unit : R := (1 / 10 ^ 14)%coqR.

(** One edge entering a grid list (modeling.py:517-539 for a top or left edge, 541-554 for a bottom or right edge,
    and again 556-577, 579-605).  Both outcomes of the test leave the retry loop at its first iteration.  Returns the
    perturbation count so far, the list and the possibly moved edge. *)
Definition insert_edge (upper : bool) (pert : R) (a : seq R) (v : R) : R * seq R * R :=
  let i := bisect_left a v in
  if (i < size a)%N && reqb v (nth 0%coqR a i) then
    let pert' := (pert + perturbation_unit)%coqR in
    let v' := if upper then (if reqb v 0 then v + pert' else v + v * pert')%coqR else (v - v * pert')%coqR in
    (pert', insert_at a i v', v')
  else (pert, insert_at a i v, v).

(** The first loop over the objects (modeling.py:513-605): rows take top and bottom, columns left and right; objects are
    updated in place. *)
Definition insert_object (st : R * seq R * seq R * seq rect) (o : rect) :=
  let '(pert, rows_l, cols_l, done) := st in
  let '(pert, rows_l, t) := insert_edge true pert rows_l (r_top o) in
  let '(pert, rows_l, b) := insert_edge false pert rows_l (r_bottom o) in
  let '(pert, cols_l, l) := insert_edge true pert cols_l (r_left o) in
  let '(pert, cols_l, r) := insert_edge false pert cols_l (r_right o) in
  (pert, rows_l, cols_l, rcons done (Rect t l b r (r_index o))).
Definition grid_lists (objs : seq rect) := foldl insert_object (0%coqR, [::], [::], [::]) objs.

(** modeling.py:607-615: append the period unless it is already last; drop a leading zero. *)
Definition close_list (a : seq R) (period : R) : seq R :=
  let a1 := if nilp a || ~~ reqb (last 0%coqR a) period then rcons a period else a in
  if a1 is x :: a2 then (if reqb x 0 then a2 else a1) else a1.

(** modeling.py:622-632: the slice of rows (columns) covered by an object. *)
Definition span (a : seq R) (lo hi : R) : option (nat * nat) :=
  let begin := if reqb lo 0 then Some 0%N else (if index_of a lo is Some k then Some k.+1 else None) in
  if begin is Some b then (if index_of a hi is Some e then Some (b, e.+1) else None) else None.

(** modeling.py:619-634: the later object overwrites. *)
Definition paint (rows_l cols_l : seq R) (cell : nat -> nat -> C) (o : rect) : option (nat -> nat -> C) :=
  if span rows_l (r_top o) (r_bottom o) is Some (rb, re) then
  if span cols_l (r_left o) (r_right o) is Some (cb, ce) then
    Some (fun i j => if (rb <= i < re)%N && (cb <= j < ce)%N then r_index o else cell i j)
  else None else None.
Fixpoint paint_all (rows_l cols_l : seq R) (cell : nat -> nat -> C) (objs : seq rect) : option (nat -> nat -> C) :=
  match objs with
  | [::] => Some cell
  | o :: objs' => if paint rows_l cols_l cell o is Some cell' then paint_all rows_l cols_l cell' objs' else None
  end.

(** [vector_per_layer_numeric] (modeling.py:493-637). *)
Definition vector_layer (period_x period_y : R) (base : C) (objs : seq rect) : option (raster * seq R * seq R) :=
  let '(_, rows_l, cols_l, objs') := grid_lists objs in
  let rows_l := close_list rows_l period_y in
  let cols_l := close_list cols_l period_x in
  if paint_all rows_l cols_l (fun _ _ => base) objs' is Some cell then
    Some (Raster (size rows_l) (size cols_l) cell, cols_l, rows_l)
  else None.

(** [angle % (2 * np.pi)] for the rotation angle of a rectangle, and the test
    [k * np.pi / 2 - angle_margin <= angle <= k * np.pi / 2 + angle_margin] (modeling.py:67-76). *)
Definition wrap_angle (a : R) : R := (a - 2 * PI * IZR (Int_part (a / (2 * PI))))%coqR.
Definition near_quarter (k : nat) (a : R) : bool :=
  rleb (INR k * PI / 2 - 1 / 10 ^ 5) a && rleb a (INR k * PI / 2 + 1 / 10 ^ 5).

(** A vector object of an instruction list: an axis-parallel rectangle, or the decomposition returned by a rotated
    rectangle or an ellipse. *)
Inductive vobject :=
  | VRect (cx cy lx ly : R) (n_index : C) (angle : R) (approx : seq rect)
  | VShape (rects : seq rect).

(** modeling.py:33-78.  [approx] stands for what the remaining part of the method (modeling.py:80-322) returns. *)
Definition draw_object (o : vobject) : seq rect :=
  match o with
  | VRect cx cy lx ly n_index angle approx =>
      let a := wrap_angle angle in
      if near_quarter 0 a then rectangle_no_approximation cx cy lx ly n_index
      else if near_quarter 1 a then rectangle_no_approximation cx cy ly lx n_index
      else if near_quarter 2 a then rectangle_no_approximation cx cy lx ly n_index
      else if near_quarter 3 a then rectangle_no_approximation cx cy ly lx n_index
      else approx
  | VShape rects => rects
  end.

(** A layer instruction [[base, objects]] and the whole list (modeling.py:639-649, 668-683). *)
Definition instruction := (C * seq vobject)%type.
Fixpoint vector_layers (period_x period_y : R) (ins : seq instruction) : option (seq (raster * seq R * seq R)) :=
  match ins with
  | [::] => Some [::]
  | (base, objs) :: ins' =>
      if vector_layer period_x period_y base (flatten (map draw_object objs)) is Some v then
        (if vector_layers period_x period_y ins' is Some vs then Some (v :: vs) else None)
      else None
  end.
