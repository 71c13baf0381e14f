(** Vector modelling of a layer (C39, C60, C61). *)
From Coq Require Import Reals Lra.
From mathcomp Require Import all_ssreflect ssralg.
From Coquelicot Require Import Complex.
From Verif Require Import Cplx ModelTM ModelFourier ModelVec SpecVec ProofVec.

Set Implicit Arguments.
Unset Strict Implicit.
Unset Printing Implicit Defensive.
Local Open Scope R_scope.

(** ** C39: the sorted grid and the painter's rule for every list of rectangles; false *)

(** Two abutting rectangles, the upper one first. *)
Definition abutting : seq rect := [:: Rect 0 0 1 1 (RtoC 2); Rect 1 (1 / 2) (3 / 2) (3 / 2) (RtoC 3)].

Lemma abutting_in_period : in_period 2 2 abutting.
Proof. by split; [lra|lra|move=> o [<-|[<-|[]]] /=; lra]. Qed.

Lemma rltb_true a b : a < b -> rltb a b = true. Proof. by case: rltbP. Qed.
Lemma rltb_false a b : b <= a -> rltb a b = false. Proof. by case: rltbP => //; lra. Qed.
Lemma reqb_true a b : a = b -> reqb a b = true. Proof. by case: reqbPP. Qed.
Lemma reqb_false a b : a < b \/ b < a -> reqb a b = false. Proof. by case: reqbPP => //; lra. Qed.
Ltac decide_reals := repeat (rewrite /=; match goal with
  | |- context [rltb ?a ?b] => first [rewrite (@rltb_true a b); last by lra | rewrite (@rltb_false a b); last by lra]
  | |- context [reqb ?a ?b] => first [rewrite (@reqb_true a b); last by lra | rewrite (@reqb_false a b); last by lra]
  end); rewrite /=.

Lemma abutting_layer : exists r, vector_layer 2 2 (RtoC 1) abutting =
  Some (r, [:: 1 / 2; 1; 3 / 2; 2], [:: 1 + 1 * (0 + perturbation_unit); 1; 3 / 2; 2]) /\ px r 0 1 = RtoC 2.
Proof.
have hu : 0 < perturbation_unit < 1 / 4 by rewrite /perturbation_unit; lra.
rewrite /vector_layer /grid_lists /abutting /foldl /insert_object.
rewrite [insert_edge true 0 [::] (r_top _)](_ : _ = (0, [:: 0], 0)); last by rewrite /insert_edge /bisect_left; decide_reals.
rewrite [insert_edge false 0 [:: 0] (r_bottom _)](_ : _ = (0, [:: 0; 1], 1)); last by rewrite /insert_edge /bisect_left; decide_reals.
rewrite [insert_edge true 0 [::] (r_left _)](_ : _ = (0, [:: 0], 0)); last by rewrite /insert_edge /bisect_left; decide_reals.
rewrite [insert_edge false 0 [:: 0] (r_right _)](_ : _ = (0, [:: 0; 1], 1)); last by rewrite /insert_edge /bisect_left; decide_reals.
set w := 1 + 1 * (0 + perturbation_unit); set u := 0 + perturbation_unit.
have hw : 1 < w < 5 / 4 by rewrite /w; lra.
rewrite [insert_edge true 0 [:: 0; 1] (r_top _)](_ : _ = (u, [:: 0; w; 1], w)); last by rewrite /insert_edge /bisect_left; decide_reals.
rewrite [insert_edge false u _ (r_bottom _)](_ : _ = (u, [:: 0; w; 1; 3 / 2], 3 / 2)); last by rewrite /insert_edge /bisect_left; decide_reals.
rewrite [insert_edge true u _ (r_left _)](_ : _ = (u, [:: 0; 1 / 2; 1], 1 / 2)); last by rewrite /insert_edge /bisect_left; decide_reals.
rewrite [insert_edge false u _ (r_right _)](_ : _ = (u, [:: 0; 1 / 2; 1; 3 / 2], 3 / 2)); last by rewrite /insert_edge /bisect_left; decide_reals.
rewrite /close_list /paint_all /paint /span; decide_reals.
by eexists; split; [reflexivity|].
Qed.

Theorem C39_sorted_refuted : ~ (forall px py base objs r cols_l rows_l, in_period px py objs ->
  vector_layer px py base objs = Some (r, cols_l, rows_l) -> increasing rows_l).
Proof.
move=> h; have [r [e _]] := abutting_layer; have /= := h _ _ _ _ _ _ _ abutting_in_period e 0%N 1%N isT isT.
by rewrite /perturbation_unit; lra.
Qed.
Print Assumptions C39_sorted_refuted.

Theorem C39_painting_refuted : ~ (forall px py base objs r cols_l rows_l i j x y, in_period px py objs ->
  vector_layer px py base objs = Some (r, cols_l, rows_l) -> in_cell rows_l i y -> in_cell cols_l j x ->
  painted base objs x y (ModelFourier.px r i j)).
Proof.
move=> h; have [r [e er]] := abutting_layer.
have hu : 0 < perturbation_unit < 1 / 4 by rewrite /perturbation_unit; lra.
have := h _ _ _ _ _ _ _ 0%N 1%N (3 / 4) (1 + perturbation_unit / 2) abutting_in_period e; rewrite er.
case; [by split=> //=; lra|by split=> //=; lra| |].
- move=> [pre [o [post [e1 [_ c1] _ c2]]]]; case: pre e1 => [|q [|q' pre]] //=; last by case: pre.
  + by move=> [e1 _]; move: c1; rewrite -e1 /=; lra.
  + by move=> [_ e1 _]; move: c2; rewrite -e1 /= => /RtoC_inj; lra.
- by move=> [_ /RtoC_inj]; lra.
Qed.
Print Assumptions C39_painting_refuted.

(** ** C60: rectangles in general position are painted exactly *)
Theorem C60_general_position px py base objs : general_position px py objs ->
  exists r cols_l rows_l, [/\ vector_layer px py base objs = Some (r, cols_l, rows_l),
    rows r = size rows_l /\ cols r = size cols_l,
    grid_for px (x_edges objs) cols_l, grid_for py (y_edges objs) rows_l
  & forall i j x y, in_cell rows_l i y -> in_cell cols_l j x -> painted base objs x y (ModelFourier.px r i j)].
Proof. exact: vector_layer_painted. Qed.
Print Assumptions C60_general_position.

(** Every point of the period off the grid lines lies in a cell, so the last clause speaks about it. *)
Theorem C60_cells_cover a v : 0 < v < last 0 a -> ~ List.In v a -> exists i, in_cell a i v.
Proof. exact: in_cell_ex. Qed.
Print Assumptions C60_cells_cover.

(** Two overlapping rectangles; the second one is seen where both cover. *)
Example C60_ex : general_position 4 3 [:: Rect 0 0 2 3 (RtoC 2); Rect 1 1 (5 / 2) 2 (RtoC 3)] /\
  painted (RtoC 1) [:: Rect 0 0 2 3 (RtoC 2); Rect 1 1 (5 / 2) 2 (RtoC 3)] (3 / 2) (3 / 2) (RtoC 3).
Proof.
split.
  split; [by lra|..|by move=> o [<-|[<-|[]]] /=; lra];
  repeat (constructor; first by rewrite /=; lra); constructor.
by left; exists [:: Rect 0 0 2 3 (RtoC 2)], (Rect 1 1 (5 / 2) 2 (RtoC 3)), [::]; split=> //; rewrite /covers /=; lra.
Qed.

(** ** C61: coinciding edges cost at most the nudge *)
Theorem C61_coinciding_edges px py base objs : in_period px py objs ->
  apart (nudge (size objs) px) (0 :: px :: x_edges objs) -> apart (nudge (size objs) py) (0 :: py :: y_edges objs) ->
  exists r cols_l rows_l, [/\ vector_layer px py base objs = Some (r, cols_l, rows_l),
    rows r = size rows_l /\ cols r = size cols_l,
    grid_near (nudge (size objs) px) px (x_edges objs) cols_l, grid_near (nudge (size objs) py) py (y_edges objs) rows_l
  & forall i j x y, in_cell rows_l i y -> in_cell cols_l j x -> 0 < x -> 0 < y ->
      away (nudge (size objs) px) (0 :: px :: x_edges objs) x -> away (nudge (size objs) py) (0 :: py :: y_edges objs) y ->
      painted base objs x y (ModelFourier.px r i j)].
Proof. exact: vector_layer_near. Qed.
Print Assumptions C61_coinciding_edges.

(** Two full-height bars next to each other (examples/vector_1d.py has this shape): three edges coincide. *)
Example C61_ex : let bars := [:: Rect 0 0 3 1 (RtoC 2); Rect 0 1 3 2 (RtoC 3)] in
  [/\ in_period 4 3 bars, apart (nudge 2 4) (0 :: 4 :: x_edges bars), apart (nudge 2 3) (0 :: 3 :: y_edges bars),
      away (nudge 2 4) (0 :: 4 :: x_edges bars) (3 / 2) & away (nudge 2 3) (0 :: 3 :: y_edges bars) (3 / 2)].
Proof.
have n4 : nudge 2 4 < 1 / 4 by rewrite /nudge /=; lra.
have n3 : nudge 2 3 < 1 / 4 by rewrite /nudge /=; lra.
split; first by split; [lra|lra|move=> o [<-|[<-|[]]] /=; lra].
- move=> u w /=; intuition (subst; try (by left); right; rewrite /Rabs; case: Rcase_abs; lra).
- move=> u w /=; intuition (subst; try (by left); right; rewrite /Rabs; case: Rcase_abs; lra).
- move=> u /=; intuition (subst; rewrite /Rabs; case: Rcase_abs; lra).
- move=> u /=; intuition (subst; rewrite /Rabs; case: Rcase_abs; lra).
Qed.
