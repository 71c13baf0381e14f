(** Properties of the decomposition of rotated rectangles and ellipses. *)
From Coq Require Import Reals Lra.
From mathcomp Require Import all_ssreflect ssralg matrix.
From Coquelicot Require Import Complex.
From Verif Require Import Cplx ModelTM ModelFourier ModelVec ModelShape SpecShape ProofShape ProofShape2.

Set Implicit Arguments.
Unset Strict Implicit.
Unset Printing Implicit Defensive.
Local Open Scope R_scope.

(** C81: a rectangle turned by an oblique angle, with both split counts equal to n, becomes 3 n + 2 strips that succeed each
    other from its highest to its lowest point; each strip is exactly as wide as the rectangle is at half the strip's height. *)
Theorem C81_rotated_rectangle cx cy lx ly k angle n : 0 < lx -> 0 < ly -> oblique angle -> (0 < n)%N -> exists ss hi lo,
  [/\ rectangle cx cy lx ly k angle n n = Some ss, size ss = (3 * n + 2)%N, extent (turned_rect cx cy lx ly angle) hi lo,
      stacked_from hi lo ss &
      forall i, (i < size ss)%N -> let s := nth (Rect 0 0 0 0 k) ss i in
        follows (turned_rect cx cy lx ly angle) s /\ r_index s = k].
Proof. move=> hx hy ho hn; exact (rectangle_strips cx cy k hx hy ho hn). Qed.
Print Assumptions C81_rotated_rectangle.

Example C81_ex : oblique (PI / 4) /\ (0 < 2)%N.
Proof. split; [exact: oblique_diag|by []]. Qed.

(** Multiples of a quarter turn give the rectangle itself, for every integer multiple and both split counts. *)
Theorem C81_quarter_turns cx cy lx ly k (z : Z) nt np : exists s, rectangle cx cy lx ly k (IZR z * (PI / 2)) nt np = Some [:: s] /\
  r_index s = k /\
  forall x y, turned_rect cx cy lx ly (IZR z * (PI / 2)) x y <-> (r_left s <= x <= r_right s /\ r_top s <= y <= r_bottom s).
Proof. exact: rectangle_quarter. Qed.
Print Assumptions C81_quarter_turns.

(** The drawing step used by the solver object (property C60 and the object-level properties) draws what [rectangle] returns. *)
Theorem C81_drawn cx cy lx ly k angle nt np ss : rectangle cx cy lx ly k angle nt np = Some ss ->
  draw_object (VRect cx cy lx ly k angle ss) = ss.
Proof.
rewrite /rectangle /draw_object; case: ifP => _; first by case.
case: ifP => _; first by case.
case: ifP => _; first by case.
by case: ifP => _; first by case.
Qed.
Print Assumptions C81_drawn.

(** With unequal split counts the first strip is never the chord, for any rectangle and oblique angle. *)
Theorem C85_unequal_refuted cx cy lx ly k angle nt np : 0 < lx -> 0 < ly -> oblique angle ->
  (0 < nt)%N -> (0 < np)%N -> nt <> np ->
  exists ss, [/\ rectangle cx cy lx ly k angle nt np = Some ss, (0 < size ss)%N &
                 ~ follows (turned_rect cx cy lx ly angle) (nth (Rect 0 0 0 0 k) ss 0)].
Proof. move=> hx hy ho ht hp ne; exact (rectangle_unequal cx cy k hx hy ho ht hp ne). Qed.
Print Assumptions C85_unequal_refuted.

(** C82: the strips have together the area of the rectangle. *)
Theorem C82_area cx cy lx ly k angle n : 0 < lx -> 0 < ly -> oblique angle -> (0 < n)%N ->
  exists ss, rectangle cx cy lx ly k angle n n = Some ss /\ area_of ss = lx * ly.
Proof. move=> hx hy ho hn; exact (rectangle_area cx cy k hx hy ho hn). Qed.
Print Assumptions C82_area.

Example C82_ex : exists ss, rectangle 0 0 3 2 1%C (PI / 4) 2 2 = Some ss /\ area_of ss = 6.
Proof.
have h3 : 0 < 3 by lra.
have h2 : 0 < 2 by lra.
have [ss [e ea]] := @C82_area 0 0 3 2 1%C (PI / 4) 2 h3 h2 oblique_diag isT.
by exists ss; rewrite e ea; split=> //; ring.
Qed.

(** C83: with n > 3 equal splits an ellipse becomes 2 ((n - 1) / 2) boxes that succeed each other without gap or overlap, each
    spanned by two points of the ellipse, from within A (1 - cos (pi / (n - 1))) of its top to within as much of its bottom
    (A is half its height), provided that no sample is the highest point; if one is, every box is empty and lies at the origin. *)
Theorem C83_ellipse cx cy lx ly k angle n : 0 < lx -> 0 < ly -> (4 <= n)%N ->
  let K := (n.-1)./2 in let A := half_height lx ly angle in let d := PI / (INR n - 1) in
  exists ss, ellipse cx cy lx ly k angle n n = Some ss /\
  ((top_sampled cx cy lx ly angle n /\ size ss = (K + K).-1 /\
      forall i, (i < size ss)%N -> nth (Rect 0 0 0 0 k) ss i = Rect 0 0 0 0 k)
   \/ (~ top_sampled cx cy lx ly angle n /\ size ss = (K + K)%N /\ exists hi lo,
      [/\ cy + A * cos d <= hi <= cy + A, cy - A <= lo <= cy - A * cos d, stacked_from hi lo ss &
          forall i, (i < size ss)%N -> spanned cx cy lx ly angle (nth (Rect 0 0 0 0 k) ss i) /\ r_index (nth (Rect 0 0 0 0 k) ss i) = k])).
Proof. move=> hx hy hn; exact (ellipse_boxes cx cy k angle hx hy hn). Qed.
Print Assumptions C83_ellipse.

(** Both cases occur. *)
Example C83_ex : ~ top_sampled 0 0 3 2 0 4 /\ top_sampled 0 0 3 2 0 5.
Proof. split; [by apply: three_points; lra|by apply: (@upright_top 0 0 3 2 1) => //; lra]. Qed.

(** C84: an ellipse must show up in the layer.  Refuted: an unrotated one with 4 m + 1 splits consists of empty boxes. *)
Theorem C84_vanishes_refuted cx cy lx ly k m : 0 < lx -> 0 < ly -> (0 < m)%N ->
  exists ss, [/\ ellipse cx cy lx ly k 0 (4 * m).+1 (4 * m).+1 = Some ss, (0 < size ss)%N &
                 forall i, (i < size ss)%N -> nth (Rect 0 0 0 0 k) ss i = Rect 0 0 0 0 k].
Proof. move=> hx hy hm; exact (ellipse_vanishes cx cy k hx hy hm). Qed.
Print Assumptions C84_vanishes_refuted.

(** The default number of splits, 2, and unequal counts raise. *)
Theorem C84_default_refuted cx cy lx ly k angle : ellipse cx cy lx ly k angle 2 2 = None.
Proof. exact: ellipse_few. Qed.
Print Assumptions C84_default_refuted.

Theorem C84_unequal_refuted cx cy lx ly k angle w h : w.-1 <> h.-1 -> ellipse cx cy lx ly k angle w h = None.
Proof. exact: ellipse_unequal. Qed.
Print Assumptions C84_unequal_refuted.
