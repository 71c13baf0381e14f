(** Rotated rectangles and ellipses as sets of points, and what a decomposition into strips should be. *)
From Coq Require Import Reals.
From mathcomp Require Import all_ssreflect ssralg.
From Coquelicot Require Import Complex.
From Verif Require Import Cplx ModelVec.

Set Implicit Arguments.
Unset Strict Implicit.
Unset Printing Implicit Defensive.
Local Open Scope R_scope.

(** The rectangle with sides lx, ly and centre (cx, cy), turned anticlockwise by the angle a. *)
Definition turned_rect (cx cy lx ly a : R) (x y : R) : Prop :=
  Rabs ((x - cx) * cos a + (y - cy) * sin a) <= lx / 2 /\ Rabs (- ((x - cx) * sin a) + (y - cy) * cos a) <= ly / 2.

(** A horizontal section of a shape is the interval from l to r. *)
Definition section_of (S : R -> R -> Prop) (y l r : R) : Prop := l <= r /\ forall x, S x y <-> l <= x <= r.

(** A strip is as wide as the shape is at half the height of the strip. *)
Definition follows (S : R -> R -> Prop) (s : rect) : Prop :=
  r_top s <= r_bottom s /\ section_of S ((r_top s + r_bottom s) / 2) (r_left s) (r_right s).

(** The strips succeed each other without gap or overlap from the height hi down to lo. *)
Fixpoint stacked_from (hi lo : R) (ss : seq rect) : Prop :=
  if ss is s :: ss' then r_bottom s = hi /\ stacked_from (r_top s) lo ss' else hi = lo.

(** hi and lo are the extreme heights of the shape. *)
Definition extent (S : R -> R -> Prop) (hi lo : R) : Prop :=
  (forall x y, S x y -> lo <= y <= hi) /\ (exists x, S x hi) /\ (exists x, S x lo).

Definition area_of (ss : seq rect) : R :=
  foldr (fun s t => (r_bottom s - r_top s) * (r_right s - r_left s) + t) 0 ss.

(** The angle is further than the margin from every multiple of a quarter turn. *)
Definition oblique (a : R) : Prop := forall z : Z, 1 / 10 ^ 5 < Rabs (a - IZR z * (PI / 2)).

(** The ellipse with axes lx, ly and centre (cx, cy), turned anticlockwise by the angle a, by its parameter. *)
Definition ellipse_x (cx cy lx ly a th : R) : R := cx + lx / 2 * cos th * cos a - ly / 2 * sin th * sin a.
Definition ellipse_y (cx cy lx ly a th : R) : R := cy + lx / 2 * cos th * sin a + ly / 2 * sin th * cos a.
Definition half_height (lx ly a : R) : R := sqrt ((lx / 2 * sin a) ^ 2 + (ly / 2 * cos a) ^ 2).

(** The box is spanned by two points of the ellipse, the first of them on its upper edge. *)
Definition spanned (cx cy lx ly a : R) (s : rect) : Prop :=
  exists t t', [/\ r_bottom s = ellipse_y cx cy lx ly a t, r_top s = ellipse_y cx cy lx ly a t',
    r_left s = Rmin (ellipse_x cx cy lx ly a t) (ellipse_x cx cy lx ly a t') &
    r_right s = Rmax (ellipse_x cx cy lx ly a t) (ellipse_x cx cy lx ly a t')].

(** One of the n equally spaced parameters from -pi to pi gives the highest point of the ellipse. *)
Definition top_sampled (cx cy lx ly a : R) (n : nat) : Prop :=
  exists j, (j < n)%N /\ forall t, ellipse_y cx cy lx ly a t <= ellipse_y cx cy lx ly a (- PI + INR j * (2 * PI / (INR n - 1))).
