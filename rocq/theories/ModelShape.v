(** Model of the decomposition of rotated rectangles and of ellipses into axis-parallel rectangles.
    Source: /repo/meent/on_numpy/modeler/modeling.py: rectangle (33-322) and ellipse (384-491); the PyTorch and JAX copies have the
    same arithmetic.
    Conventions: sides, centre, angle and margins are real numbers; a raised exception is [None]; the split counts are positive
    (with a zero count NumPy divides by zero and returns nan).  The [debug] output of ellipse is not modelled. *)
From Coq Require Import Reals.
From mathcomp Require Import all_ssreflect ssralg matrix.
From Coquelicot Require Import Complex.
From Verif Require Import Cplx ModelTM ModelFourier ModelVec.

Set Implicit Arguments.
Unset Strict Implicit.
Unset Printing Implicit Defensive.
Local Open Scope ring_scope.

(** [rotate @ [x, y]] and the shift by the centre (modeling.py:81-96, 419-443). *)
Definition place (cx cy a x y : R) : R * R := (cos a * x - sin a * y + cx, sin a * x + cos a * y + cy)%coqR.

(** The corners from the top, the length of the side from top1 to top2, which side top2 is on, and angle_inside. *)
Record corners := Corners { top1 : R * R; top2 : R * R; top3 : R * R; top4 : R * R; length_top12 : R; top2_left : bool;
  angle_inside : R }.

(** The choice inside each branch of modeling.py:98-156: [a] is top2 if it is strictly higher than [b]. *)
Definition order_mid (t1 t4 a b : R * R) (la lb inside : R) : corners :=
  if rltb b.2 a.2 then Corners t1 a b t4 la true inside else Corners t1 b a t4 lb false inside.

(** modeling.py:80-156, for an angle already reduced modulo 2 pi. *)
Definition find_corners (cx cy lx ly a : R) : option corners :=
  let UR := place cx cy a (lx / 2) (ly / 2) in
  let RD := place cx cy a (lx / 2) (- ly / 2) in
  let DL := place cx cy a (- lx / 2) (- ly / 2) in
  let LU := place cx cy a (- lx / 2) (ly / 2) in
  if rleb 0 a && rltb a (PI / 2) then Some (order_mid UR DL LU RD lx ly (PI / 2 - a)%coqR)
  else if rleb (PI / 2) a && rltb a PI then Some (order_mid RD LU UR DL ly lx (PI - a)%coqR)
  else if rleb PI a && rltb a (PI / 2 * 3) then Some (order_mid DL UR RD LU lx ly (PI * 3 / 2 - a)%coqR)
  else if rleb (PI / 2 * 3) a && rltb a (PI * 2) then Some (order_mid LU RD DL UR ly lx (PI * 2 - a)%coqR)
  else None.

(** The three arrays of modeling.py:161-196 and 244-289: y, and the x of the left and right ends, as one list of triples.
    [x_cp] is on the right when top2 is on the left and on the left otherwise. *)
Definition outline (f : corners) (nt np : nat) : seq (R * R * R) :=
  let st := INR nt in let sp := INR np in
  if top2_left f then
    let len := (length_top12 f / sin (angle_inside f))%coqR in
    let cpx := ((top3 f).1 - len)%coqR in
    let cpy := (top3 f).2 in
    let x1 i := ((top1 f).1 - ((top1 f).1 - (top2 f).1) / st * INR i)%coqR in
    let y1 i := ((top1 f).2 - ((top1 f).2 - (top2 f).2) / sp * INR i)%coqR in
    let x2 i := ((top2 f).1 + (cpx - (top2 f).1) / st * INR i)%coqR in
    let y2 i := ((top2 f).2 - ((top2 f).2 - cpy) / sp * INR i)%coqR in
    let x3 i := (cpx + ((top4 f).1 - cpx) / st * INR i)%coqR in
    let y3 i := (cpy - (cpy - (top4 f).2) / sp * INR i)%coqR in
    mkseq (fun i => (x1 i, y1 i, x1 i + len / st * INR i))%coqR nt.+1
    ++ mkseq (fun i => (x2 i, y2 i, x2 i + len))%coqR np.+1
    ++ mkseq (fun i => (x3 i, y3 i, x3 i + len / st * INR (nt - i)))%coqR nt.+1
  else
    let len := (length_top12 f / cos (angle_inside f))%coqR in
    let cpx := ((top3 f).1 + len)%coqR in
    let cpy := (top3 f).2 in
    let x1 i := ((top1 f).1 + ((top2 f).1 - (top1 f).1) / st * INR i)%coqR in
    let y1 i := ((top1 f).2 - ((top1 f).2 - (top2 f).2) / sp * INR i)%coqR in
    let x2 i := ((top2 f).1 - ((top2 f).1 - cpx) / st * INR i)%coqR in
    let y2 i := ((top2 f).2 - ((top2 f).2 - cpy) / sp * INR i)%coqR in
    let x3 i := (cpx - (cpx - (top4 f).1) / st * INR i)%coqR in
    let y3 i := (cpy - (cpy - (top4 f).2) / sp * INR i)%coqR in
    mkseq (fun i => (x1 i - len / st * INR i, y1 i, x1 i))%coqR nt.+1
    ++ mkseq (fun i => (x2 i - len, y2 i, x2 i))%coqR np.+1
    ++ mkseq (fun i => (x3 i - len / st * INR (nt - i), y3 i, x3 i))%coqR nt.+1.

(** modeling.py:228-232 and 302-307: one rectangle between each entry and the next. *)
Definition strips (l : seq (R * R * R)) (n_index : C) : seq rect :=
  let d := (0, 0, 0)%coqR in
  mkseq (fun i => let '(xl, y, xr) := nth d l i in let '(xl', y', xr') := nth d l i.+1 in
                  Rect y' ((xl + xl') / 2) y ((xr + xr') / 2) n_index)%coqR (size l).-1.

(** [rectangle] (modeling.py:33-322). *)
Definition rectangle (cx cy lx ly : R) (n_index : C) (angle : R) (nt np : nat) : option (seq rect) :=
  let a := wrap_angle angle in
  if near_quarter 0 a then Some (rectangle_no_approximation cx cy lx ly n_index)
  else if near_quarter 1 a then Some (rectangle_no_approximation cx cy ly lx n_index)
  else if near_quarter 2 a then Some (rectangle_no_approximation cx cy lx ly n_index)
  else if near_quarter 3 a then Some (rectangle_no_approximation cx cy ly lx n_index)
  else if find_corners cx cy lx ly a is Some f then Some (strips (outline f nt np) n_index) else None.

(** ** Ellipses *)

(** [np.argmax]: the first position of the maximum. *)
Fixpoint argmax_go (best : R) (at_ i : nat) (ys : seq R) : nat :=
  match ys with
  | [::] => at_
  | y :: ys' => if rltb best y then argmax_go y i i.+1 ys' else argmax_go best at_ i.+1 ys'
  end.
Definition argmax (ys : seq R) : nat := if ys is y :: ys' then argmax_go y 0 1 ys' else 0%N.

(** The rotated contour, modeling.py:411-443: [n] is the common split count, the last of the [n] angles is dropped. *)
Definition contour (cx cy lx ly a : R) (n : nat) : seq (R * R) :=
  mkseq (fun j => let th := (- PI + INR j * (2 * PI / (INR n - 1)))%coqR in
                  place cx cy a (lx / 2 * cos th) (ly / 2 * sin th)) n.-1.

(** [np.roll(points, len // 2 - i)]: the point at [i] moves to the middle. *)
Definition roll_to_middle (ps : seq (R * R)) (i : nat) : seq (R * R) :=
  let m := size ps in mkseq (fun j => nth (0, 0)%coqR ps ((j + (m - m./2) + i) %% m)) m.

(** arr[:, ::2] = a; arr[:, 1::2] = b *)
Fixpoint interleave (a b : seq (R * R)) : seq (R * R) :=
  if a is x :: a' then (x :: (if b is y :: b' then y :: interleave a' b' else a')) else b.

(** modeling.py:445-491.  The points may only be stacked when the two counts agree; [left] is read at index h + 1. *)
Definition ellipse (cx cy lx ly : R) (n_index : C) (angle : R) (n_split_w n_split_h : nat) : option (seq rect) :=
  if n_split_w.-1 != n_split_h.-1 then None else
  let ps0 := contour cx cy lx ly (wrap_angle angle) n_split_w in
  if ps0 is [::] then None else
  let ps := roll_to_middle ps0 (argmax (map snd ps0)) in
  let m := size ps in
  let h := argmax (map snd ps) in
  let pt i := nth (0, 0)%coqR ps (i %% m) in
  if (m <= h.+1)%N then None else
  let left_y := (pt h.+1).2 in
  let right_y := (pt (h + m).-1).2 in
  let lefts := mkseq (fun i => pt (h + i.+1)%N) m./2 in
  let rights := mkseq (fun i => pt (h + m - i.+1)%N) m./2 in
  let arr := if rltb right_y left_y then interleave (pt h :: rights) lefts
             else if rltb left_y right_y then interleave (pt h :: lefts) rights
             else nseq (m./2 + m./2) (0, 0)%coqR in
  Some (mkseq (fun i => let '(ax, ay) := nth (0, 0)%coqR arr i in let '(bx, by_) := nth (0, 0)%coqR arr i.+1 in
                        Rect (Rmin ay by_) (Rmin ax bx) (Rmax ay by_) (Rmax ax bx) n_index) (size arr).-1).
