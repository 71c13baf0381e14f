(** What Fourier coefficients of a unit cell are, independently of how the code computes them. *)
From Coq Require Import Reals.
From mathcomp Require Import all_ssreflect ssralg ssrint matrix.
From Coquelicot Require Import Complex RInt Hierarchy Lim_seq Rbar.
From Verif Require Import Cplx Spec.

Set Implicit Arguments.
Unset Strict Implicit.
Unset Printing Implicit Defensive.
Local Open Scope ring_scope.

(** Integral of a complex-valued function of a real variable: real and imaginary part. *)
Definition cintegral (f : R -> C) (a b : R) (v : C) : Prop :=
  is_RInt (fun t => Re (f t)) a b (Re v) /\ is_RInt (fun t => Im (f t)) a b (Im v).

(** [c] is the Fourier coefficient of order [m] of the [period]-periodic function [f]:
    period * c = integral over one period of f(t) exp(-2 pi i m t / period). *)
Definition fourier_coef (f : R -> C) (period : R) (m : R) (c : C) : Prop :=
  cintegral (fun t => f t * cexp (- ci * RtoC (2 * PI * m * t / period))) 0 period (RtoC period * c).

(** The piecewise constant function with value [v j] on the j-th piece; [x] lists the right ends of the pieces. *)
Definition rlt (a b : R) : bool := if Rlt_dec a b then true else false.
Definition steps (x : seq R) (v : nat -> C) (t : R) : C := v (find (rlt t) x).

(** Right ends of pieces that cover [0, period]: non-decreasing, from 0 on, ending at the period. *)
Fixpoint climbing (a : R) (x : seq R) : Prop :=
  if x is e :: x' then (a <= e)%coqR /\ climbing e x' else True.
Definition covers (x : seq R) (period : R) : Prop :=
  [/\ climbing 0 x, last 0%coqR x = period & (0 < period)%coqR].

(** A function of (x, y) made of rectangles: value [cell row col]. *)
Definition tiles (x y : seq R) (cell : nat -> nat -> C) (tx ty : R) : C :=
  cell (find (rlt ty) y) (find (rlt tx) x).

(** Row-major numbering of the orders: flat index i stands for the orders (i mod ff_x) - fto_x in x and
    (i div ff_x) - fto_y in y. *)
Definition order_x (fto_x i : nat) : R := (INR (i %% fto_x.*2.+1) - INR fto_x)%coqR.
Definition order_y (fto_x fto_y i : nat) : R := (INR (i %/ fto_x.*2.+1) - INR fto_y)%coqR.

(** Discrete Fourier coefficient of (possibly negative) order [m] of n samples. *)
Definition dft (n : nat) (v : nat -> C) (m : R) : C :=
  (\sum_(j < n) v j * cexp (- ci * RtoC (2 * PI * m * INR j / INR n))) / RtoC (INR n).

(** Right ends of n equal pixels on [0, 1]. *)
Definition pixels (n : nat) : seq R := [seq ((INR k + 1) / INR n)%coqR | k <- seq.iota 0 n].

(** A raster with r rows and c columns as a function on the unit square, row 0 on top (upper edge y = 1). *)
Definition picture (r c : nat) (a : nat -> nat -> C) (tx ty : R) : C :=
  tiles (pixels c) (pixels r) (fun b => a (r - b.+1)%N) tx ty.
(** ... and with row 0 at the bottom (y = 0). *)
Definition picture_down (r c : nat) (a : nat -> nat -> C) (tx ty : R) : C :=
  tiles (pixels c) (pixels r) a tx ty.

(** [c] is the Fourier coefficient of orders (mx, my) of the doubly periodic function [f] of (x, y), as an iterated
    integral. *)
Definition fourier_coef2 (f : R -> R -> C) (px py : R) (mx my : R) (c : C) : Prop :=
  exists2 g : R -> C, (forall tx, (0 <= tx < px)%coqR -> fourier_coef (f tx) py my (g tx)) & fourier_coef g px mx c.

(** Limits of complex sequences. *)
Definition climit (f : nat -> C) (l : C) : Prop :=
  is_lim_seq (fun r => Re (f r)) (Finite (Re l)) /\ is_lim_seq (fun r => Im (f r)) (Finite (Im l)).

(** x cot x + i x: relates samples taken at the left ends of the pixels to integrals over the pixels. *)
Definition sampling (x : R) : C :=
  if Req_EM_T x 0 then RtoC 1 else ((x * cos x / sin x)%coqR, x).
