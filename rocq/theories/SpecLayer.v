(** Vocabulary about raster layers. *)
From Coq Require Import Reals.
From mathcomp Require Import all_ssreflect ssralg matrix.
From Coquelicot Require Import Complex.
From Verif Require Import Cplx Spec SpecFourier ModelTM ModelFourier.

Set Implicit Arguments.
Unset Strict Implicit.
Unset Printing Implicit Defensive.
Local Open Scope ring_scope.

(** All indices of a layer satisfy P. *)
Definition all_px (P : C -> Prop) (l : raster) : Prop :=
  forall i j, (i < rows l)%N -> (j < cols l)%N -> P (px l i j).
Definition real_index (z : C) : Prop := conj z = z.

(** All rows of the layer are equal. *)
Definition y_invariant (l : raster) : Prop :=
  forall i j, (i < rows l)%N -> (j < cols l)%N -> px l i j = px l 0%N j.

(** Every pixel replaced by a block of ry x rx copies. *)
Definition replicate (l : raster) (ry rx : nat) : raster := repeat_cols (repeat_rows l ry) rx.

(** The z-permittivity matrices of the two methods before inversion: what [three_convs] inverts. *)
Definition epz_continuous (fto_x fto_y : nat) (l : raster) :=
  let '(c, x, y) := cell_compression l in cfs2d (eps_of c) x y true true fto_x fto_y.
Definition epz_samples (fto_x fto_y : nat) (l : raster) :=
  dfs2d (rows l) (cols l) (eps_of l) true true fto_x fto_y.

(** Two layers show the same permittivity at every point of the unit square (row 0 on top). *)
Definition same_picture (l l' : raster) : Prop :=
  forall tx ty, (0 <= tx < 1)%coqR -> (0 <= ty < 1)%coqR ->
  picture (rows l) (cols l) (eps_of l) tx ty = picture (rows l') (cols l') (eps_of l') tx ty.

(** The Hermitian part of u A is positive definite. *)
Definition definite n (u : C) (A : 'M[C]_n) : Prop :=
  forall v : 'cV[C]_n, v <> 0 -> (0 < Re (u * (map_mx conj v^T *m A *m v) ord0 ord0)%R)%coqR.

(** The factorisation rules for a doubly periodic function [f] of (x, y) on the unit square, row-major orders:
    - epz holds the Fourier coefficients of f;
    - epy: at each x, the inverse of the Toeplitz matrix along y of 1/f, Fourier transformed along x;
    - epx: at each x, the inverse of the Toeplitz matrix along y of f, Fourier transformed along x, is the inverse of epx. *)
Section Rules.
Variables (fto_x fto_y : nat) (f : R -> R -> C).
Let ff_x := fto_x.*2.+1.
Let ff_y := fto_y.*2.+1.
Definition z_rule (Z : 'M[C]_(ff_y * ff_x)) : Prop :=
  forall i j : 'I_(ff_y * ff_x), fourier_coef2 f 1 1 (order_x fto_x j - order_x fto_x i) (order_y fto_x fto_y j - order_y fto_x fto_y i) (Z i j).
Definition toeplitz_y (g : R -> C) (Y : 'M[C]_ff_y) : Prop :=
  forall r c : 'I_ff_y, fourier_coef g 1 (INR c - INR r) (Y r c).
Definition along_x (Y : R -> 'M[C]_ff_y) (M : 'M[C]_(ff_y * ff_x)) : Prop :=
  forall i j : 'I_(ff_y * ff_x),
    fourier_coef (fun tx => Y tx (inord (i %/ ff_x)) (inord (j %/ ff_x))) 1 (order_x fto_x j - order_x fto_x i) (M i j).
Definition y_rule (M : 'M[C]_(ff_y * ff_x)) : Prop :=
  exists2 Y, (forall tx, (0 <= tx < 1)%coqR -> Y tx \in unitmx /\ toeplitz_y (fun ty => (f tx ty)^-1) (Y tx)) &
  along_x (fun tx => invmx (Y tx)) M.
Definition x_rule (M : 'M[C]_(ff_y * ff_x)) : Prop :=
  M \in unitmx /\
  exists2 Y, (forall tx, (0 <= tx < 1)%coqR -> Y tx \in unitmx /\ toeplitz_y (f tx) (Y tx)) &
  along_x (fun tx => invmx (Y tx)) (invmx M).
End Rules.

(** The same with [nx] x [ny] samples. *)
Section SampledRules.
Variables (fto_x fto_y nx ny : nat) (f : nat -> nat -> C).
Let ff_x := fto_x.*2.+1.
Let ff_y := fto_y.*2.+1.
Definition z_rule_d (Z : 'M[C]_(ff_y * ff_x)) : Prop :=
  forall i j : 'I_(ff_y * ff_x), Z i j = dft nx (fun a => dft ny (f a) (order_y fto_x fto_y j - order_y fto_x fto_y i))
                        (order_x fto_x j - order_x fto_x i).
Definition toeplitz_y_d (g : nat -> C) (Y : 'M[C]_ff_y) : Prop :=
  forall r c : 'I_ff_y, Y r c = dft ny g (INR c - INR r).
Definition along_x_d (Y : nat -> 'M[C]_ff_y) (M : 'M[C]_(ff_y * ff_x)) : Prop :=
  forall i j : 'I_(ff_y * ff_x),
    M i j = dft nx (fun a => Y a (inord (i %/ ff_x)) (inord (j %/ ff_x))) (order_x fto_x j - order_x fto_x i).
Definition y_rule_d (M : 'M[C]_(ff_y * ff_x)) : Prop :=
  exists2 Y, (forall a, (a < nx)%N -> Y a \in unitmx /\ toeplitz_y_d (fun b => (f a b)^-1) (Y a)) &
  along_x_d (fun a => invmx (Y a)) M.
Definition x_rule_d (M : 'M[C]_(ff_y * ff_x)) : Prop :=
  M \in unitmx /\
  exists2 Y, (forall a, (a < nx)%N -> Y a \in unitmx /\ toeplitz_y_d (f a) (Y a)) &
  along_x_d (fun a => invmx (Y a)) (invmx M).
End SampledRules.
