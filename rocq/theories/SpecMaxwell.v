(** Maxwell's equations for fields in space.  x and y lie in the plane of the layers, z points upwards (away from the
    substrate) and is 0 on the top face of the layer considered; time dependence exp(+i w t); H is scaled by the impedance
    of free space. *)
From Coq Require Import Reals.
From mathcomp Require Import all_ssreflect ssralg matrix.
From Coquelicot Require Import Complex.
From Verif Require Import Cplx Spec SpecSolve SpecField ModelTM.

Set Implicit Arguments.
Unset Strict Implicit.
Unset Printing Implicit Defensive.
Local Open Scope ring_scope.

Definition vec3 := (C * C * C)%type.
Definition vx (v : vec3) : C := v.1.1.
Definition vy (v : vec3) : C := v.1.2.
Definition vz (v : vec3) : C := v.2.
Definition vscale (a : C) (v : vec3) : vec3 := (a * vx v, a * vy v, a * vz v).
Definition vfield := R -> R -> R -> vec3.

(** The six partial derivatives that enter the curl exist at (x, y, z), and the curl is [g]. *)
Definition curl_at (f : vfield) (x y z : R) (g : vec3) : Prop :=
  exists fx_y fx_z fy_x fy_z fz_x fz_y : C,
  (cderiv (fun t => vx (f x t z)) y fx_y /\ cderiv (fun t => vx (f x y t)) z fx_z) /\
  (cderiv (fun t => vy (f t y z)) x fy_x /\ cderiv (fun t => vy (f x y t)) z fy_z) /\
  (cderiv (fun t => vz (f t y z)) x fz_x /\ cderiv (fun t => vz (f x t z)) y fz_y) /\
  g = (fz_y - fy_z, fx_z - fz_x, fy_x - fx_y).

(** [f] is the sum of the diffraction orders of wave numbers k0 kx, k0 ky with coefficients [c]. *)
Definition orders n (k0 : R) (kx ky : nat -> C) (f : R -> R -> C) (c : 'cV[C]_n) : Prop :=
  forall x y, f x y = \sum_(j < n) cexp (- ci * RtoC k0 * (kx j * RtoC x + ky j * RtoC y)) * c j ord0.

(** Truncated material relation at height z: the coefficients of Dx and Dy are the products of the convolution matrices with
    those of Ex and Ey; Ez comes from Dz by the third, already inverted, matrix. *)
Definition material n (k0 : R) (kx ky : nat -> C) (c : conv3 n) (e d : vfield) (z : R) : Prop :=
  let '(epx, epy, epzi) := c in
  exists ex ey dz : 'cV[C]_n,
  [/\ orders k0 kx ky (fun x y => vx (e x y z)) ex /\ orders k0 kx ky (fun x y => vx (d x y z)) (epx *m ex),
      orders k0 kx ky (fun x y => vy (e x y z)) ey /\ orders k0 kx ky (fun x y => vy (d x y z)) (epy *m ey)
    & orders k0 kx ky (fun x y => vz (d x y z)) dz /\ orders k0 kx ky (fun x y => vz (e x y z)) (epzi *m dz)].

(** Faraday's and Ampere's law inside a layer of thickness [t]. *)
Definition maxwell n (k0 : R) (kx ky : nat -> C) (c : conv3 n) (t : R) (e h : vfield) : Prop :=
  exists d : vfield, forall z, (- t < z < 0)%coqR ->
  material k0 kx ky c e d z /\
  forall x y, curl_at e x y z (vscale (- ci * RtoC k0) (h x y z)) /\
              curl_at h x y z (vscale (ci * RtoC k0) (d x y z)).

(** The [i]-th of [num] equidistant points of [0, len], both ends included (0 if there is only one). *)
Definition grid (len : R) (num i : nat) : R := if (num <= 1)%N then 0%coqR else (len * INR i / (INR num - 1))%coqR.

(** A sample array of one layer holds the values of [e] and [h]: z index downwards from the top face, y index downwards from
    the far end of the period, x index upwards. *)
Definition sampled (px py t : R) (rx ry rz : nat) (a : nat -> nat -> nat -> seq C) (e h : vfield) : Prop :=
  forall iz iy ix, (iy < ry)%N ->
  let x := grid px rx ix in let y := grid py ry (ry.-1 - iy)%N in let z := (- grid t rz iz)%coqR in
  a iz iy ix = [:: vx (e x y z); vy (e x y z); vz (e x y z); vx (h x y z); vy (h x y z); vz (h x y z)].

(** The three-component arrays of the 1D solver: (Ey, Hx, Hz) for TE, (Hy, Ex, Ez) for TM; the other components vanish. *)
Definition sampled_1d (tm : bool) (px t : R) (rx rz : nat) (a : nat -> nat -> vec3) (e h : vfield) : Prop :=
  forall iz ix,
  let x := grid px rx ix in let z := (- grid t rz iz)%coqR in
  forall y, if tm then
    [/\ a iz ix = (vy (h x y z), vx (e x y z), vz (e x y z)), vy (e x y z) = 0, vx (h x y z) = 0 & vz (h x y z) = 0]
  else
    [/\ a iz ix = (vy (e x y z), vx (h x y z), vz (h x y z)), vy (h x y z) = 0, vx (e x y z) = 0 & vz (e x y z) = 0].
