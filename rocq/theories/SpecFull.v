(** Vocabulary for the fields returned after a solve: a sampled solution of Maxwell's equations through the whole stack, between
    the incident and reflected waves above and the transmitted waves below. *)
From Coq Require Import Reals.
From mathcomp Require Import all_ssreflect ssralg matrix.
From Coquelicot Require Import Complex.
From Verif Require Import Cplx ModelTM SpecSolve SpecField SpecMaxwell.

Set Implicit Arguments.
Unset Strict Implicit.
Unset Printing Implicit Defensive.
Local Open Scope ring_scope.

(** On the plane of height [z] the tangential components have the order coefficients [uv]: (Ex, Ey) and (Hx, Hy) / i. *)
Definition on_plane n (k0 : R) (kx ky : nat -> C) (e h : vfield) (z : R) (uv : 'cV[C]_(n + n) * 'cV[C]_(n + n)) : Prop :=
  [/\ orders k0 kx ky (fun x y => vx (e x y z)) (usubmx uv.1), orders k0 kx ky (fun x y => vy (e x y z)) (dsubmx uv.1),
      orders k0 kx ky (fun x y => vx (h x y z)) (ci *: usubmx uv.2)
    & orders k0 kx ky (fun x y => vy (h x y z)) (ci *: dsubmx uv.2)].

(** The arrays, one per layer from the top, sample a field that solves Maxwell's equations inside every layer, whose tangential
    components are [top] on the upper face of the stack, [bottom] on the lower one, and continuous in between. *)
Fixpoint em_stack n (k0 : R) (kx ky : nat -> C) (px py : R) (rx ry rz : nat) (ts : seq R) (cs : seq (conv3 n))
  (arr : seq (nat -> nat -> nat -> seq C)) (top bottom : 'cV[C]_(n + n) * 'cV[C]_(n + n)) : Prop :=
  match ts, cs, arr with
  | [::], _, [::] => top = bottom
  | t :: ts', c :: cs', a :: arr' => exists e h mid,
      [/\ on_plane k0 kx ky e h 0 top, on_plane k0 kx ky e h (- t)%coqR mid, maxwell k0 kx ky c t e h, sampled px py t rx ry rz a e h
        & em_stack k0 kx ky px py rx ry rz ts' cs' arr' mid bottom]
  | _, _, _ => False
  end.

(** The same for the classical mount: (Ey, Hx / i) for TE, (Hy, i Ex) for TM. *)
Definition plane_1d n (tm : bool) (k0 : R) (kx : nat -> C) (e h : vfield) (z : R) (uv : 'cV[C]_n * 'cV[C]_n) : Prop :=
  if tm then orders k0 kx (fun _ => 0) (fun x y => vy (h x y z)) uv.1 /\
             orders k0 kx (fun _ => 0) (fun x y => vx (e x y z)) (- ci *: uv.2)
  else orders k0 kx (fun _ => 0) (fun x y => vy (e x y z)) uv.1 /\
       orders k0 kx (fun _ => 0) (fun x y => vx (h x y z)) (ci *: uv.2).
Fixpoint em_stack_1d n (tm : bool) (k0 : R) (kx : nat -> C) (px : R) (rx rz : nat) (ts : seq R) (cs : seq (conv3 n))
  (arr : seq (nat -> nat -> vec3)) (top bottom : 'cV[C]_n * 'cV[C]_n) : Prop :=
  match ts, cs, arr with
  | [::], _, [::] => top = bottom
  | t :: ts', c :: cs', a :: arr' => exists e h mid,
      [/\ plane_1d tm k0 kx e h 0 top, plane_1d tm k0 kx e h (- t)%coqR mid, maxwell k0 kx (fun _ => 0) c t e h,
          sampled_1d tm px t rx rz a e h & em_stack_1d tm k0 kx px rx rz ts' cs' arr' mid bottom]
  | _, _, _ => False
  end.

(** ... for one incidence, with the amplitudes of the result [d]. *)
Definition em_field n (k0 : R) (kx ky : nat -> C) (px py : R) (rx ry rz : nat) (ts : seq R) (cs : seq (conv3 n)) (nt nb th ps : C)
  (dc ds : nat -> C) (d : diffraction n) (arr : seq (nat -> nat -> nat -> seq C)) : Prop :=
  em_stack k0 kx ky px py rx ry rz ts cs arr (above_sp nt th ps kx ky dc ds (R_s d) (R_p d)) (below_sp nb kx ky dc ds (T_s d) (T_p d)).
Definition em_field_1d n (tm : bool) (k0 : R) (kx : nat -> C) (px : R) (rx rz : nat) (ts : seq R) (cs : seq (conv3 n)) (nt nb th : C)
  (d : diffraction n) (arr : seq (nat -> nat -> vec3)) : Prop :=
  em_stack_1d tm k0 kx px rx rz ts cs arr (above_1d tm nt th kx (co_R tm d)) (below_1d tm nb kx (co_T tm d)).
