(** Vocabulary for reciprocity: the light reversed in its tangential direction, and what its zeroth order must show. *)
From Coq Require Import Reals.
From mathcomp Require Import all_ssreflect ssralg matrix.
From Coquelicot Require Import Complex.
From Verif Require Import Cplx ModelTM ModelState SpecSym.

Set Implicit Arguments.
Unset Strict Implicit.
Unset Printing Implicit Defensive.
Local Open Scope ring_scope.
Import GRing.Theory.

(** The same grating lit from the other side of the normal: angle of incidence negated (classical mount); azimuth turned by pi,
    with any polarisation (conical and 2D mounts). *)
Definition other_side (o : obj) : obj := set_angles (omap (fun t => - t) (o_theta o)) (o_phi o) o.
Definition turned_about (psi pol : C) (o : obj) : obj :=
  set_angles (o_theta o) (Some (RtoC PI + (if o_phi o is Some p then p else 0))) (set_polar psi pol o).

(** Same reflection in the zeroth order. *)
Definition same_specular n (d d' : diffraction n) : Prop :=
  forall i : 'I_n, i = (n %/ 2)%N :> nat ->
  [/\ R_s d' i ord0 = R_s d i ord0, R_p d' i ord0 = R_p d i ord0
    & [/\ de_ri_s d' i = de_ri_s d i, de_ri_p d' i = de_ri_p d i & de_ri d' i = de_ri d i]].

(** The component along polarisation [ps'] of what is reflected of polarisation [ps] is the component along [ps] of what is
    reflected of [ps'] when the light is reversed.  [ci * R_p / nt] is the electric amplitude of a p wave. *)
Definition specular_along n (nt ps' : C) (d : diffraction n) (i : 'I_n) : C :=
  csin ps' * R_s d i ord0 + ccos ps' * (ci * R_p d i ord0 / nt).
Definition reciprocal n (nt ps ps' : C) (d d' : diffraction n) : Prop :=
  forall i : 'I_n, i = (n %/ 2)%N :> nat -> specular_along nt ps' d i = specular_along nt ps d' i.

(** Power of the zeroth order: co-polarised parts equal, cross-polarised parts exchanged. *)
Definition cross_exchanged n (te tm te' tm' : diffraction n) : Prop :=
  forall i : 'I_n, i = (n %/ 2)%N :> nat ->
  [/\ de_ri_s te' i = de_ri_s te i, de_ri_p tm' i = de_ri_p tm i, de_ri_s tm' i = de_ri_p te i & de_ri_p te' i = de_ri_s tm i].

(** The whole report: each polarisation of the first solve against each of the reversed one. *)
Inductive reciprocal_reports (nt ps ps' : C) : report -> report -> Prop :=
  | Reciprocal0 : reciprocal_reports nt ps ps' (@Report 0 None None None) (@Report 0 None None None)
  | Reciprocal3 n (a te tm a' te' tm' : diffraction n) :
      reciprocal nt ps ps' a a' ->
      [/\ reciprocal nt (RtoC (PI / 2)) (RtoC (PI / 2)) te te', reciprocal nt 0 0 tm tm',
          reciprocal nt (RtoC (PI / 2)) 0 te tm' & reciprocal nt 0 (RtoC (PI / 2)) tm te'] ->
      cross_exchanged te tm te' tm' ->
      reciprocal_reports nt ps ps' (Report (Some a) (Some te) (Some tm)) (Report (Some a') (Some te') (Some tm')).
