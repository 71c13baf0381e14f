(** Vocabulary for the reciprocity of transmission: the same device lit from the substrate side. *)
From Coq Require Import Reals.
From mathcomp Require Import all_ssreflect ssralg matrix.
From Coquelicot Require Import Complex.
From Verif Require Import Cplx Spec ModelTM ModelState.

Set Implicit Arguments.
Unset Strict Implicit.
Unset Printing Implicit Defensive.
Local Open Scope ring_scope.
Import GRing.Theory.

(** The layers of a cell in the opposite order, and how many there are. *)
Definition upturned_cell (c : cell) : cell :=
  match c with
  | CRaster ny nx ls => CRaster ny nx (rev ls)
  | CVector ins => CVector (rev ins)
  | c => c
  end.
Definition layer_count (c : cell) : nat :=
  match c with CRaster _ _ ls => size ls | CVector ins => size ins | _ => 0%N end.
Definition one_thickness_per_layer (o : obj) : Prop := forall ts, o_thickness o = A1 ts -> size ts = layer_count (o_cell o).

(** The object describing the same device lit from below: superstrate and substrate exchanged, layers and thicknesses from the
    bottom to the top, and new angles. *)
Definition from_below (th : C) (ph : option C) (o : obj) : obj :=
  set_angles (Some th) ph (set_indices (o_nbot o) (o_ntop o)
    (set_thickness (if o_thickness o is A1 ts then A1 (rev ts) else o_thickness o)
      (set_cell (upturned_cell (o_cell o)) (o_mtype o) o))).

(** Lossless substrate, in which the zeroth transmitted order propagates along the angle [sg * th'] of Snell's law. *)
Definition leaves_along (sg : C) (o : obj) (th' : C) : Prop :=
  [/\ pos_real (o_nbot o), (exists2 t : R, (- (PI / 2) < t < PI / 2)%coqR & th' = RtoC t)
    & forall th, o_theta o = Some th -> o_nbot o * csin th' = sg * (o_ntop o * csin th)].

(** Classical mount: the light comes back along the zeroth transmitted order. *)
Definition sent_back (th' : C) (o : obj) : obj := from_below th' (o_phi o) o.
(** Conical and 2D mounts: the light comes back along the zeroth transmitted order, with any polarisation. *)
Definition sent_back_sp (th' ps po : C) (o : obj) : obj :=
  set_polar ps po (from_below th' (Some (RtoC PI + (if o_phi o is Some p then p else 0))) o).

(** The zeroth transmitted order of both: [nt], [th] above, [nb], [th'] below.  Amplitudes in the ratio of the normal
    components of the wave vectors (TE) or of those over the squared indices (TM); the same transmitted power. *)
Definition same_through n (nt th nb th' : C) (d d' : diffraction n) : Prop :=
  forall i : 'I_n, i = (n %/ 2)%N :> nat ->
  [/\ nt * ccos th * T_s d' i ord0 = nb * ccos th' * T_s d i ord0,
      ccos th / nt * T_p d' i ord0 = ccos th' / nb * T_p d i ord0
    & [/\ de_ti_s d' i = de_ti_s d i, de_ti_p d' i = de_ti_p d i & de_ti d' i = de_ti d i]].

(** Component along polarisation [ps] of the zeroth transmitted order in a medium of index [nn]; [- ci * T_p / nn] is the
    electric amplitude of a p wave. *)
Definition through_along n (nn ps : C) (d : diffraction n) (i : 'I_n) : C :=
  csin ps * T_s d i ord0 + ccos ps * (- ci * T_p d i ord0 / nn).
Definition reciprocal_through n (nt th nb th' ps ps' : C) (d d' : diffraction n) : Prop :=
  forall i : 'I_n, i = (n %/ 2)%N :> nat ->
  nt * ccos th * through_along nt ps d' i = nb * ccos th' * through_along nb ps' d i.

(** Power of the zeroth order: co-polarised parts equal, cross-polarised parts exchanged. *)
Definition cross_exchanged_through n (te tm te' tm' : diffraction n) : Prop :=
  forall i : 'I_n, i = (n %/ 2)%N :> nat ->
  [/\ de_ti_s te' i = de_ti_s te i, de_ti_p tm' i = de_ti_p tm i, de_ti_s tm' i = de_ti_p te i & de_ti_p te' i = de_ti_s tm i].

Inductive reciprocal_through_reports (nt th nb th' ps ps' : C) : report -> report -> Prop :=
  | Through0 : reciprocal_through_reports nt th nb th' ps ps' (@Report 0 None None None) (@Report 0 None None None)
  | Through3 n (a te tm a' te' tm' : diffraction n) :
      reciprocal_through nt th nb th' ps ps' a a' ->
      [/\ reciprocal_through nt th nb th' (RtoC (PI / 2)) (RtoC (PI / 2)) te te', reciprocal_through nt th nb th' 0 0 tm tm',
          reciprocal_through nt th nb th' (RtoC (PI / 2)) 0 te tm' & reciprocal_through nt th nb th' 0 (RtoC (PI / 2)) tm te'] ->
      cross_exchanged_through te tm te' tm' ->
      reciprocal_through_reports nt th nb th' ps ps'
        (Report (Some a) (Some te) (Some tm)) (Report (Some a') (Some te') (Some tm')).
