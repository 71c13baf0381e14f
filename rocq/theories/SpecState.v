(** Vocabulary about solver objects and their histories. *)
From Coq Require Import Reals ZArith.
From mathcomp Require Import all_ssreflect ssralg matrix.
From Coquelicot Require Import Complex.
From Verif Require Import Cplx Spec SpecSolve SpecLayer ModelTM ModelFourier ModelVec ModelState.

Set Implicit Arguments.
Unset Strict Implicit.
Unset Printing Implicit Defensive.
Local Open Scope ring_scope.

(** The two polarisation attributes describe the same polarisation. *)
Definition coherent (o : obj) : Prop := o_psi o = RtoC (PI / 2) * (1 - o_pol o).

(** Polarisation portion between full TE (0) and full TM (1). *)
Definition pol_in_range (o : obj) : Prop := exists2 p : R, o_pol o = RtoC p & (0 <= p <= 1)%coqR.

(** Everything a user can read or set on the object, except the grating type and the layer infos recorded by a solve. *)
Definition same_settings (o1 o2 : obj) : Prop :=
  [/\ o_ntop o1 = o_ntop o2, o_nbot o1 = o_nbot o2, o_theta o1 = o_theta o2 & o_phi o1 = o_phi o2] /\
  [/\ o_psi o1 = o_psi o2, o_pol o1 = o_pol o2, o_fto o1 = o_fto o2 & o_period o1 = o_period o2] /\
  [/\ o_wavelength o1 = o_wavelength o2, o_thickness o1 = o_thickness o2, o_algo o1 = o_algo o2
    & o_use_pinv o1 = o_use_pinv o2] /\
  [/\ o_cell o1 = o_cell o2, o_mtype o1 = o_mtype o2, o_fourier_type o1 = o_fourier_type o2
    & o_enhanced o1 = o_enhanced o2].

(** The formulation the documentation promises for the current settings: 0 (1D, pure TE or TM), 1 (1D conical), 2 (2D). *)
Inductive promised (o : obj) : nat -> Prop :=
  | P1d nx ls : o_mtype o = Some false -> o_cell o = CRaster 1 nx ls -> o_pol o = 0 \/ o_pol o = 1 -> o_phi o = None ->
      (exists2 f, fto_of o = Some (f, 0%N) & True) -> promised o 0
  | Pcon nx ls : o_mtype o = Some false -> o_cell o = CRaster 1 nx ls ->
      ~ ((o_pol o = 0 \/ o_pol o = 1) /\ o_phi o = None /\ exists2 f, fto_of o = Some (f, 0%N) & True) -> promised o 1
  | P2d ny nx ls : o_mtype o = Some false -> o_cell o = CRaster ny nx ls -> ny <> 1%N -> promised o 2
  | Pvec : o_mtype o = Some true -> promised o 2.

(** A fact about every result block present in a report. *)
Definition report_all (P : forall n, diffraction n -> Prop) (r : report) : Prop :=
  let: Report n a b c := r in
  [/\ (forall d, a = Some d -> P n d), (forall d, b = Some d -> P n d) & (forall d, c = Some d -> P n d)].

(** The report holds a result for the requested polarisation. *)
Definition report_some (r : report) : Prop := let: Report n a _ _ := r in exists d, a = Some d.

(** The unit cell is non-absorbing: every index is real. *)
Definition real_cell_of (o : obj) : Prop :=
  match o_cell o with
  | CRaster ny nx layers => forall f, List.In f layers -> forall i j, (i < ny)%N -> (j < nx)%N -> conj (f i j) = f i j
  | CVector ins => forall b objs, List.In (b, objs) ins -> conj b = b /\
      forall ob r, List.In ob objs -> List.In r (draw_object ob) -> conj (r_index r) = r_index r
  | _ => True
  end.

(** Lossless half space above, real incidence below 90 degrees, real azimuth and real polarisation angle, positive
    periods. *)
Definition physical_obj (o : obj) : Prop :=
  [/\ pos_real (o_ntop o), (forall t, o_theta o = Some t -> angle_below_90 t), (forall p, o_phi o = Some p -> is_real p),
      is_real (o_psi o)
    & forall ps, o_period o = A1 ps -> forall p, List.In p ps -> (0 < p)%coqR].

(** Polarisation assignments that stay within the documented meaning: psi between 0 and pi/2, pol a real number. *)
Definition proper_polar (a : op) : Prop :=
  match a with
  | SetPsi v => forall x, scalar v = Some x -> exists2 p : R, cnum x = RtoC p & (0 <= p <= PI / 2)%coqR
  | SetPol v => forall x, scalar v = Some x -> is_real (cnum x)
  | _ => True
  end.

(** Number of layers of the unit cell, and the same object with only the [k] topmost layers. *)
Definition layer_count (o : obj) : nat :=
  match o_cell o with CRaster _ _ layers => size layers | CVector ins => size ins | _ => 0 end.
Definition keep_layers (k : nat) (o : obj) : obj :=
  set_cell (match o_cell o with
            | CRaster ny nx layers => CRaster ny nx (take k layers)
            | CVector ins => CVector (take k ins)
            | c => c
            end) (o_mtype o) o.

(** The rejections that are not clean: a one-element list for psi, an array for fto or ucell, and a precision switch while fto
    holds the left-over of such a rejected array. *)
Definition fragile (a : op) (o : obj) : bool :=
  match a with
  | SetPsi (VSeq [:: Some _]) => true
  | SetFto (VArr0 _) | SetFto (VArr1 _) | SetFto (VArr3 _ _ _ _) => true
  | SetUcell (VArr0 _) | SetUcell (VArr1 _) | SetUcell (VArr3 _ _ _ _) => true
  | SetTypeComplex _ => if o_fto o is Fto _ _ then false else true
  | _ => false
  end.
Definition is_psi_list (a : op) : bool := if a is SetPsi (VSeq [:: Some _]) then true else false.
Definition is_solve (a : op) : bool := if a is ConvSolve then true else false.

(** Which solver ran, seen in what it left behind. *)
Definition ran (m : memo) : nat := match m with M1d _ _ _ => 0 | MCon _ _ _ => 1 | M2d _ _ _ => 2 | MNone => 3 end.

(** A period given as one number: a Python int or float, or a list or array holding one. *)
Definition scalar_period (v : pyval) : option R :=
  match v with
  | VNum (NInt z) => Some (IZR z)
  | VNum (NFloat r) => Some r
  | VSeq [:: x] => list_float x
  | VArr1 [:: x] => list_float (Some x)
  | _ => None
  end.
Definition is_array0 (v : pyval) : bool := if v is VArr0 _ then true else false.
Definition is_array3 (v : pyval) : bool := if v is VArr3 _ _ _ _ then true else false.

(** The settings that enter calculate_field: wave vectors, wavelength, period, and whether the polarisation is TE. *)
Definition same_field_settings (o1 o2 : obj) : Prop :=
  [/\ o_fto o1 = o_fto o2, o_theta o1 = o_theta o2, o_phi o1 = o_phi o2 & o_period o1 = o_period o2] /\
  [/\ o_wavelength o1 = o_wavelength o2, o_ntop o1 = o_ntop o2 & (o_pol o1 = 0 <-> o_pol o2 = 0)].
