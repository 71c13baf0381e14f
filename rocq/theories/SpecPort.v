(** Vocabulary for symmetries and reciprocity of the JAX and PyTorch objects. *)
From Coq Require Import Reals.
From mathcomp Require Import all_ssreflect ssralg matrix.
From Coquelicot Require Import Complex.
From Verif Require Import Cplx Spec ModelTM ModelField ModelState ModelTorch ModelTorchObj SpecState SpecSym SpecRecipT SpecTorchObj.

Set Implicit Arguments.
Unset Strict Implicit.
Unset Printing Implicit Defensive.
Local Open Scope ring_scope.
Import GRing.Theory.

(** PyTorch objects with the array of a three-dimensional unit cell moved, and with mirrored illumination. *)
Definition t_moved_cell (my mx : motion) (c : tcell) : tcell :=
  match c with
  | TRaster3 ny nx ls => TRaster3 ny nx [seq (fun i j => l (source my ny i) (source mx nx j)) | l : nat -> nat -> C <- ls]
  | _ => c
  end.
Definition t_move_cell (my mx : motion) (o : tobj) : tobj := TObj (t_attrs o) (t_moved_cell my mx (t_cell o)) (t_aniso o).
Definition t_mirror_sp (my mx : motion) (pol : C) (o : tobj) : tobj :=
  let a := t_attrs o in map_attrs (set_angles (o_theta a) (turned_phi my mx (o_phi a)))
    (map_attrs (set_polar (turned_psi my mx (o_psi a)) pol) (t_move_cell my mx o)).
Definition t_other_side (o : tobj) : tobj :=
  let a := t_attrs o in map_attrs (set_angles (omap (fun t => - t) (o_theta a)) (o_phi a)) o.
Definition t_mirror_classical (o : tobj) : tobj := t_other_side (t_move_cell Keep Reverse o).

(** The object lit from below: layers and thicknesses in reverse, indices exchanged. *)
Definition t_upturned (c : tcell) : tcell :=
  match c with
  | TRaster3 ny nx ls => TRaster3 ny nx (rev ls)
  | TRaster4 ny nx ls => TRaster4 ny nx (rev ls)
  | TVector ins => TVector (rev ins)
  | _ => c
  end.
Definition t_sent_back (th : C) (o : tobj) : tobj :=
  let a := t_attrs o in
  TObj (set_angles (Some th) (o_phi a) (set_indices (o_nbot a) (o_ntop a)
    (set_thickness (if o_thickness a is A1 ts then A1 (rev ts) else o_thickness a) a))) (t_upturned (t_cell o)) (t_aniso o).

(** Relations between two reports in terms of efficiencies only. *)
Definition translated_effs n (d d' : diffraction n) : Prop := moved_effs id d d'.
Definition mirrored_effs (pl : nat -> nat) n (d d' : diffraction n) : Prop :=
  forall i j : 'I_n, j = pl i :> nat ->
  [/\ de_ri_s d' j = de_ri_s d i, de_ri_p d' j = de_ri_p d i & de_ri d' j = de_ri d i] /\
  [/\ de_ti_s d' j = de_ti_s d i, de_ti_p d' j = de_ti_p d i & de_ti d' j = de_ti d i].
Definition specular_effs n (d d' : diffraction n) : Prop := forall i : 'I_n, i = (n %/ 2)%N :> nat -> de_ri d' i = de_ri d i.
Definition through_effs n (d d' : diffraction n) : Prop := forall i : 'I_n, i = (n %/ 2)%N :> nat -> de_ti d' i = de_ti d i.

Section Runs.
Variables (pinv : forall n, 'M[C]_n -> 'M[C]_n) (eig : forall n, 'M[C]_n -> 'rV[C]_n * 'M[C]_n).
(** The NumPy object does not raise. *)
Definition np_runs (o : obj) : Prop := (conv_solve pinv eig o).2 <> Raised.
(** The NumPy object with the settings of [o] and the cell [c] solves, and has no mode constant in z. *)
Definition twin_solves (o : tobj) (c : cell) : Prop :=
  exists n r, conv_solve pinv eig (numpy_twin c o) = (n, Solved r) /\ no_flat_memo (o_memo n).
(** Both PyTorch objects solve, and their reports are related. *)
Definition t_reports (P : forall n, diffraction n -> diffraction n -> Prop) (o o' : tobj) : Prop := exists o1 r o2 r',
  [/\ t_conv_solve pinv eig o = (o1, Solved r), t_conv_solve pinv eig o' = (o2, Solved r') & reports P r r'].
End Runs.
(** Settings for which the PyTorch object agrees with NumPy's (C106). *)
Definition ported (o : tobj) (c : cell) : Prop :=
  let a := t_attrs o in [/\ same_cell (t_cell o) c, o_phi a <> Some 0, physical_obj a & is_real (o_nbot a)].
(** Real superstrate and substrate indices, angle of incidence to either side of the normal. *)
Definition tilted (o : tobj) : Prop :=
  let a := t_attrs o in [/\ pos_real (o_ntop a), is_real (o_nbot a)
    & forall th, o_theta a = Some th -> exists2 t : R, (- (PI / 2) < t < PI / 2)%coqR & th = RtoC t].
