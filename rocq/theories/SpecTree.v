(** What it means for a rebuilt solver object to be the same. *)
From Coq Require Import Reals ZArith.
From mathcomp Require Import all_ssreflect ssralg matrix.
From Coquelicot Require Import Complex.
From Verif Require Import Cplx ModelTM ModelState ModelTree.

Set Implicit Arguments.
Unset Strict Implicit.
Unset Printing Implicit Defensive.

(** Every setting, i.e. every attribute the user can assign. *)
Definition same_settings (o o' : obj) : Prop :=
  [/\ [/\ o_single o' = o_single o, o_pert o' = o_pert o, o_ntop o' = o_ntop o & o_nbot o' = o_nbot o],
      [/\ o_theta o' = o_theta o, o_phi o' = o_phi o, o_psi o' = o_psi o & o_pol o' = o_pol o],
      [/\ o_fto o' = o_fto o, o_period o' = o_period o, o_wavelength o' = o_wavelength o & o_thickness o' = o_thickness o],
      [/\ o_algo o' = o_algo o, o_fourier_type o' = o_fourier_type o & o_enhanced o' = o_enhanced o]
    & o_cell o' = o_cell o /\ o_use_pinv o' = o_use_pinv o].

(** Orders and unit cell are ones the setters accepted. *)
Definition accepted (o : obj) : Prop := (exists a b, o_fto o = Fto a b) /\ o_cell o <> CJunk.

(** A polarisation the constructor takes: in [0, 1] up to the tolerance of the setter. *)
Definition pol_near_unit (o : obj) : Prop := exists2 r : R, o_pol o = RtoC r & (- / 10 ^ 6 < r < 1 + / 10 ^ 6)%coqR.

(** The angle is not an exact zero that the perturbation would now replace. *)
Definition theta_settled (o : obj) : Prop := o_theta o = Some (RtoC 0) -> o_pert o = RtoC 0.

(** No assignment of a one-element list to psi (it raises after overwriting psi, C05). *)
Definition no_psi_list (h : seq jop) : Prop := forall x, ~ List.In (JPsi (VSeq [:: Some x])) h.
