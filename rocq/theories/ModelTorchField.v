(** Model of the public fields of the PyTorch backend.
    Source: /repo/meent/on_torch/emsolver/rcwa.py, calculate_field (226-260); the reconstruction itself
    (/repo/meent/on_torch/emsolver/field_distribution.py) has the bodies of the NumPy code, modelled in ModelField.v. *)
From Coq Require Import Reals.
From mathcomp Require Import all_ssreflect ssralg matrix.
From Coquelicot Require Import Complex.
From Verif Require Import Cplx Mx ModelTM ModelField ModelTorch.

Set Implicit Arguments.
Unset Strict Implicit.
Unset Printing Implicit Defensive.
Local Open Scope ring_scope.
Import GRing.Theory.

(** [field_cell.conj() * signs] with signs (-1, 1, -1, 1, -1, 1) (rcwa.py:250-251). *)
Definition reticolo (v : seq C) : seq C := [seq conj p.1 * p.2 | p <- zip v [:: -1; 1; -1; 1; -1; 1]].

(** The three components of the 1D solver as six (rcwa.py:239-246). *)
Definition expand_1d (pol : R) (a : C * C * C) : seq C :=
  let '(a0, a1, a2) := a in
  if reqb pol 0 then [:: 0; a0; 0; a1; 0; a2] else [:: a1; 0; a2; 0; a0; 0].

(** calculate_field in the classical mount, with the change of sign of rcwa.py:255-256; res_y is set to 1 (rcwa.py:231), so the
    index iy is 0. *)
Definition t_field_1d (wavelength : R) n (kx : nat -> C) (T1 : 'cV[C]_n) (infos : seq (info_1d n)) (period_x pol : R)
  (res_x res_z : nat) : seq (nat -> nat -> nat -> seq C) :=
  [seq (fun iz (iy : nat) ix => let v := reticolo (expand_1d pol (f iz ix)) in if reqb pol 1 then [seq - x | x <- v] else v)
  | f <- field_1d wavelength kx T1 infos period_x pol res_x res_z].

(** ... and in the other two, for one of the selected incidences (rcwa.py:234-251). *)
Definition t_field_conical (wavelength : R) n (kxt kyt : nat -> C) (T1 : 'cV[C]_(n + n)) (infos : seq (info_sp 'M[C]_(n, n + n) n))
  (period_x period_y : R) (res_x res_y res_z : nat) : seq (nat -> nat -> nat -> seq C) :=
  [seq (fun iz iy ix => reticolo (f iz iy ix)) | f <- field_conical wavelength kxt kyt T1 infos period_x period_y res_x res_y res_z].
Definition t_field_2d (wavelength : R) n (kxt kyt : nat -> C) (T1 : 'cV[C]_(n + n)) (infos : seq (info_sp 'M[C]_(n + n) n))
  (period_x period_y : R) (res_x res_y res_z : nat) : seq (nat -> nat -> nat -> seq C) :=
  [seq (fun iz iy ix => reticolo (f iz iy ix)) | f <- field_2d wavelength kxt kyt T1 infos period_x period_y res_x res_y res_z].
