(** Vocabulary for the 2D scattering-matrix functions. *)
From Coq Require Import Reals.
From mathcomp Require Import all_ssreflect ssralg matrix.
From Coquelicot Require Import Complex.
From Verif Require Import Cplx Mx Spec SpecSolve SpecField ModelTM ModelSMM.

Set Implicit Arguments.
Unset Strict Implicit.
Unset Printing Implicit Defensive.
Local Open Scope ring_scope.
Import GRing.Theory.

(** The x and y components of the electric field of the reflected and of the transmitted orders, from amplitudes that give
    the electric field across the plane of incidence (s) and the magnetic field across it (p). *)
Definition refl_xy n (nt : C) (kx ky dc ds : nat -> C) (r : diffraction n) : 'cV[C]_(n + n) :=
  e_xy dc ds (fun i => R_s r i ord0) (fun i => - (ci / nt ^+ 2 * kz_of nt (kx i) (ky i) * R_p r i ord0)).
Definition trans_xy n (nb : C) (kx ky dc ds : nat -> C) (r : diffraction n) : 'cV[C]_(n + n) :=
  e_xy dc ds (fun i => T_s r i ord0) (fun i => ci / nb ^+ 2 * kz_of nb (kx i) (ky i) * T_p r i ord0).

(** Power carried along z by the plane wave with wave vector (kx, ky, kz) and electric field (ex, ey, ez), transverse:
    kx ex + ky ey + kz ez = 0; in units of the incident power (index nt, angle th, unit amplitude). *)
Definition wave_power (nn nt th kx ky ex ey : C) : R :=
  let kz := kz_of nn kx ky in
  (Re kz * (nrm2 ex + nrm2 ey + nrm2 ((kx * ex + ky * ey) / kz)%R) / Re (nt * ccos th)%R)%coqR.

(** Every order is oblique to both axes and none is at grazing in the medium. *)
Definition off_axes n (kx ky : nat -> C) : Prop := forall i, (i < n)%N -> kx i <> 0 /\ ky i <> 0.
Definition off_grazing n (nn : C) (kx ky : nat -> C) : Prop := forall i, (i < n)%N -> kx i ^+ 2 + ky i ^+ 2 <> nn ^+ 2.
Definition pm1 (x : C) : Prop := x = 1 \/ x = -1.

(** [d] gives the x and y components of the fields [e] describes by s and p, up to one common sign; and their powers are the
    efficiencies of [e]. *)
Definition same_waves n (nt nb th : R) (kx ky dc ds : nat -> C) (d e : diffraction n) : Prop :=
  (exists2 sg : C, pm1 sg & col_mx (R_s d) (R_p d) = sg *: refl_xy (RtoC nt) kx ky dc ds e /\
                            col_mx (T_s d) (T_p d) = sg *: trans_xy (RtoC nb) kx ky dc ds e) /\
  (forall i : 'I_n, wave_power (RtoC nt) (RtoC nt) (RtoC th) (kx i) (ky i) (R_s d i ord0) (R_p d i ord0) = de_ri e i /\
                    wave_power (RtoC nb) (RtoC nt) (RtoC th) (kx i) (ky i) (T_s d i ord0) (T_p d i ord0) = de_ti e i).
(** Real wave vectors, with the given direction in the central order. *)
Definition real_waves n (kx ky : nat -> C) (kc lc : R) : Prop :=
  (forall i, (i < n)%N -> is_real (kx i) /\ is_real (ky i)) /\ kx (n %/ 2)%N = RtoC kc /\ ky (n %/ 2)%N = RtoC lc.
