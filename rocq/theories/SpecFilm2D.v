(** Unpatterned films under a wave of any azimuth, for the solvers that mix both polarisations. *)
From Coq Require Import Reals.
From mathcomp Require Import all_ssreflect ssralg matrix.
From Coquelicot Require Import Complex.
From Verif Require Import Cplx ModelTM Spec SpecSolve SpecFilm.

Set Implicit Arguments.
Unset Strict Implicit.
Unset Printing Implicit Defensive.
Local Open Scope ring_scope.

(** Admittance of the incident wave, at angle [th] in index [nt]. *)
Definition incident_y (tm : bool) (nt th : R) : C := if tm then ci * RtoC (cos th / nt) else ci * RtoC (nt * cos th).


(** What the theory of films predicts for a stack on a half space of index [nb]: the tangential pair on top for a unit
    transmitted amplitude, the two amplitudes, and the fractions of the incident power. *)
Definition film_pair tm (w nt th nb : R) films : C * C :=
  let kx := (nt * sin th)%coqR in film_stack tm (2 * PI / w) (RtoC kx) films (half_space tm nb kx).
Definition film_r0 tm w nt th nb films : C := film_r (incident_y tm nt th) (film_pair tm w nt th nb films).
Definition film_t0 tm w nt th nb films : C := film_t (incident_y tm nt th) (film_pair tm w nt th nb films).
Definition film_R0 tm w nt th nb films : R := nrm2 (film_r0 tm w nt th nb films).
Definition film_T0 tm w nt th nb films : R :=
  (nrm2 (film_t0 tm w nt th nb films) * Re (half_space tm nb (nt * sin th) / incident_y tm nt th)%R)%coqR.

(** [d], of [n] orders, is the result of the theory for one polarisation: only the middle order is reflected or transmitted,
    only in the incident polarisation.  These solvers count amplitudes of the electric field up to a factor, the theory of
    TM films amplitudes of the magnetic field: [f] is the ratio. *)
Definition film_result n (tm : bool) (f : C) w nt th nb films (d : diffraction n) : Prop :=
  [/\ incident_y tm nt th * (film_pair tm w nt th nb films).1 + (film_pair tm w nt th nb films).2 != 0,
      cross_R tm d = 0, cross_T tm d = 0,
      (forall i : 'I_n, co_R tm d i ord0 = (if (i : nat) == (n %/ 2)%N then f * film_r0 tm w nt th nb films else 0) /\
                        co_T tm d i ord0 = (if (i : nat) == (n %/ 2)%N then f * film_t0 tm w nt th nb films else 0))
    & forall i : 'I_n, de_ri d i = (if (i : nat) == (n %/ 2)%N then film_R0 tm w nt th nb films else 0%coqR) /\
                       de_ti d i = (if (i : nat) == (n %/ 2)%N then film_T0 tm w nt th nb films else 0%coqR)].

(** The efficiencies of an incident wave with the fractions [a] of its power in TE and [b] in TM. *)
Definition film_mixture n (a b w nt th nb : R) films (d : diffraction n) : Prop :=
  forall i : 'I_n,
  de_ri d i = (if (i : nat) == (n %/ 2)%N then a * film_R0 false w nt th nb films + b * film_R0 true w nt th nb films else 0)%coqR /\
  de_ti d i = (if (i : nat) == (n %/ 2)%N then a * film_T0 false w nt th nb films + b * film_T0 true w nt th nb films else 0)%coqR.

(** The three blocks of the report: a TE wave alone, a TM wave alone, the wave of the given polarisation angle [f]. *)
Definition film_answer n (f w nt th nb : R) films (r : sp_result n) : Prop :=
  [/\ film_result false 1 w nt th nb films (res_te_inc r), film_result true (ci * RtoC nt) w nt th nb films (res_tm_inc r)
    & film_mixture (sin f ^ 2) (cos f ^ 2) w nt th nb films (res r)].

(** A setup with these data: superstrate index [nt], angle of incidence [th], any real azimuth, polarisation angle [f], index
    [nb] below, the thicknesses of the films.  No film carries a wave exactly along the interfaces. *)
Record film_setup (s : setup) (nt th f nb : R) (films : seq (C * R)) : Prop := FilmSetup {
  fs_nt : n_top s = RtoC nt; fs_nt0 : (0 < nt)%coqR;
  fs_th : theta s = RtoC th; fs_th0 : (0 <= th < PI / 2)%coqR;
  fs_phi : forall p, phi s = Some p -> is_real p;
  fs_psi : psi s = RtoC f;
  fs_nb : n_bot s = RtoC nb;
  fs_d : thickness s = map snd films;
  fs_d0 : forall ed, List.In ed films -> (0 <= ed.2)%coqR;
  fs_e : forall ed, List.In ed films -> ed.1 <> 0 /\ RtoC (nt * sin th) ^+ 2 <> ed.1 }.

(** Two results, for [n] and [m] orders, that agree on the middle order and have no power elsewhere. *)
Definition same_zeroth n m (d : diffraction n) (d' : diffraction m) : Prop :=
  forall (i : 'I_n) (j : 'I_m),
  ((i : nat) = (n %/ 2)%N -> (j : nat) = (m %/ 2)%N -> de_ri d i = de_ri d' j /\ de_ti d i = de_ti d' j) /\
  ((i : nat) <> (n %/ 2)%N -> de_ri d i = 0%coqR /\ de_ti d i = 0%coqR) /\
  ((j : nat) <> (m %/ 2)%N -> de_ri d' j = 0%coqR /\ de_ti d' j = 0%coqR).
