(** Optical coatings from the textbook: half-wave layers, quarter-wave layers, mirrors made of pairs of quarter-wave layers. *)
From Coq Require Import Reals ZArith.
From mathcomp Require Import all_ssreflect ssralg matrix.
From Coquelicot Require Import Complex.
From Verif Require Import Cplx Spec SpecSolve ModelTM.

Set Implicit Arguments.
Unset Strict Implicit.
Unset Printing Implicit Defensive.
Local Open Scope R_scope.

(** Normal wave number (over k0) in a transparent medium of index [n], for the transverse wave number [kx] of the incident wave, and the
    tilted admittance: of the electric field for TE, of the magnetic field for TM. *)
Definition normal_k (n kx : R) : R := sqrt (n * n - kx * kx).
Definition tilted (tm : bool) (n kx : R) : R := if tm then normal_k n kx / (n * n) else normal_k n kx.

(** A layer whose phase thickness is a multiple of half a turn, or an odd multiple of a quarter turn. *)
Definition half_wave (w kx n d : R) : Prop := exists m : Z, 2 * normal_k n kx * d = IZR m * w.
Definition quarter_wave (w kx n d : R) : Prop := exists m : Z, 4 * normal_k n kx * d = (2 * IZR m + 1) * w.

(** A transparent layer of index [n], as a pair of permittivity and thickness; [N] pairs of layers. *)
Definition glass (n d : R) : C * R := (RtoC (n * n), d).
Definition pairs (nh dh nl dl : R) (N : nat) : seq (C * R) := flatten (nseq N [:: glass nh dh; glass nl dl]).

(** Reflectance of such a mirror between media of index [nt] and [nb]. *)
Definition mirror_R (tm : bool) (nt nh nl nb kx : R) (N : nat) : R :=
  let a := tilted tm nt kx * tilted tm nl kx ^ (2 * N) in
  let b := tilted tm nb kx * tilted tm nh kx ^ (2 * N) in ((a - b) / (a + b)) ^ 2.

(** A result with power in the middle order only. *)
Definition only_zeroth n (rho tau : R) (d : diffraction n) : Prop :=
  forall i : 'I_n, de_ri d i = (if (i : nat) == (n %/ 2)%N then rho else 0) /\ de_ti d i = (if (i : nat) == (n %/ 2)%N then tau else 0).

(** The three blocks of a report: TE incidence, TM incidence, the requested polarisation angle [f]. *)
Definition zeroth_report n (f : R) (rho tau : bool -> R) (r : sp_result n) : Prop :=
  [/\ only_zeroth (rho false) (tau false) (res_te_inc r), only_zeroth (rho true) (tau true) (res_tm_inc r)
    & only_zeroth (sin f ^ 2 * rho false + cos f ^ 2 * rho true) (sin f ^ 2 * tau false + cos f ^ 2 * tau true) (res r)].

(** One of the two solvers that mix polarisations, or the classical one, returns [r] for a stack of films. *)
Definition solves_films pinv eig (s : setup) (w : R) (films : seq (C * R)) (r : sp_result (ff_y s * ff_x s)) : Prop :=
  let convs := map (fun ed => uniform_convs (ff_y s * ff_x s) ed.1) films in
  (exists i, solve_2d pinv eig false s w convs = Some (r, i)) \/ (exists i, solve_1d_conical pinv eig false s w convs = Some (r, i)).
Definition solves_films_1d pinv eig (s : setup) (w : R) (films : seq (C * R)) (r : diffraction (ff_x s)) : Prop :=
  exists T1 infos, solve_1d pinv eig false s w (map (fun ed => uniform_convs (ff_x s) ed.1) films) = Some (r, T1, infos).
Arguments solves_films pinv eig s w films r : clear implicits.
Arguments solves_films_1d pinv eig s w films r : clear implicits.

(** The classical mount: superstrate index [nt], angle [th], index [nb] below, the thicknesses of the films, TM if [tm]. *)
Record classical_films (s : setup) (tm : bool) (nt th nb : R) (films : seq (C * R)) : Prop := ClassicalFilms {
  cf_nt : n_top s = RtoC nt; cf_nt0 : 0 < nt; cf_th : theta s = RtoC th; cf_th0 : 0 <= th < PI / 2; cf_phi : phi s = None;
  cf_nb : n_bot s = RtoC nb; cf_nb0 : nb <> 0; cf_d : thickness s = map snd films; cf_pol : pol s = (if tm then 1 else 0) }.
