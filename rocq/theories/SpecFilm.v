(** The characteristic-matrix (Abeles) theory of unpatterned films, written directly from the textbook:
    a film of transverse propagation constant [q], admittance [y] and thickness [d] maps the tangential pair (E, H) at its
    bottom face to the pair at its top face. *)
From Coq Require Import Reals.
From mathcomp Require Import all_ssreflect ssralg.
From Coquelicot Require Import Complex.
From Verif Require Import Cplx.

Set Implicit Arguments.
Unset Strict Implicit.
Unset Printing Implicit Defensive.
Local Open Scope ring_scope.

Definition ccosh (z : C) : C := (cexp z + cexp (- z)) / 2%:R.
Definition csinh (z : C) : C := (cexp z - cexp (- z)) / 2%:R.

(** One film. [ph = k0 q d]. *)
Definition film_matrix (ph y : C) (EH : C * C) : C * C :=
  (ccosh ph * EH.1 + csinh ph / y * EH.2, y * csinh ph * EH.1 + ccosh ph * EH.2).

(** TE (pol = 0) admittance of a wave exp(-q z) in a medium of permittivity [e] is q, TM (pol = 1) q / e. *)
Definition admittance (tm : bool) (e q : C) : C := if tm then q / e else q.

(** A film of permittivity [e], for transverse wave number [kx]: q^2 = kx^2 - e. *)
Definition film (tm : bool) (k0 : R) (kx : C) (ed : C * R) (EH : C * C) : C * C :=
  let q := csqrt (kx ^+ 2 - ed.1) in
  film_matrix (RtoC k0 * q * RtoC ed.2) (admittance tm ed.1 q) EH.

(** Tangential pair on top of a stack of films (listed from top to bottom) standing on a half space of admittance [yb],
    for a unit transmitted amplitude. *)
Definition film_stack (tm : bool) (k0 : R) (kx : C) (films : seq (C * R)) (yb : C) : C * C :=
  foldr (film tm k0 kx) (1, yb) films.

(** Reflection and transmission amplitudes seen from a half space of admittance [y0]. *)
Definition film_r (y0 : C) (EH : C * C) : C := (y0 * EH.1 - EH.2) / (y0 * EH.1 + EH.2).
Definition film_t (y0 : C) (EH : C * C) : C := 2%:R * y0 / (y0 * EH.1 + EH.2).

(** Normal wave number in a lossless half space of index [n]: real if propagating, negative imaginary (decaying away from
    the interface for a field exp(-i k0 kz z)) if evanescent. *)
Definition kz_lossless (n kx : R) : C :=
  if Rle_dec (kx * kx) (n * n) then RtoC (sqrt (n * n - kx * kx))
  else - (ci * RtoC (sqrt (kx * kx - n * n))).

(** Admittance of a half space of index [n] for transverse wave number [kx]. *)
Definition half_space (tm : bool) (n kx : R) : C := admittance tm (RtoC (n * n)) (ci * kz_lossless n kx).

(** Fresnel coefficients (amplitudes of the transverse component: E for s, H for p), angles [t1], [t2]. *)
Definition fresnel_r (tm : bool) (n1 t1 n2 t2 : R) : R :=
  if tm then ((n2 * cos t1 - n1 * cos t2) / (n2 * cos t1 + n1 * cos t2))%coqR
  else ((n1 * cos t1 - n2 * cos t2) / (n1 * cos t1 + n2 * cos t2))%coqR.
Definition fresnel_t (tm : bool) (n1 t1 n2 t2 : R) : R :=
  if tm then (2 * n2 * cos t1 / (n2 * cos t1 + n1 * cos t2))%coqR
  else (2 * n1 * cos t1 / (n1 * cos t1 + n2 * cos t2))%coqR.

Definition total_thickness (films : seq (C * R)) : R := foldr (fun ed x => (ed.2 + x)%coqR) 0%coqR films.
