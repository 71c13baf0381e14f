(** What theory says of the absorption of graphene: blocked transitions between the bands, and the carriers' Drude peak. *)
From Coq Require Import Reals.
From Verif Require Import ModelMat.
Local Open Scope R_scope.

(** Occupation of a state of energy [e] at chemical potential [mu] and temperature [t], both in energy units. *)
Definition fermi_dirac (mu t e : R) : R := / (1 + exp ((e - mu) / t)).
(** A photon of energy [e] lifts an electron from -e/2 to e/2. *)
Definition blocked (mu t e : R) : R := fermi_dirac mu t (- e / 2) - fermi_dirac mu t (e / 2).
(** Real part of the sheet conductivity, with relaxation rate [g] (an energy) and the elementary charge [q]. *)
Definition kubo_re (q hbar mu t g e : R) : R :=
  q ^ 2 / (4 * hbar) * blocked mu t e + 2 * q ^ 2 * t * ln (2 * cosh (mu / (2 * t))) / (PI * hbar) * (g / (e ^ 2 + g ^ 2)).
