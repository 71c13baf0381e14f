(** C71, continued: how much graphene absorbs. *)
From Coq Require Import Reals Lra.
From mathcomp Require Import all_ssreflect ssralg.
From Coquelicot Require Import Complex.
From Verif Require Import Cplx ModelMat SpecMat SpecGraphene ProofGraphene PropertiesMat.

Set Implicit Arguments.
Unset Strict Implicit.
Unset Printing Implicit Defensive.
Local Open Scope ring_scope.
Import GRing.Theory.

(** The absorption of the looked-up index is that of the Kubo formula, whatever the quadrature returns; clipping the ratio of two cosh
    costs at most exp(-709) of the universal conductivity, at all energies and temperatures. *)
Theorem C71_absorption wofz quad f mob temp th wl sp b z : graphene_spec f mob temp th = Some sp -> (0 < wl)%coqR ->
  find_nk_index wofz quad (BySpec sp) [::] wl = Some (b, z) ->
  let omega := (2 * PI * LIGHT_SPEED / wl)%coqR in
  let g := (HBAR * FERMI_VELOCITY ^ 2 / (mob / 10000 * ELEMENTARY_CHARGE * f))%coqR in
  let t := (temp * BOLTZMANN / ELEMENTARY_CHARGE)%coqR in
  (Rabs (- Im (z * z)%R * (omega * th * VACUUM_PERMITTIVITY)
    - kubo_re ELEMENTARY_CHARGE HBAR f t g (HBAR * omega / ELEMENTARY_CHARGE)) <= ELEMENTARY_CHARGE ^ 2 / (4 * HBAR) * exp (-709))%coqR.
Proof. exact (@graphene_kubo wofz quad f mob temp th wl sp b z). Qed.
Print Assumptions C71_absorption.

(** C71_ex has a wavelength and parameters for which the lookup returns; here for all of them. *)
Example C71_absorption_ex wofz quad (f mob temp th wl : R) : (0 < f)%coqR -> (0 < mob)%coqR -> (0 < temp)%coqR -> (0 < th)%coqR -> (0 < wl)%coqR ->
  exists sp z, graphene_spec f mob temp th = Some sp /\ find_nk_index wofz quad (BySpec sp) [::] wl = Some (false, z).
Proof.
move=> h1 h2 h3 h4 hw; have [_ h] := C71_accepts f mob temp th; have [|sp e] := h; first by split.
by have [z [hz _]] := C71_graphene wofz quad e hw; exists sp, z.
Qed.
