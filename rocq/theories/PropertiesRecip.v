(** Properties about reciprocity: the zeroth order when the light is reversed. *)
From Coq Require Import Reals ZArith Lra.
From mathcomp Require Import all_ssreflect ssralg matrix.
From Coquelicot Require Import Complex.
From Verif Require Import Cplx Mx Spec SpecState SpecSym SpecRecip ModelTM ModelField ModelState SpecLayer ProofObjEx ProofRecip3 ProofSymEx ExampleKit
  PropertiesState PropertiesSym.

Set Implicit Arguments.
Unset Strict Implicit.
Unset Printing Implicit Defensive.
Local Open Scope ring_scope.
Import GRing.Theory.

(** ** C93: reciprocity of the zeroth reflected order, for absorbing and asymmetric gratings too *)
Theorem C93_reciprocity_classical pinv eig : eigen_oracle eig -> forall o o1 o2 r r',
  physical_obj o -> thick_enough o -> o_use_pinv o = false -> promised o 0 ->
  conv_solve pinv eig o = (o1, Solved r) -> conv_solve pinv eig (other_side o) = (o2, Solved r') ->
  reports same_specular r r'.
Proof. exact (@recip_classical_obj pinv eig). Qed.
Print Assumptions C93_reciprocity_classical.

Theorem C93_reciprocity_sp pinv eig : eigen_oracle eig -> forall ps po o o1 o2 r r',
  physical_obj o -> thick_enough o -> o_use_pinv o = false -> ~ promised o 0 ->
  conv_solve pinv eig o = (o1, Solved r) -> conv_solve pinv eig (turned_about ps po o) = (o2, Solved r') ->
  reciprocal_reports (o_ntop o) (o_psi o) ps r r'.
Proof. exact (@recip_sp_obj pinv eig). Qed.
Print Assumptions C93_reciprocity_sp.

(** A line grating lit from either side. *)
Example C93_classical_ex pv : exists o o1 o2 r r', [/\ [/\ physical_obj o, thick_enough o, o_use_pinv o = false & promised o 0],
  [/\ o_cell o = CRaster 1 3 [:: line_ex], o_theta (other_side o) <> o_theta o & fto_of o = Some (0%N, 0%N)]
  & conv_solve pv eig_ex o = (o1, Solved r) /\ conv_solve pv eig_ex (other_side o) = (o2, Solved r')].
Proof.
have [m m0 h] := classical_pattern pv (ltn0Sn 2) (line_pos id).
have h1 : (0 < m / 2 < m)%coqR by lra.
have [o1 [r e1]] := h (m / 2)%coqR th_ex 0 h1 (or_introl erefl); have [o2 [r' e2]] := h (m / 2)%coqR (- th_ex)%coqR 0 h1 (or_intror erefl).
exists (pattern 1 3 line_ex (m / 2)%coqR th_ex None 0 0), o1, o2, r, r'; split.
- split; [apply: pattern_physical; [lra|by []|exact: real0]|exact: pattern_thick|by []|].
  by apply: (@P1d _ 3 [:: line_ex]) => //; [left|exists 0%N].
- split=> //= -[] h2 _; have := sin_th_ex; have h3 : th_ex = 0%coqR by lra.
  by rewrite h3 sin_0; lra.
- split; first exact e1.
  have -> : other_side (pattern 1 3 line_ex (m / 2)%coqR th_ex None 0 0) = pattern 1 3 line_ex (m / 2)%coqR (- th_ex)%coqR None 0 0.
    by rewrite /other_side /= /pattern RtoC_opp.
  exact e2.
Qed.

(** A corner pattern of 2 by 2 pixels, lit from azimuth 0 and from azimuth pi. *)
Example C93_sp_ex pv ps po : exists o o1 o2 r r', [/\ [/\ physical_obj o, thick_enough o, o_use_pinv o = false & ~ promised o 0],
  [/\ o_cell o = CRaster 2 2 [:: corner_ex], o_phi (turned_about ps po o) <> o_phi o & fto_of o = Some (0%N, 0%N)]
  & conv_solve pv eig_ex o = (o1, Solved r) /\ conv_solve pv eig_ex (turned_about ps po o) = (o2, Solved r')].
Proof.
have [m m0 h] := sp_pattern pv (ltnSn 1) (ltn0Sn 1) (corner_pos id id).
have h1 : (0 < m / 2 < m)%coqR by lra.
have [o1 [r e1]] := h (m / 2)%coqR 0%coqR 0 0 h1 (or_introl erefl); have [o2 [r' e2]] := h (m / 2)%coqR PI ps po h1 (or_intror erefl).
have e0 : RtoC PI + RtoC 0 = RtoC PI by rewrite addr0.
exists (pattern 2 2 corner_ex (m / 2)%coqR th_ex (Some (RtoC 0)) 0 0), o1, o2, r, r'; split.
- split; [apply: pattern_physical; [lra|by move=> p [<-]; exists 0%coqR|exact: real0]|exact: pattern_thick|by []|].
  by move=> hp; inversion hp.
- by split=> //=; rewrite e0 => -[] h2; have := PI_RGT_0; lra.
- split; first exact e1.
  have -> : turned_about ps po (pattern 2 2 corner_ex (m / 2)%coqR th_ex (Some (RtoC 0)) 0 0)
      = pattern 2 2 corner_ex (m / 2)%coqR th_ex (Some (RtoC PI)) ps po by rewrite /turned_about /= e0.
  exact e2.
Qed.
