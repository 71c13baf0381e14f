(** Properties about the symmetries of the diffraction problem. *)
From Coq Require Import Reals ZArith Lra.
From mathcomp Require Import all_ssreflect ssralg matrix.
From Coquelicot Require Import Complex.
From Verif Require Import Cplx Mx Spec SpecState SpecSym ModelTM ModelField ModelState SpecLayer ProofObjEx ProofSym ProofSym6 ProofSym7 ProofSymEx ExampleKit
  PropertiesState.

Set Implicit Arguments.
Unset Strict Implicit.
Unset Printing Implicit Defensive.
Local Open Scope ring_scope.
Import GRing.Theory.

(** ** C88: the unit of length is immaterial *)
Theorem C88_scale_outcome pinv eig : forall (c : R), c <> 0%coqR -> forall o, o_mtype o = Some false ->
  (conv_solve pinv eig (rescale c o)).2 = (conv_solve pinv eig o).2.
Proof. exact (@scale_outcome pinv eig). Qed.
Print Assumptions C88_scale_outcome.

Theorem C88_scale_field pinv eig : forall (c : R), c <> 0%coqR -> forall o o1 r, o_mtype o = Some false ->
  conv_solve pinv eig o = (o1, Solved r) ->
  forall rx ry rz sel, calculate_field (conv_solve pinv eig (rescale c o)).1 rx ry rz sel = calculate_field o1 rx ry rz sel.
Proof. exact (@scale_field pinv eig). Qed.
Print Assumptions C88_scale_field.

(** A film of thickness 3 and the same film with every length doubled: different objects, both solvable. *)
Example C88_ex pv : exists o o' r, [/\ construct (args_ex (NFloat 0) [:: 3%coqR]) = Some o,
  o_mtype o = Some false, conv_solve pv eig_ex o = (o', Solved r), rescale 2 o <> o
  & (conv_solve pv eig_ex (rescale 2 o)).2 = Solved r].
Proof.
have [|o' [r [T1 [infos [h1 _]]]]] := @obj_ex_solves pv 0 [:: 3%coqR]; first by left.
exists (obj_ex 0 [:: 3%coqR]), o', (Report (Some r) None None); split=> //.
- by apply: obj_exE; lra.
- move=> h; have := congr1 o_wavelength h; rewrite /rescale /=; lra.
- by rewrite C88_scale_outcome ?h1 //; lra.
Qed.

(** ** C89: translating the pattern multiplies each amplitude by a phase and keeps every efficiency *)
Theorem C89_translation pinv eig : eigen_oracle eig -> forall my mx o o1 o2 r r' ny nx ls fx fy,
  flips my = false -> flips mx = false -> physical_obj o -> thick_enough o -> o_use_pinv o = false ->
  o_cell o = CRaster ny nx ls -> fto_of o = Some (fx, fy) ->
  conv_solve pinv eig o = (o1, Solved r) -> conv_solve pinv eig (move_cell my mx o) = (o2, Solved r') ->
  reports (translated (cell_phase (o_fourier_type o =? 1)%Z my mx ny nx fx fy)) r r'.
Proof. exact (@translate_obj pinv eig). Qed.
Print Assumptions C89_translation.

(** ** C90: a mirrored pattern under mirrored illumination has mirrored efficiencies *)
(** The s/p mounts (conical and 2D), for every reflection of the cell ... *)
Theorem C90_mirror_sp pinv eig : eigen_oracle eig -> forall my mx po o o1 o2 r r' ny nx ls fx fy,
  flips my || flips mx -> physical_obj o -> thick_enough o -> o_use_pinv o = false -> ~ promised o 0 ->
  o_cell o = CRaster ny nx ls -> fto_of o = Some (fx, fy) ->
  conv_solve pinv eig o = (o1, Solved r) -> conv_solve pinv eig (mirror_sp my mx po o) = (o2, Solved r') ->
  reports (mirrored (order_place2 my mx fx.*2.+1 fy.*2.+1)) r r'.
Proof. exact (@mirror_sp_obj pinv eig). Qed.
Print Assumptions C90_mirror_sp.

(** ... and the classical mount. *)
Theorem C90_mirror_classical pinv eig : eigen_oracle eig -> forall o o1 o2 r r' nx ls fx,
  physical_obj o -> thick_enough o -> o_use_pinv o = false -> promised o 0 ->
  o_cell o = CRaster 1 nx ls -> fto_of o = Some (fx, 0%N) ->
  conv_solve pinv eig o = (o1, Solved r) -> conv_solve pinv eig (mirror_classical o) = (o2, Solved r') ->
  reports (mirrored (order_place Reverse fx.*2.+1)) r r'.
Proof. exact (@mirror_classical_obj pinv eig). Qed.
Print Assumptions C90_mirror_classical.

(** Index 1 in the first column and 2 elsewhere (1D); index 1 in one corner (2D). *)
Definition line_ex (_ j : nat) : C := RtoC (if j == 0%N then 1%coqR else 2%coqR).
Definition corner_ex (i j : nat) : C := RtoC (if (i == 0%N) && (j == 0%N) then 1%coqR else 2%coqR).
Lemma line_pos m : positive_cell (fun i j => line_ex i (m j)).
Proof. by move=> i j; rewrite /line_ex; eexists; last reflexivity; case: eqP => _; lra. Qed.
Lemma corner_pos m m' : positive_cell (fun i j => corner_ex (m i) (m' j)).
Proof. by move=> i j; rewrite /corner_ex; eexists; last reflexivity; case: andb; lra. Qed.

Definition first_px (c : cell) : R := if c is CRaster _ _ (g :: _) then Re (g 0%N 0%N) else 0%coqR.
Lemma two_bounds (a b : R) : (0 < a)%coqR -> (0 < b)%coqR -> exists n : R, (0 < n < a)%coqR /\ (0 < n < b)%coqR.
Proof.
move=> ha hb; exists (Rmin a b / 2)%coqR; have := Rmin_pos _ _ ha hb; have := Rmin_l a b; have := Rmin_r a b; lra.
Qed.

Lemma pattern_physical ny nx f nt ph ps po : (0 < nt)%coqR -> (forall p, ph = Some p -> is_real p) -> is_real ps ->
  physical_obj (pattern ny nx f nt th_ex ph ps po).
Proof.
move=> h0 hp hs; split=> //=.
- by exists nt.
- by move=> t [<-]; exists th_ex => //; exact: th_ex_bound.
- by move=> qs [<-] p /= [<-|[<-|//]]; lra.
Qed.
Lemma pattern_thick ny nx f nt th ph ps po : thick_enough (pattern ny nx f nt th ph ps po).
Proof. move=> ts [<-] t /= [<-|//]; lra. Qed.
Lemma real0 : is_real 0. Proof. by exists 0%coqR. Qed.

(** A line grating moved by one of its three pixels. *)
Example C89_ex pv : exists o o1 o2 r r', [/\ [/\ physical_obj o, thick_enough o & o_use_pinv o = false],
  [/\ o_cell o = CRaster 1 3 [:: line_ex], o_cell (move_cell Keep (Roll 1) o) <> o_cell o & fto_of o = Some (0%N, 0%N)]
  & conv_solve pv eig_ex o = (o1, Solved r) /\ conv_solve pv eig_ex (move_cell Keep (Roll 1) o) = (o2, Solved r')].
Proof.
have [m m0 h] := classical_pattern pv (ltn0Sn 2) (line_pos id).
have [m' m0' h'] := classical_pattern pv (ltn0Sn 2) (line_pos (source (Roll 1) 3)).
have [nt [h1 h2]] := two_bounds m0 m0'.
have [o1 [r e1]] := h nt th_ex 0 h1 (or_introl erefl); have [o2 [r' e2]] := h' nt th_ex 0 h2 (or_introl erefl).
exists (pattern 1 3 line_ex nt th_ex None 0 0), o1, o2, r, r'; split; last by split; [exact e1|exact e2].
  by split; [apply: pattern_physical; [lra|by []|exact: real0]|exact: pattern_thick|].
split=> // /(congr1 first_px) /= h3; rewrite (_ : Re (line_ex _ _) = 2%coqR) // in h3; have {h3} : (2 = 1)%coqR := h3; lra.
Qed.

(** A corner pattern of 2 by 2 pixels, mirrored in x, with the azimuth turned from 0 to pi. *)
Example C90_sp_ex pv po : exists o o1 o2 r r', [/\ [/\ physical_obj o, thick_enough o, o_use_pinv o = false & ~ promised o 0],
  [/\ o_cell o = CRaster 2 2 [:: corner_ex], o_cell (mirror_sp Keep Reverse po o) <> o_cell o & fto_of o = Some (0%N, 0%N)]
  & conv_solve pv eig_ex o = (o1, Solved r) /\ conv_solve pv eig_ex (mirror_sp Keep Reverse po o) = (o2, Solved r')].
Proof.
have [m m0 h] := sp_pattern pv (ltnSn 1) (ltn0Sn 1) (corner_pos id id).
have [m' m0' h'] := sp_pattern pv (ltnSn 1) (ltn0Sn 1) (corner_pos id (source Reverse 2)).
have [nt [h1 h2]] := two_bounds m0 m0'.
have [o1 [r e1]] := h nt 0%coqR 0 0 h1 (or_introl erefl); have [o2 [r' e2]] := h' nt PI 0 po h2 (or_intror erefl).
exists (pattern 2 2 corner_ex nt th_ex (Some (RtoC 0)) 0 0), o1, o2, r, r'; split.
- split; [apply: pattern_physical; [lra|by move=> p [<-]; exists 0%coqR|exact: real0]|exact: pattern_thick|by []|].
  by move=> hp; inversion hp.
- split=> // /(congr1 first_px) /= h3; rewrite (_ : Re (corner_ex _ _) = 2%coqR) // in h3; have {h3} : (2 = 1)%coqR := h3; lra.
- split; first exact e1.
  have -> : mirror_sp Keep Reverse po (pattern 2 2 corner_ex nt th_ex (Some (RtoC 0)) 0 0)
      = pattern 2 2 (fun i j => corner_ex (id i) (source Reverse 2 j)) nt th_ex (Some (RtoC PI)) 0 po.
    by rewrite /mirror_sp /turned_phi /turned_psi /= subr0 oppr0.
  exact e2.
Qed.

(** A line grating mirrored, with the light from the other side. *)
Example C90_classical_ex pv : exists o o1 o2 r r', [/\ [/\ physical_obj o, thick_enough o, o_use_pinv o = false & promised o 0],
  [/\ o_cell o = CRaster 1 3 [:: line_ex], o_cell (mirror_classical o) <> o_cell o & fto_of o = Some (0%N, 0%N)]
  & conv_solve pv eig_ex o = (o1, Solved r) /\ conv_solve pv eig_ex (mirror_classical o) = (o2, Solved r')].
Proof.
have [m m0 h] := classical_pattern pv (ltn0Sn 2) (line_pos id).
have [m' m0' h'] := classical_pattern pv (ltn0Sn 2) (line_pos (source Reverse 3)).
have [nt [h1 h2]] := two_bounds m0 m0'.
have [o1 [r e1]] := h nt th_ex 0 h1 (or_introl erefl); have [o2 [r' e2]] := h' nt (- th_ex)%coqR 0 h2 (or_intror erefl).
exists (pattern 1 3 line_ex nt th_ex None 0 0), o1, o2, r, r'; split.
- split; [apply: pattern_physical; [lra|by []|exact: real0]|exact: pattern_thick|by []|].
  by apply: (@P1d _ 3 [:: line_ex]) => //; [left|exists 0%N].
- split=> // /(congr1 first_px) /= h3; rewrite (_ : Re (line_ex _ _) = 2%coqR) // in h3; have {h3} : (2 = 1)%coqR := h3; lra.
- split; first exact e1.
  have -> : mirror_classical (pattern 1 3 line_ex nt th_ex None 0 0)
      = pattern 1 3 (fun i j => line_ex i (source Reverse 3 j)) nt (- th_ex)%coqR None 0 0.
    by rewrite /mirror_classical /= /pattern RtoC_opp.
  exact e2.
Qed.
