(** C117, C118: symmetries and reciprocity of the JAX and PyTorch objects. *)
From Coq Require Import Reals ZArith Lra.
From mathcomp Require Import all_ssreflect ssralg matrix.
From Coquelicot Require Import Complex.
From Verif Require Import Cplx Mx Spec SpecSolve SpecState SpecSym SpecRecip SpecRecipT SpecLayer SpecTorch SpecTorchObj SpecJax ModelTM ModelField ModelState
  ModelJax ModelTorch ModelTorchObj SpecPort ProofPort ProofPortEx ProofSymEx ProofRecipEx ProofObjEx ExampleKit PropertiesSym PropertiesRecip PropertiesRecipT PropertiesTorchObj.

Set Implicit Arguments.
Unset Strict Implicit.
Unset Printing Implicit Defensive.
Local Open Scope ring_scope.
Import GRing.Theory.

(** ** C117: JAX *)
Section Jax.
Variables (pinv : forall n, 'M[C]_n -> 'M[C]_n) (eig : forall n, 'M[C]_n -> 'rV[C]_n * 'M[C]_n) (broken : forall n, 'M[C]_n -> 'M[C]_n).
Local Notation runs := (np_runs pinv eig).
Local Notation jsolve := (j_conv_solve pinv eig broken).

Theorem C117_scale (c : R) o o1 o2 r r' : c <> 0%coqR -> o_mtype o = Some false -> o_use_pinv o = false -> runs o ->
  jsolve o = (o1, Solved r) -> jsolve (rescale c o) = (o2, Solved r') -> r' = r.
Proof.
move=> hc hm hu h1 e1 e2; have n1 := of_jax hu h1 e1.
have e := C88_scale_outcome pinv eig hc hm; have h2 : runs (rescale c o) by rewrite /np_runs e.
have n2 := of_jax (o := rescale c o) hu h2 e2; by move: e; rewrite n1 n2 => -[].
Qed.

Theorem C117_translation my mx o o1 o2 r r' ny nx ls fx fy : eigen_oracle eig ->
  flips my = false -> flips mx = false -> physical_obj o -> thick_enough o -> o_use_pinv o = false ->
  o_cell o = CRaster ny nx ls -> fto_of o = Some (fx, fy) -> runs o -> runs (move_cell my mx o) ->
  jsolve o = (o1, Solved r) -> jsolve (move_cell my mx o) = (o2, Solved r') ->
  reports (translated (cell_phase (o_fourier_type o =? 1)%Z my mx ny nx fx fy)) r r'.
Proof.
move=> he f1 f2 hp ht hu hc hf r1 r2 e1 e2.
exact (C89_translation he f1 f2 hp ht hu hc hf (of_jax hu r1 e1) (of_jax (o := move_cell my mx o) hu r2 e2)).
Qed.

Theorem C117_mirror_sp my mx po o o1 o2 r r' ny nx ls fx fy : eigen_oracle eig ->
  flips my || flips mx -> physical_obj o -> thick_enough o -> o_use_pinv o = false -> ~ promised o 0 ->
  o_cell o = CRaster ny nx ls -> fto_of o = Some (fx, fy) -> runs o -> runs (mirror_sp my mx po o) ->
  jsolve o = (o1, Solved r) -> jsolve (mirror_sp my mx po o) = (o2, Solved r') ->
  reports (mirrored (order_place2 my mx fx.*2.+1 fy.*2.+1)) r r'.
Proof.
move=> he f1 hp ht hu hq hc hf r1 r2 e1 e2.
exact (C90_mirror_sp he f1 hp ht hu hq hc hf (of_jax hu r1 e1) (of_jax (o := mirror_sp my mx po o) hu r2 e2)).
Qed.

Theorem C117_mirror_classical o o1 o2 r r' nx ls fx : eigen_oracle eig ->
  physical_obj o -> thick_enough o -> o_use_pinv o = false -> promised o 0 ->
  o_cell o = CRaster 1 nx ls -> fto_of o = Some (fx, 0%N) -> runs o -> runs (mirror_classical o) ->
  jsolve o = (o1, Solved r) -> jsolve (mirror_classical o) = (o2, Solved r') ->
  reports (mirrored (order_place Reverse fx.*2.+1)) r r'.
Proof.
move=> he hp ht hu hq hc hf r1 r2 e1 e2.
exact (C90_mirror_classical he hp ht hu hq hc hf (of_jax hu r1 e1) (of_jax (o := mirror_classical o) hu r2 e2)).
Qed.

Theorem C117_reflection_classical o o1 o2 r r' : eigen_oracle eig ->
  physical_obj o -> thick_enough o -> o_use_pinv o = false -> promised o 0 -> runs o -> runs (other_side o) ->
  jsolve o = (o1, Solved r) -> jsolve (other_side o) = (o2, Solved r') -> reports same_specular r r'.
Proof.
move=> he hp ht hu hq r1 r2 e1 e2.
exact (C93_reciprocity_classical he hp ht hu hq (of_jax hu r1 e1) (of_jax (o := other_side o) hu r2 e2)).
Qed.

Theorem C117_reflection_sp ps po o o1 o2 r r' : eigen_oracle eig ->
  physical_obj o -> thick_enough o -> o_use_pinv o = false -> ~ promised o 0 -> runs o -> runs (turned_about ps po o) ->
  jsolve o = (o1, Solved r) -> jsolve (turned_about ps po o) = (o2, Solved r') ->
  reciprocal_reports (o_ntop o) (o_psi o) ps r r'.
Proof.
move=> he hp ht hu hq r1 r2 e1 e2.
exact (C93_reciprocity_sp he hp ht hu hq (of_jax hu r1 e1) (of_jax (o := turned_about ps po o) hu r2 e2)).
Qed.

Theorem C117_transmission_classical th' o th o1 o2 r r' : eigen_oracle eig ->
  physical_obj o -> thick_enough o -> one_thickness_per_layer o -> o_use_pinv o = false -> promised o 0 ->
  leaves_along (-1) o th' -> o_theta o = Some th -> runs o -> runs (sent_back th' o) ->
  jsolve o = (o1, Solved r) -> jsolve (sent_back th' o) = (o2, Solved r') ->
  reports (fun n => same_through (n := n) (o_ntop o) th (o_nbot o) th') r r'.
Proof.
move=> he hp ht h1 hu hq hl ho r1 r2 e1 e2.
exact (C100_transmission_classical he hp ht h1 hu hq hl ho (of_jax hu r1 e1) (of_jax (o := sent_back th' o) hu r2 e2)).
Qed.

Theorem C117_transmission_sp th' ps po o th o1 o2 r r' : eigen_oracle eig ->
  physical_obj o -> thick_enough o -> one_thickness_per_layer o -> o_use_pinv o = false -> ~ promised o 0 ->
  leaves_along 1 o th' -> o_theta o = Some th -> runs o -> runs (sent_back_sp th' ps po o) ->
  jsolve o = (o1, Solved r) -> jsolve (sent_back_sp th' ps po o) = (o2, Solved r') ->
  reciprocal_through_reports (o_ntop o) th (o_nbot o) th' (o_psi o) ps r r'.
Proof.
move=> he hp ht h1 hu hq hl ho r1 r2 e1 e2.
exact (C100_transmission_sp he hp ht h1 hu hq hl ho (of_jax hu r1 e1) (of_jax (o := sent_back_sp th' ps po o) hu r2 e2)).
Qed.
End Jax.
Print Assumptions C117_scale.
Print Assumptions C117_translation.
Print Assumptions C117_mirror_sp.
Print Assumptions C117_mirror_classical.
Print Assumptions C117_reflection_classical.
Print Assumptions C117_reflection_sp.
Print Assumptions C117_transmission_classical.
Print Assumptions C117_transmission_sp.

(** The examples of C88, C89, C90, C93 and C100 in JAX. *)
Local Notation jruns pv broken o o' r := (np_runs pv eig_ex o /\ j_conv_solve pv eig_ex broken o = (o', Solved r)).
Example C117_scale_ex pv broken : exists o o1 o2 r, [/\ o_mtype o = Some false, o_use_pinv o = false, rescale 2 o <> o,
  jruns pv broken o o1 r & j_conv_solve pv eig_ex broken (rescale 2 o) = (o2, Solved r)].
Proof.
have [|o' [r [T1 [infos [h1 _]]]]] := @obj_ex_solves pv 0 [:: 3%coqR]; first by left.
have h2 : (2 <> 0)%coqR by lra.
have e := C88_scale_outcome pv eig_ex h2 (o := obj_ex 0 [:: 3%coqR]) erefl; rewrite h1 /= in e.
case e2: (conv_solve pv eig_ex (rescale 2 (obj_ex 0 [:: 3%coqR]))) e => [o2 r2] /= e; rewrite e in e2.
exists (obj_ex 0 [:: 3%coqR]), o', o2, (Report (Some r) None None); split=> //.
- by move=> h; have := congr1 o_wavelength h; rewrite /rescale /=; lra.
- exact (to_jax broken (o := obj_ex 0 [:: 3%coqR]) erefl h1).
by have [_ h] := to_jax broken (o := rescale 2 (obj_ex 0 [:: 3%coqR])) erefl e2.
Qed.
Example C117_translation_ex pv broken : exists o o1 o2 r r', [/\ [/\ physical_obj o, thick_enough o & o_use_pinv o = false],
  [/\ o_cell o = CRaster 1 3 [:: line_ex], o_cell (move_cell Keep (Roll 1) o) <> o_cell o & fto_of o = Some (0%N, 0%N)]
  & jruns pv broken o o1 r /\ jruns pv broken (move_cell Keep (Roll 1) o) o2 r'].
Proof.
have [o [o1 [o2 [r [r' [h1 h2 [e1 e2]]]]]]] := C89_ex pv; have [_ _ hu] := h1; exists o, o1, o2, r, r'; split=> //.
by split; exact: to_jax.
Qed.
Example C117_mirror_sp_ex pv broken po : exists o o1 o2 r r', [/\ [/\ physical_obj o, thick_enough o, o_use_pinv o = false & ~ promised o 0],
  [/\ o_cell o = CRaster 2 2 [:: corner_ex], o_cell (mirror_sp Keep Reverse po o) <> o_cell o & fto_of o = Some (0%N, 0%N)]
  & jruns pv broken o o1 r /\ jruns pv broken (mirror_sp Keep Reverse po o) o2 r'].
Proof.
have [o [o1 [o2 [r [r' [h1 h2 [e1 e2]]]]]]] := C90_sp_ex pv po; have [_ _ hu _] := h1; exists o, o1, o2, r, r'; split=> //.
by split; exact: to_jax.
Qed.
Example C117_mirror_classical_ex pv broken : exists o o1 o2 r r', [/\ [/\ physical_obj o, thick_enough o, o_use_pinv o = false & promised o 0],
  [/\ o_cell o = CRaster 1 3 [:: line_ex], o_cell (mirror_classical o) <> o_cell o & fto_of o = Some (0%N, 0%N)]
  & jruns pv broken o o1 r /\ jruns pv broken (mirror_classical o) o2 r'].
Proof.
have [o [o1 [o2 [r [r' [h1 h2 [e1 e2]]]]]]] := C90_classical_ex pv; have [_ _ hu _] := h1; exists o, o1, o2, r, r'; split=> //.
by split; exact: to_jax.
Qed.
Example C117_reflection_classical_ex pv broken : exists o o1 o2 r r', [/\ [/\ physical_obj o, thick_enough o, o_use_pinv o = false & promised o 0],
  [/\ o_cell o = CRaster 1 3 [:: line_ex], o_theta (other_side o) <> o_theta o & fto_of o = Some (0%N, 0%N)]
  & jruns pv broken o o1 r /\ jruns pv broken (other_side o) o2 r'].
Proof.
have [o [o1 [o2 [r [r' [h1 h2 [e1 e2]]]]]]] := C93_classical_ex pv; have [_ _ hu _] := h1; exists o, o1, o2, r, r'; split=> //.
by split; exact: to_jax.
Qed.
Example C117_reflection_sp_ex pv broken ps po : exists o o1 o2 r r', [/\ [/\ physical_obj o, thick_enough o, o_use_pinv o = false & ~ promised o 0],
  [/\ o_cell o = CRaster 2 2 [:: corner_ex], o_phi (turned_about ps po o) <> o_phi o & fto_of o = Some (0%N, 0%N)]
  & jruns pv broken o o1 r /\ jruns pv broken (turned_about ps po o) o2 r'].
Proof.
have [o [o1 [o2 [r [r' [h1 h2 [e1 e2]]]]]]] := C93_sp_ex pv ps po; have [_ _ hu _] := h1; exists o, o1, o2, r, r'; split=> //.
by split; exact: to_jax.
Qed.
Example C117_transmission_classical_ex pv broken : exists o th' th o1 o2 r r', [/\
  [/\ physical_obj o, thick_enough o, one_thickness_per_layer o, o_use_pinv o = false & promised o 0],
  [/\ leaves_along (-1) o th', o_theta o = Some th, o_cell o = CRaster 1 3 [:: line_ex; line_ex2] & o_ntop o <> o_nbot o]
  & jruns pv broken o o1 r /\ jruns pv broken (sent_back th' o) o2 r'].
Proof.
have [o [th' [th [o1 [o2 [r [r' [h1 h2 [e1 e2]]]]]]]]] := C100_classical_ex pv; have [_ _ _ hu _] := h1.
by exists o, th', th, o1, o2, r, r'; split=> //; split; exact: to_jax.
Qed.
Example C117_transmission_sp_ex pv broken ps po : exists o th' th o1 o2 r r', [/\
  [/\ physical_obj o, thick_enough o, one_thickness_per_layer o, o_use_pinv o = false & ~ promised o 0],
  [/\ leaves_along 1 o th', o_theta o = Some th, o_cell o = CRaster 2 2 [:: corner_ex; corner_ex2] & o_ntop o <> o_nbot o]
  & jruns pv broken o o1 r /\ jruns pv broken (sent_back_sp th' ps po o) o2 r'].
Proof.
have [o [th' [th [o1 [o2 [r [r' [h1 h2 [e1 e2]]]]]]]]] := C100_sp_ex pv ps po; have [_ _ _ hu _] := h1.
by exists o, th', th, o1, o2, r, r'; split=> //; split; exact: to_jax.
Qed.

(** ** C118: PyTorch *)
Section Torch.
Variables (pinv : forall n, 'M[C]_n -> 'M[C]_n) (eig : forall n, 'M[C]_n -> 'rV[C]_n * 'M[C]_n).
Local Notation nsolves := (twin_solves pinv eig).
Local Notation pair_of := (t_reports pinv eig).

Theorem C118_translation my mx o ny nx ls fx fy : let a := t_attrs o in let c := CRaster ny nx ls in let o' := t_move_cell my mx o in
  eigen_oracle eig -> flips my = false -> flips mx = false -> ported o c -> thick_enough a -> o_use_pinv a = false ->
  fto_of a = Some (fx, fy) -> nsolves o c -> nsolves o' (moved_cell my mx c) -> pair_of translated_effs o o'.
Proof.
move=> a c o' he f1 f2 [p1 p2 p3 p4] ht hu hf [n1 [r1 [e1 m1]]] [n2 [r2 [e2 m2]]].
have hu' : o_use_pinv a = true -> pinv_oracle pinv by rewrite hu.
have [x1 [s1 [g1 k1]]] := C106_numpy_result p1 p2 p3 p4 hu' e1 m1.
have [x2 [s2 [g2 k2]]] := C106_numpy_result (o := o') (same_moved my mx p1) p2 p3 p4 hu' e2 m2.
have hn := C89_translation (o := numpy_twin c o) he f1 f2 (twin_physical c p3) ht hu erefl hf e1 e2.
exists x1, s1, x2, s2; split=> //; apply: reports_same k1 k2 hn => {}n d d' e e' [_ h] h1 h2 i.
have [[-> -> ->] [-> -> ->]] := h1 i; have [[-> -> ->] [-> -> ->]] := h2 i; exact: h.
Qed.

Theorem C118_mirror_sp my mx po o ny nx ls fx fy : let a := t_attrs o in let c := CRaster ny nx ls in let o' := t_mirror_sp my mx po o in
  eigen_oracle eig -> flips my || flips mx -> ported o c -> ported o' (moved_cell my mx c) -> thick_enough a -> o_use_pinv a = false -> ~ promised (numpy_twin c o) 0 ->
  fto_of a = Some (fx, fy) -> nsolves o c -> nsolves o' (moved_cell my mx c) ->
  pair_of (mirrored_effs (order_place2 my mx fx.*2.+1 fy.*2.+1)) o o'.
Proof.
move=> a c o' he f1 [p1 p2 p3 p4] [q1 q2 q3 q4] ht hu hq hf [n1 [r1 [e1 m1]]] [n2 [r2 [e2 m2]]].
have hu' : o_use_pinv a = true -> pinv_oracle pinv by rewrite hu.
have [x1 [s1 [g1 k1]]] := C106_numpy_result p1 p2 p3 p4 hu' e1 m1.
have [x2 [s2 [g2 k2]]] := C106_numpy_result (o := o') q1 q2 q3 q4 hu' e2 m2.
rewrite /o' twin_mirror in e2.
have hn := C90_mirror_sp (o := numpy_twin c o) he f1 (twin_physical c p3) ht hu hq erefl hf e1 e2.
exists x1, s1, x2, s2; split=> //; apply: reports_same k1 k2 hn => {}n d d' e e' h h1 h2 i j hij.
have [[-> -> ->] [-> -> ->]] := h1 i; have [[-> -> ->] [-> -> ->]] := h2 j; by have [_ ? ?] := h i j hij.
Qed.

Theorem C118_mirror_classical o nx ls fx : let a := t_attrs o in let c := CRaster 1 nx ls in let o' := t_mirror_classical o in
  eigen_oracle eig -> ported o c -> thick_enough a -> o_use_pinv a = false -> promised (numpy_twin c o) 0 ->
  fto_of a = Some (fx, 0%N) -> nsolves o c -> nsolves o' (moved_cell Keep Reverse c) ->
  pair_of (mirrored_effs (order_place Reverse fx.*2.+1)) o o'.
Proof.
move=> a c o' he [p1 p2 p3 p4] ht hu hq hf [n1 [r1 [e1 m1]]] [n2 [r2 [e2 m2]]].
have hu' : o_use_pinv a = true -> pinv_oracle pinv by rewrite hu.
have ht0 := tilted_phys p3 p4; have [x1 [s1 [g1 k1]]] := twin_tilted p1 hq ht0 e1.
have [x2 [s2 [g2 k2]]] := twin_tilted (o := o') (same_moved Keep Reverse p1) (promised_flip hq) (tilted_other (o := t_move_cell Keep Reverse o) ht0) e2.
rewrite /o' twin_classical in e2.
have hn := C90_mirror_classical (o := numpy_twin c o) he (twin_physical c p3) ht hu hq erefl hf e1 e2.
exists x1, s1, x2, s2; split=> //; apply: reports_same k1 k2 hn => {}n d d' e e' h h1 h2 i j hij.
have [[-> -> ->] [-> -> ->]] := h1 i; have [[-> -> ->] [-> -> ->]] := h2 j; by have [_ ? ?] := h i j hij.
Qed.

Theorem C118_reflection o c : let a := t_attrs o in let o' := t_other_side o in
  eigen_oracle eig -> ported o c -> thick_enough a -> o_use_pinv a = false -> promised (numpy_twin c o) 0 ->
  nsolves o c -> nsolves o' c -> pair_of specular_effs o o'.
Proof.
move=> a o' he [p1 p2 p3 p4] ht hu hq [n1 [r1 [e1 m1]]] [n2 [r2 [e2 m2]]].
have hu' : o_use_pinv a = true -> pinv_oracle pinv by rewrite hu.
have ht0 := tilted_phys p3 p4; have [x1 [s1 [g1 k1]]] := twin_tilted p1 hq ht0 e1.
have [x2 [s2 [g2 k2]]] := twin_tilted (o := o') p1 (promised_other hq) (tilted_other ht0) e2.
rewrite /o' twin_other in e2.
have hn := C93_reciprocity_classical (o := numpy_twin c o) he (twin_physical c p3) ht hu hq e1 e2.
exists x1, s1, x2, s2; split=> //; apply: reports_same k1 k2 hn => {}n d d' e e' h h1 h2 i hi.
have [[_ _ ->] _] := h1 i; have [[_ _ ->] _] := h2 i; by have [_ _ [_ _ ?]] := h i hi.
Qed.

Theorem C118_transmission th' o c th : let a := t_attrs o in let o' := t_sent_back th' o in
  eigen_oracle eig -> ported o c -> thick_enough a -> one_thickness_per_layer (numpy_twin c o) -> o_use_pinv a = false -> promised (numpy_twin c o) 0 ->
  leaves_along (-1) a th' -> o_theta a = Some th -> nsolves o c -> nsolves o' (upturned_cell c) -> pair_of through_effs o o'.
Proof.
move=> a o' he [p1 p2 p3 p4] ht h0 hu hq hl hth [n1 [r1 [e1 m1]]] [n2 [r2 [e2 m2]]].
have hu' : o_use_pinv a = true -> pinv_oracle pinv by rewrite hu.
have ht0 := tilted_phys p3 p4; have [x1 [s1 [g1 k1]]] := twin_tilted p1 hq ht0 e1.
have hnt : is_real (o_ntop a) by case: p3 => -[x _ ex] *; exists x.
have [x2 [s2 [g2 k2]]] := twin_tilted (o := o') (same_upturned p1) (promised_back th' hq) (tilted_back hnt hl) e2.
rewrite /o' twin_back in e2.
have hn := C100_transmission_classical (o := numpy_twin c o) he (twin_physical c p3) ht h0 hu hq hl hth e1 e2.
exists x1, s1, x2, s2; split=> //; apply: reports_same k1 k2 hn => {}n d d' e e' h h1 h2 i hi.
have [_ [_ _ ->]] := h1 i; have [_ [_ _ ->]] := h2 i; by have [_ _ [_ _ ?]] := h i hi.
Qed.
End Torch.
Print Assumptions C118_translation.
Print Assumptions C118_mirror_sp.
Print Assumptions C118_mirror_classical.
Print Assumptions C118_reflection.
Print Assumptions C118_transmission.

(** The same patterns as PyTorch objects. *)
Definition t_pattern (nx : nat) (f : nat -> nat -> C) (nt : R) (ph : option C) : tobj :=
  TObj (pattern 1 nx f nt th_ex ph 0 0) (TRaster3 1 nx [:: f]) false.
Lemma t_pattern_ported nx f nt ph : (0 < nt)%coqR -> (forall p, ph = Some p -> is_real p) -> ph <> Some 0 ->
  ported (t_pattern nx f nt ph) (CRaster 1 nx [:: f]).
Proof.
move=> h0 hp hn; split=> //; first by constructor.
- by apply: pattern_physical => //; exact: real0.
by exists 2%coqR.
Qed.
Lemma t_pattern_promised nx f nt : promised (numpy_twin (CRaster 1 nx [:: f]) (t_pattern nx f nt None)) 0.
Proof. by apply: (@P1d _ nx [:: f]) => //; [left|exists 0%N]. Qed.

Example C118_translation_ex pv : exists nt, let o := t_pattern 3 line_ex nt None in (0 < nt)%coqR /\
  t_reports pv eig_ex translated_effs o (t_move_cell Keep (Roll 1) o).
Proof.
have [m m0 h] := classical_pattern pv (ltn0Sn 2) (line_pos id).
have [m' m0' h'] := classical_pattern pv (ltn0Sn 2) (line_pos (source (Roll 1) 3)).
have [nt [h1 h2]] := two_bounds m0 m0'; exists nt; split; first lra.
have [o1 [r e1]] := h nt th_ex (- 0) h1 (or_introl erefl); have [o2 [r' e2]] := h' nt th_ex (- 0) h2 (or_introl erefl).
have hp := t_pattern_promised 3 line_ex nt.
have hp' := t_pattern_promised 3 (fun i j => line_ex i (source (Roll 1) 3 j)) nt.
apply: (C118_translation (my := Keep) (mx := Roll 1) (ny := 1) (nx := 3) (ls := [:: line_ex]) (fx := 0) (fy := 0) eig_ex_ok) => //.
- by apply: t_pattern_ported; [lra| |].
- exact: pattern_thick.
- by exists o1, r; split; [exact e1|exact (classical_no_flat hp e1)].
by exists o2, r'; split; [exact e2|exact (classical_no_flat hp' e2)].
Qed.

(** Azimuth pi, mirrored in y: azimuth -pi. *)
Example C118_mirror_sp_ex pv : exists nt, let o := t_pattern 3 line_ex nt (Some (RtoC PI)) in (0 < nt)%coqR /\
  o_phi (t_attrs (t_mirror_sp Reverse Keep 0 o)) <> o_phi (t_attrs o) /\
  t_reports pv eig_ex (mirrored_effs (order_place2 Reverse Keep 1 1)) o (t_mirror_sp Reverse Keep 0 o).
Proof.
have [m m0 h] := con_pattern pv (ltn0Sn 2) (line_pos id); have p0 := PI_RGT_0.
have [m' m0' h'] := con_pattern pv (f := fun i j => line_ex (source Reverse 1 i) (source Keep 3 j)) (ltn0Sn 2) (line_pos (source Keep 3)).
have [nt [h1 h2]] := two_bounds m0 m0'; exists nt; split; first lra.
split; first by move=> /= [e]; lra.
have [o1 [r [e1 f1]]] := h nt PI (- 0) 0 h1 sin_PI.
have [o2 [r' [e2 f2]]] := h' nt (- PI)%coqR (- - 0) 0 h2 ltac:(rewrite sin_neg sin_PI; lra); rewrite RtoC_opp in e2.
have hr : ported (t_pattern 3 line_ex nt (Some (RtoC PI))) (CRaster 1 3 [:: line_ex]).
  by apply: t_pattern_ported; [lra|move=> p [<-]; exists PI|case=> e; lra].
apply: (C118_mirror_sp (my := Reverse) (mx := Keep) (ny := 1) (nx := 3) (ls := [:: line_ex]) (fx := 0) (fy := 0) eig_ex_ok) => //.
- split=> //; first by constructor.
  + by move=> /= [e]; lra.
  + case: hr => _ _ [q1 q2 q3 q4 q5] _; split=> //=.
    * by move=> p [<-]; exists (- PI)%coqR; rewrite RtoC_opp.
    * by exists 0%coqR; rewrite /turned_psi /= oppr0.
  by exists 2%coqR.
- exact: pattern_thick.
- by move=> hp; inversion hp.
- by exists o1, r; split; [exact e1|exact f1].
by exists o2, r'; split; [exact e2|exact f2].
Qed.

Example C118_mirror_classical_ex pv : exists nt, let o := t_pattern 3 line_ex nt None in (0 < nt)%coqR /\
  t_reports pv eig_ex (mirrored_effs (order_place Reverse 1)) o (t_mirror_classical o).
Proof.
have [m m0 h] := classical_pattern pv (ltn0Sn 2) (line_pos id).
have [m' m0' h'] := classical_pattern pv (ltn0Sn 2) (line_pos (source Reverse 3)).
have [nt [h1 h2]] := two_bounds m0 m0'; exists nt; split; first lra.
have [o1 [r e1]] := h nt th_ex (- 0) h1 (or_introl erefl); have [o2 [r' e2]] := h' nt (- th_ex)%coqR (- 0) h2 (or_intror erefl).
rewrite /pattern RtoC_opp in e2; have hp := t_pattern_promised 3 line_ex nt; have hp' := promised_flip hp.
apply: (C118_mirror_classical (nx := 3) (ls := [:: line_ex]) (fx := 0) eig_ex_ok) => //.
- by apply: t_pattern_ported; [lra| |].
- exact: pattern_thick.
- by exists o1, r; split; [exact e1|exact (classical_no_flat hp e1)].
by exists o2, r'; split; [exact e2|exact (classical_no_flat hp' e2)].
Qed.

Example C118_reflection_ex pv : exists nt, let o := t_pattern 3 line_ex nt None in (0 < nt)%coqR /\
  t_reports pv eig_ex specular_effs o (t_other_side o).
Proof.
have [m m0 h] := classical_pattern pv (ltn0Sn 2) (line_pos id); have h1 : (0 < m / 2 < m)%coqR by lra.
exists (m / 2)%coqR; split; first lra.
have [o1 [r e1]] := h (m / 2)%coqR th_ex (- 0) h1 (or_introl erefl); have [o2 [r' e2]] := h (m / 2)%coqR (- th_ex)%coqR (- 0) h1 (or_intror erefl).
rewrite /pattern RtoC_opp in e2; have hp := t_pattern_promised 3 line_ex (m / 2); have hp' := promised_other hp.
apply: (C118_reflection (c := CRaster 1 3 [:: line_ex]) eig_ex_ok) => //.
- by apply: t_pattern_ported; [lra| |].
- exact: pattern_thick.
- by exists o1, r; split; [exact e1|exact (classical_no_flat hp e1)].
by exists o2, r'; split; [exact e2|exact (classical_no_flat hp' e2)].
Qed.

(** Two different layers between different media, sent back from below. *)
Example C118_transmission_ex pv : exists nt t', let o := TObj (bench 1 3 [:: line_ex; line_ex2] [:: 3; 1]%coqR nt 2 th_ex None 0 0)
    (TRaster3 1 3 [:: line_ex; line_ex2]) false in
  (0 < nt <= 1)%coqR /\ t_reports pv eig_ex through_effs o (t_sent_back (RtoC t') o).
Proof.
have [m m0 h] := bench_classical pv (ltn0Sn 2) (line_pos id) (line_pos (fun j => (2 - j)%N)).
pose nt := Rmin 1 m; have nt0 : (0 < nt)%coqR by apply: Rmin_pos; lra.
have n1 : (nt <= 1)%coqR := Rmin_l _ _; have nm : (nt <= m)%coqR := Rmin_r _ _; clearbody nt.
have [hb sb] := below_angle (Logic.conj nt0 n1); have tb := th_ex_bound; have p0 := PI_RGT_0.
have k0 : (nt * / 3 * (nt * / 3) < m)%coqR.
  have : (nt * nt <= nt * 1)%coqR by apply: Rmult_le_compat_l; lra.
  by lra.
set t' := (- asin (nt / 6))%coqR.
have st : sin t' = (- (nt / 6))%coqR by rewrite /t' sin_neg sb.
have [o1 [r e1]] := h nt 2%coqR th_ex (- 0) line_ex line_ex2 3%coqR 1%coqR nt0 ltac:(lra) ltac:(lra)
  ltac:(rewrite sin_th_ex; lra) (or_introl erefl) (or_intror erefl).
have [o2 [r' e2]] := h 2%coqR nt t' (- 0) line_ex2 line_ex 1%coqR 3%coqR ltac:(lra) nt0 ltac:(rewrite /t'; lra)
  ltac:(rewrite st; lra) (or_intror erefl) (or_introl erefl).
exists nt, t'; split; first by split.
set o := TObj _ _ _; have hq : promised (numpy_twin (CRaster 1 3 [:: line_ex; line_ex2]) o) 0.
  by apply: (@P1d _ 3 [:: line_ex; line_ex2]) => //; [left|exists 0%N].
have hq' := promised_back (RtoC t') hq.
apply: (C118_transmission (c := CRaster 1 3 [:: line_ex; line_ex2]) (th := RtoC th_ex) eig_ex_ok) => //.
- split=> //; first by constructor.
  + split=> //=; first by exists nt.
    * by move=> t [<-]; exists th_ex.
    * exact: real0.
    * by move=> ps [<-] p /= [<-|[<-|//]]; lra.
  by exists 2%coqR => //; lra.
- by move=> ts [<-] t /= [<-|[<-|//]]; lra.
- by move=> ts [<-].
- split; first by exists 2%coqR => //; lra.
    by exists t' => //; rewrite /t'; lra.
  by move=> th [<-]; rewrite mulN1r !csin_real -!RtoC_mul -RtoC_opp; congr RtoC; rewrite st sin_th_ex; field.
- by exists o1, r; split; [exact e1|exact (classical_no_flat hq e1)].
by exists o2, r'; split; [exact e2|exact (classical_no_flat hq' e2)].
Qed.
