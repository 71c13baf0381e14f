(** Properties of the fields returned by an object after a solve. *)
From Coq Require Import Reals ZArith Lra.
From mathcomp Require Import all_ssreflect ssralg matrix.
From Coquelicot Require Import Complex.
From Verif Require Import Cplx Mx Spec SpecState SpecSolve SpecField SpecMaxwell SpecFull ModelTM ModelField ModelState SpecLayer ProofObjEx ProofEnd
  ProofFull ProofSymEx ExampleKit PropertiesState PropertiesField PropertiesSym.

Set Implicit Arguments.
Unset Strict Implicit.
Unset Printing Implicit Defensive.
Local Open Scope ring_scope.
Import GRing.Theory.

(** ** C91: conv_solve_field returns samples of a solution of Maxwell's equations through the whole stack *)
(** The classical mount: one array per layer, whatever the selection of incidences. *)
Theorem C91_field_1d pinv eig : eigen_oracle eig ->
  forall o o1 fx fy (cs : seq (conv3 (fy.*2.+1 * fx.*2.+1))) th px py ts (a : diffraction fx.*2.+1),
  physical_obj o -> o_use_pinv o = false -> fto_of o = Some (fx, fy) -> convs_of pinv o fx fy = Some cs -> o_theta o = Some th ->
  period_of o = Some (px, py) -> o_thickness o = A1 ts ->
  conv_solve pinv eig o = (o1, Solved (Report (Some a) None None)) ->
  let w := o_wavelength o in let kx := kx_vector (setup_of o fx fy th (px, py) ts) w in
  forall rx ry rz sel, exists2 f, calculate_field o1 rx ry rz sel = FieldOf (Field1d f) &
  em_field_1d (o_pol o == 1) (k0_of w) kx px rx rz ts [seq crop3 fx.*2.+1 c | c <- cs] (o_ntop o) (o_nbot o) th a f.
Proof. exact (@field_obj_1d pinv eig). Qed.
Print Assumptions C91_field_1d.

(** The s/p mounts: the arrays of the selected incidences, in the order given, TE and TM incidence. *)
Theorem C91_field_sp pinv eig : eigen_oracle eig ->
  forall o o1 fx fy (cs : seq (conv3 (fy.*2.+1 * fx.*2.+1))) th px py ts a b c,
  physical_obj o -> o_use_pinv o = false -> fto_of o = Some (fx, fy) -> convs_of pinv o fx fy = Some cs -> o_theta o = Some th ->
  period_of o = Some (px, py) -> o_thickness o = A1 ts ->
  conv_solve pinv eig o = (o1, Solved (@Report (fy.*2.+1 * fx.*2.+1) (Some a) (Some b) (Some c))) ->
  let w := o_wavelength o in let s := setup_of o fx fy th (px, py) ts in let kx := kx_tiled s w in let ky := ky_tiled s w in
  forall dc ds, directions (fy.*2.+1 * fx.*2.+1) kx ky dc ds -> forall rx ry rz sa sb sc, exists fa fb fc,
  calculate_field o1 rx ry rz (sa, sb, sc) =
    FieldOf (FieldSp ((if sa then [:: fa] else [::]) ++ (if sb then [:: fb] else [::]) ++ (if sc then [:: fc] else [::]))) /\
  let em ps := em_field (k0_of w) kx ky px py rx ry rz ts cs (o_ntop o) (o_nbot o) th ps dc ds in
  [/\ em (o_psi o) a fa, em (RtoC (PI / 2)) b fb & em (RtoC 0) c fc].
Proof. exact (@field_obj_sp pinv eig). Qed.
Print Assumptions C91_field_sp.

(** A film of two layers, both polarizations, three orders. *)
Example C91_1d_ex pv p : p = 0%coqR \/ p = 1%coqR -> let o := obj_ex p [:: 1; 2]%coqR in exists o1 cs a,
  [/\ [/\ eigen_oracle eig_ex, physical_obj o & o_use_pinv o = false],
      [/\ fto_of o = Some (1%N, 0%N), @convs_of pv o 1 0 = Some cs, o_theta o = Some (RtoC th_ex) & period_of o = Some (2, 2)%coqR],
      o_thickness o = A1 [:: 1; 2]%coqR & conv_solve pv eig_ex o = (o1, Solved (@Report 3 (Some a) None None))].
Proof.
move=> hp o; have [o1 [a [T1 [infos [h _ _]]]]] := @obj_ex_solves pv p [:: 1; 2]%coqR hp.
have [o2 [r [_ hphys _ _]]] := C49_C50_ex pv [:: 1; 2]%coqR hp.
move: (h); rewrite /conv_solve; change (fto_of (obj_ex p [:: 1; 2]%coqR)) with (Some (1%N, 0%N)); cbv beta iota.
case ec : (convs_of _ _ _ _) => [cs|] // _.
exists o1, cs, a; split=> //; split=> //; first exact: eig_ex_ok.
by rewrite /period_of /= /reqb; case: Req_EM_T => //= h2; lra.
Qed.

(** A corner pattern of 2 by 2 pixels. *)
Example C91_sp_ex pv : exists o o1 cs a b c dc ds,
  [/\ [/\ eigen_oracle eig_ex, physical_obj o & o_use_pinv o = false],
      [/\ fto_of o = Some (0%N, 0%N), @convs_of pv o 0 0 = Some cs, o_theta o = Some (RtoC th_ex) & period_of o = Some (2, 2)%coqR],
      o_thickness o = A1 [:: 3]%coqR, conv_solve pv eig_ex o = (o1, Solved (@Report 1 (Some a) (Some b) (Some c)))
    & let s := setup_of o 0 0 (RtoC th_ex) (2, 2)%coqR [:: 3]%coqR in directions 1 (kx_tiled s 1) (ky_tiled s 1) dc ds].
Proof.
have [m m0 h] := sp_pattern pv (ltnSn 1) (ltn0Sn 1) (corner_pos id id).
have [nt [h1 _]] := two_bounds m0 m0.
have [o1 [r e1]] := h nt 0%coqR 0 0 h1 (or_introl erefl).
set o := pattern _ _ _ _ _ _ _ _ in e1.
have hp : physical_obj o by apply: pattern_physical; [lra|by move=> q [<-]; exists 0%coqR|exact: real0].
have ep : period_of o = Some (2, 2)%coqR := pattern_period _ _ _ _ _ _ _ _.
have hs := physical_setup 0 0 [:: 3%coqR] hp (erefl (o_theta o)) ep.
have [[dc [ds hd]] _] := C57_directions 1 hs.
move: (e1); rewrite /conv_solve; change (fto_of o) with (Some (0%N, 0%N)); cbv beta iota.
case ec : (convs_of _ _ _ _) => [cs|] //; rewrite ep; change (o_theta o) with (Some (RtoC th_ex)); cbv beta iota.
case: reqb => //; rewrite /solve_with; change (grating_of o 0) with (Some 2%N); change (o_algo o) with TMM.
change (o_thickness o) with (A1 [:: 3]%coqR); cbv beta iota; rewrite andbF.
case: (solve_2d _ _ _ _ _) => [[d infos]|] // [_ er].
exists o, o1, cs, (res d), (res_te_inc d), (res_tm_inc d), dc, ds; rewrite er; split; [|split; [reflexivity|exact ec|reflexivity|exact ep]|reflexivity|exact e1|exact hd].
  by split; [exact: eig_ex_ok|exact hp|].
Qed.
