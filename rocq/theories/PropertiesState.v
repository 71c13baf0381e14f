(** Properties of the solver object: setters, histories, dispatch, and whole solves from the public attributes. *)
From Coq Require Import Reals ZArith Lra Psatz.
From mathcomp Require Import all_ssreflect ssralg matrix.
From Coquelicot Require Import Complex.
From Verif Require Import Cplx Mx Spec SpecSolve SpecFilm SpecLayer ModelTM ModelFourier ModelVec ModelField ModelState SpecState
  ProofSetup ProofState ProofState2 ProofEnd ProofEnd2 ExampleKit PropertiesFilm ProofObjEx.

Set Implicit Arguments.
Unset Strict Implicit.
Unset Printing Implicit Defensive.
Local Open Scope ring_scope.
Import GRing.Theory.

(** ** C22: the grating equation holds below float32(pi/2) and fails above. *)
Theorem C22_grating_equation s w : (Re (theta s) < 13176795 / 8388608)%coqR ->
  (forall i, kx_vector s w i =
     conj (n_top s * csin (theta s) * ccos (phi_val s) + RtoC ((INR i - INR (fto_x s)) * (w / period_x s)))) /\
  (forall i, ky_vector s w i =
     conj (n_top s * csin (theta s) * csin (phi_val s) + RtoC ((INR i - INR (fto_y s)) * (w / period_y s)))).
Proof. exact (@grating_eq s w). Qed.
Print Assumptions C22_grating_equation.
Example C22_ex : (Re (theta (s_ex None 0 0 [::])) < 13176795 / 8388608)%coqR.
Proof. by have := th_ex_bound; have := pi32_gt; rewrite /pi32 /= Re_RtoC; lra. Qed.

(** For real data the wave numbers are real, the middle one is that of the incident wave, and they are equally spaced. *)
Theorem C22_real s w (nt th f : R) : n_top s = RtoC nt -> theta s = RtoC th -> (0 <= th < PI / 2)%coqR -> phi_val s = RtoC f ->
  (forall i, kx_vector s w i = RtoC (nt * sin th * cos f + (INR i - INR (fto_x s)) * (w / period_x s))) /\
  (forall i, ky_vector s w i = RtoC (nt * sin th * sin f + (INR i - INR (fto_y s)) * (w / period_y s))).
Proof. exact (@kx_phys s w nt th f). Qed.
Print Assumptions C22_real.

Theorem C22_refuted : exists s w i, is_real (theta s) /\
  kx_vector s w i <>
  conj (n_top s * csin (theta s) * ccos (phi_val s) + RtoC ((INR i - INR (fto_x s)) * (w / period_x s))).
Proof.
exists (Setup (RtoC 1) (RtoC 1) (RtoC PI) None (RtoC 0) 0 0 0 1 1 [::]), 1%coqR, 0%N.
split; first by exists PI.
rewrite /kx_vector /sin_theta /phi_val /order /=.
case: Rle_dec => h; last by case: h; rewrite Re_RtoC /pi32; have := PI2_3_2; lra.
have -> : RtoC pi32_pred + RtoC (Im (RtoC PI)) * ci = RtoC pi32_pred by rewrite Im_RtoC mul0r addr0.
have -> : ccos 0 = 1 by rewrite -[0]/(RtoC 0) ccos_real cos_0.
rewrite !csin_real sin_PI !mulr1 !mul1r -RtoC_add -RtoC_mul -RtoC_add !conjR => -[].
have : (0 < sin pi32_pred)%coqR by apply: sin_gt_0; rewrite /pi32_pred; have := PI2_3_2; lra.
lra.
Qed.
Print Assumptions C22_refuted.

(** ** C23 *)
Theorem C23_coherent pinv eig a o h : construct a = Some o -> all (fun x => ~~ is_psi_list x) h ->
  coherent (after pinv eig h o).
Proof. by move=> /construct_coherent hc; exact: after_coherent. Qed.
Print Assumptions C23_coherent.
Example C23_ex ts : exists o, construct (args_ex (NFloat (1 / 2)) ts) = Some o /\
  all (fun x => ~~ is_psi_list x) [:: SetPol (VNum (NInt 7)); SetPsi (VArr0 (NFloat 2)); ConvSolve; SetPsi (VArr1 [::])].
Proof. by eexists; split; first by apply: obj_exE; lra. Qed.

(** psi given as a one-element list is stored, then the derivation of pol raises. *)
Theorem C23_refuted pinv eig : exists a o h, construct a = Some o /\ ~ coherent (after pinv eig h o).
Proof.
exists (args_ex (NFloat 0) [::]), (obj_ex 0 [::]), [:: SetPsi (VSeq [:: Some (NFloat 1)])].
split; first by apply: obj_exE; lra.
rewrite /coherent /= subr0 mulr1 => -[]; have := PI2_3_2; lra.
Qed.
Print Assumptions C23_refuted.

(** ** C24 *)
Theorem C24_in_range pinv eig o h : pol_in_range o -> (forall a, List.In a h -> proper_polar a) ->
  pol_in_range (after pinv eig h o).
Proof. exact (@after_range pinv eig h o). Qed.
Print Assumptions C24_in_range.
Example C24_ex ts : pol_in_range (obj_ex (1 / 2) ts) /\
  forall a, List.In a [:: SetPol (VNum (NInt 7)); SetPsi (VNum (NInt 1))] -> proper_polar a.
Proof.
split; first by exists (1 / 2)%coqR => //; lra.
move=> a [<-|[<-|[]]] /= x [<-]; first by exists 7%coqR.
by exists 1%coqR => //; have := PI2_3_2; lra.
Qed.

(** psi is not range-checked. *)
Theorem C24_refuted pinv eig : exists a o h, [/\ construct a = Some o, (forall x, List.In x h -> (do_op pinv eig x o).2 = Done)
  & ~ pol_in_range (after pinv eig h o)].
Proof.
exists (args_ex (NFloat 0) [::]), (obj_ex 0 [::]), [:: SetPsi (VNum (NFloat 3))]; split.
- by apply: obj_exE; lra.
- by move=> x [<-|[]].
have hp := PI_RGT_0.
move=> [p]; rewrite /= /pol_of -RtoC_mul -RtoC_div ?opprB; last lra.
rewrite -RtoC_sub => -[e] hp'.
have h : (2 * 3 / PI <= 1)%coqR by lra.
have : (2 * 3 / PI * PI <= 1 * PI)%coqR by apply: Rmult_le_compat_r; lra.
rewrite /Rdiv Rmult_assoc Rinv_l; last lra.
have := PI_4; lra.
Qed.
Print Assumptions C24_refuted.

(** ** C25 *)
Theorem C25_unchanged pinv eig a o o' : ~~ fragile a o -> ~~ is_solve a -> do_op pinv eig a o = (o', Raised) -> o' = o.
Proof. exact (@rejected_unchanged pinv eig a o o'). Qed.
Print Assumptions C25_unchanged.
(** A solve, whether it returns or raises, changes no setting. *)
Theorem C25_solve pinv eig o : same_settings (do_op pinv eig ConvSolve o).1 o.
Proof. exact (@solve_settings pinv eig o). Qed.
Print Assumptions C25_solve.
Example C25_ex pinv eig ts : let o := obj_ex 0 ts in
  [/\ do_op pinv eig (SetPol (VNum (NFloat 2))) o = (o, Raised),
      do_op pinv eig (SetFto (VSeq [:: Some (NInt 1); None])) o = (o, Raised)
    & do_op pinv eig (SetThickness (VSeq [:: Some (NFloat 1); None])) o = (o, Raised)].
Proof.
split=> //; rewrite /= /assign_pol /=.
have -> // : in_unit (RtoC 2) = false.
rewrite /in_unit /cle /rltb /reqb /Re /=; case: (Rlt_dec 2 1) => h /=; first lra.
by case: (Req_EM_T 2 1) => h' /=; [lra | rewrite andbF].
Qed.

Theorem C25_refuted_fto pinv eig : exists a o v, construct a = Some o /\
  exists o', do_op pinv eig (SetFto v) o = (o', Raised) /\ o_fto o' <> o_fto o.
Proof.
exists (args_ex (NFloat 0) [::]), (obj_ex 0 [::]), (VArr1 [:: NInt 1; NInt 2; NInt 3]).
by split; [apply: obj_exE; lra | eexists; split; first reflexivity].
Qed.
Print Assumptions C25_refuted_fto.
(** After that the solver, which worked before, cannot solve any more, and switching the precision raises half-way. *)
Theorem C25_refuted_fto_consequence pinv : exists o o',
  [/\ do_op pinv eig_ex (SetFto (VArr1 [:: NInt 1; NInt 2; NFloat (1 / 2)])) o = (o', Raised),
  (exists r, (conv_solve pinv eig_ex o).2 = Solved r),
  (do_op pinv eig_ex (SetTypeComplex (VType true)) o').2 = Raised &
  o_single (do_op pinv eig_ex (SetTypeComplex (VType true)) o').1 <> o_single o'].
Proof.
exists (obj_ex 0 [::]); eexists; split; [reflexivity | | by [] | by []].
by have [o' [r [T1 [infos [-> _ _]]]]] := obj_ex_solves pinv [::] (or_introl erefl); eexists.
Qed.
Print Assumptions C25_refuted_fto_consequence.
Theorem C25_refuted_ucell pinv eig : exists o v, o_cell o = CVector [::] /\
  exists o', do_op pinv eig (SetUcell v) o = (o', Raised) /\ o_mtype o' <> o_mtype o /\ (conv_solve pinv eig o').2 = Raised.
Proof.
exists (set_cell (CVector [::]) (Some true) (obj_ex 0 [::])), (VArr3 DOther 1 1 [::]).
by split=> //; eexists; split; first reflexivity.
Qed.
Print Assumptions C25_refuted_ucell.
Theorem C25_refuted_psi pinv eig : exists a o v, construct a = Some o /\
  exists o', do_op pinv eig (SetPsi v) o = (o', Raised) /\ o_psi o' <> o_psi o.
Proof.
exists (args_ex (NFloat 0) [::]), (obj_ex 0 [::]), (VSeq [:: Some (NFloat 1)]).
split; first by apply: obj_exE; lra.
eexists; split; first reflexivity.
by rewrite /= /psi_of subr0 mulr1 => -[]; have := PI2_3_2; lra.
Qed.
Print Assumptions C25_refuted_psi.

(** ** C26 *)
Theorem C26_fto v o o' : assign_fto v o = (o', false) -> exists x y : Z, o' = set_fto (Fto x y) o.
Proof. exact (@fto_normal v o o'). Qed.
Print Assumptions C26_fto.
Theorem C26_fto_omitted o (z : Z) : assign_fto (VNum (NInt z)) o = (set_fto (Fto z 0) o, false) /\
  assign_fto (VSeq [:: Some (NInt z)]) o = (set_fto (Fto z 0) o, false) /\
  assign_fto (VArr1 [:: NInt z]) o = (set_fto (Fto z 0) o, false).
Proof. by []. Qed.
Print Assumptions C26_fto_omitted.
Theorem C26_period v o r : scalar_period v = Some r -> assign_period v o = (set_period (A1 [:: r; r]) o, false).
Proof. exact (@period_scalar v o r). Qed.
Print Assumptions C26_period.
Theorem C26_thickness v o o' : assign_thickness v o = (o', false) -> ~~ is_array0 v -> is_array3 v = false ->
  exists ts, o' = set_thickness (A1 ts) o.
Proof. exact (@thickness_normal v o o'). Qed.
Print Assumptions C26_thickness.
(** A number is one layer; a list or array of numbers is stored as given. *)
Theorem C26_thickness_given o (z : Z) (r : R) (rs : seq R) :
  [/\ assign_thickness (VNum (NInt z)) o = (set_thickness (A1 [:: IZR z]) o, false),
      assign_thickness (VNum (NFloat r)) o = (set_thickness (A1 [:: r]) o, false),
      assign_thickness (VSeq [seq Some (NFloat t) | t <- rs]) o = (set_thickness (A1 rs) o, false)
    & assign_thickness (VArr1 [seq NFloat t | t <- rs]) o = (set_thickness (A1 rs) o, false)].
Proof.
have e : all_some list_float [seq Some (NFloat t) | t <- rs] = Some rs by elim: rs => //= t ts ->.
split; rewrite ?/assign_thickness ?e //=; congr (set_thickness (A1 _) _, _).
by rewrite -map_comp -[RHS]map_id; apply: eq_map.
Qed.
Print Assumptions C26_thickness_given.
(** Assigning the stored value again changes nothing. *)
Theorem C26_fto_again v o o' : assign_fto v o = (o', false) -> assign_fto (val_fto (o_fto o')) o' = (o', false).
Proof. by move=> /fto_normal [x [y ->]]; exact: fto_reassign. Qed.
Print Assumptions C26_fto_again.
Theorem C26_period_again v o o' : assign_period v o = (o', false) -> assign_period (val_farray (o_period o')) o' = (o', false).
Proof. by move=> /period_normal [_]; exact: period_reassign. Qed.
Print Assumptions C26_period_again.
Theorem C26_thickness_again v o o' : assign_thickness v o = (o', false) ->
  assign_thickness (val_farray (o_thickness o')) o' = (o', false).
Proof. by move=> _; exact: thickness_reassign. Qed.
Print Assumptions C26_thickness_again.
Example C26_ex o : [/\ (assign_fto (VSeq [:: Some (NInt 3); Some (NInt 2)]) o).2 = false,
  scalar_period (VSeq [:: Some (NInt 5)]) = Some 5%coqR & (assign_thickness (VSeq [:: Some (NInt 5); Some (NFloat 2)]) o).2 = false].
Proof. by []. Qed.
(** A 0-dimensional array is accepted as thickness but is not stored as a sequence; no TMM solve succeeds afterwards. *)
Theorem C26_refuted pinv eig o r : o_algo o = TMM -> exists o',
  [/\ do_op pinv eig (SetThickness (VArr0 (NFloat r))) o = (o', Done), (forall ts, o_thickness o' <> A1 ts)
    & (conv_solve pinv eig o').2 = Raised].
Proof. by move=> ea; eexists; split; [reflexivity | | apply: bad_thickness]. Qed.
Print Assumptions C26_refuted.

(** ** C27 *)
Theorem C27_dispatch pinv eig h o o' r : conv_solve pinv eig (after pinv eig h o) = (o', Solved r) ->
  exists2 g, o_grating o' = Some g & promised (after pinv eig h o) g /\ (o_algo (after pinv eig h o) = TMM -> ran (o_memo o') = g).
Proof. exact (@solve_dispatch pinv eig (after pinv eig h o) o' r). Qed.
Print Assumptions C27_dispatch.
Theorem C27_one_solver o g g' : promised o g -> promised o g' -> g = g'.
Proof. exact (@promised_unique o g g'). Qed.
Print Assumptions C27_one_solver.
Example C27_ex pinv ts : exists o' r, conv_solve pinv eig_ex (after pinv eig_ex [:: SetPol (VNum (NInt 0))] (obj_ex 1 ts)) = (o', Solved r).
Proof.
have [o' [r [T1 [infos [e _ _]]]]] := obj_ex_solves pinv ts (or_introl erefl).
do 2 eexists; rewrite /= /assign_pol /=.
have -> : in_unit (RtoC 0) = true.
  rewrite /in_unit /cle /rltb /reqb /rleb /Re /Im /=; case: (Rlt_dec 0 0) => h /=; first lra.
  case: (Req_EM_T 0 0) => h' //=; case: (Rle_dec 0 0) => h'' /=; last lra.
  by case: (Rlt_dec 0 1) => h3 //; lra.
exact: e.
Qed.

(** ** C28 *)
Theorem C28_history pinv eig h1 h2 o1 o2 : same_settings (after pinv eig h1 o1) (after pinv eig h2 o2) ->
  (conv_solve pinv eig (after pinv eig h1 o1)).2 = (conv_solve pinv eig (after pinv eig h2 o2)).2.
Proof. by move=> /(same_solve pinv eig) []. Qed.
Print Assumptions C28_history.
(** The same for the field calculated right after the solve. *)
Theorem C28_field pinv eig h1 h2 o1 o2 r rx ry rz sel : same_settings (after pinv eig h1 o1) (after pinv eig h2 o2) ->
  (conv_solve pinv eig (after pinv eig h1 o1)).2 = Solved r ->
  calculate_field (conv_solve pinv eig (after pinv eig h1 o1)).1 rx ry rz sel =
  calculate_field (conv_solve pinv eig (after pinv eig h2 o2)).1 rx ry rz sel.
Proof. by move=> h; exact: same_solve_field. Qed.
Print Assumptions C28_field.
Example C28_ex pinv eig ts : same_settings
  (after pinv eig [:: SetFto (VNum (NInt 9)); ConvSolve; SetWavelength 3; CalcField 2 2 2 (true, true, true);
                      SetFto (VNum (NInt 1)); SetWavelength 1] (obj_ex 0 ts))
  (after pinv eig [::] (obj_ex 0 ts)).
Proof.
rewrite /after /=.
have [g [m ->]] := solve_frame pinv eig (set_fto (Fto 9 0) (obj_ex 0 ts)).
by [].
Qed.

(** ** C30 *)
Theorem C30_other_algorithms pinv eig o : o_algo o <> TMM -> (conv_solve pinv eig o).2 = Raised \/
  [/\ o_algo o = SMM, promised o 1 & (conv_solve pinv eig o).2 = Solved (@Report 0 None None None)].
Proof. exact (@other_algo pinv eig o). Qed.
Print Assumptions C30_other_algorithms.
Theorem C30_refuted pinv eig : exists o, o_algo o = SMM /\ (conv_solve pinv eig o).2 = Solved (@Report 0 None None None).
Proof.
exists (set_options SMM false 0 true (obj_ex (1 / 2) [::])); split=> //.
have ep : period_of (set_options SMM false 0 true (obj_ex (1 / 2) [::])) = Some (2, 2)%coqR.
  by rewrite /period_of /= /reqb; case: Req_EM_T => //= h; lra.
have ew : o_wavelength (set_options SMM false 0 true (obj_ex (1 / 2) [::])) <> 0%coqR by rewrite /=; lra.
rewrite (conv_solve_run (o := set_options SMM false 0 true (obj_ex (1 / 2) [::])) (fx := 1) (fy := 0) (th := RtoC th_ex) eig erefl (convs_ex pinv (1 / 2) [::]) erefl ep ew).
have -> // : grating_of (set_options SMM false 0 true (obj_ex (1 / 2) [::])) 0 = Some 1%N.
rewrite /grating_of /=.
have -> // : (RtoC (1 / 2) == 0) || (RtoC (1 / 2) == 1) = false.
by apply/negP => /orP [] /eqP -[]; lra.
Qed.
Print Assumptions C30_refuted.

(** ** C31 *)
Theorem C31_too_many_thicknesses pinv eig o ts : o_thickness o = A1 ts -> o_algo o = TMM -> (layer_count o < size ts)%N ->
  (conv_solve pinv eig o).2 = Raised.
Proof. exact (@too_many_thicknesses pinv eig o ts). Qed.
Print Assumptions C31_too_many_thicknesses.
Theorem C31_extra_layers pinv eig o o' r ts : o_thickness o = A1 ts -> conv_solve pinv eig o = (o', Solved r) ->
  (conv_solve pinv eig (keep_layers (size ts) o)).2 = Solved r /\
  o_memo (conv_solve pinv eig (keep_layers (size ts) o)).1 = o_memo o'.
Proof. exact (@extra_layers_dropped pinv eig o o' r ts). Qed.
Print Assumptions C31_extra_layers.
Theorem C31_order n (cs : seq (conv3 n)) ts ls l0 c0 : layers_of cs ts = Some ls ->
  size ls = size ts /\ forall i, (i < size ts)%N ->
  let '(ex, ey, ez) := nth c0 cs i in nth l0 ls i = Layer ex ey ez (nth 0%coqR ts i).
Proof. exact (@layers_of_nth n cs ts ls l0 c0). Qed.
Print Assumptions C31_order.
Example C31_ex pinv ts : let o := set_thickness (A1 (1%coqR :: ts)) (obj_ex 0 ts) in
  (layer_count o < size (1%coqR :: ts))%N /\ (conv_solve pinv eig_ex o).2 = Raised.
Proof.
move=> o; have h : (layer_count o < size (1%coqR :: ts))%N by rewrite /layer_count /= size_nseq.
by split=> //; apply: C31_too_many_thicknesses h.
Qed.

(** ** C49: energy conservation from the public attributes *)
Theorem C49_energy pinv eig : eigen_oracle eig -> forall o o' r, physical_obj o -> real_cell_of o -> o_use_pinv o = false ->
  conv_solve pinv eig o = (o', Solved r) -> report_all power_conserved r.
Proof. exact (@energy_end pinv eig). Qed.
Print Assumptions C49_energy.

(** ** C50: efficiencies between 0 and 1, from the public attributes *)
Theorem C50_nonneg pinv eig o o' r (b : R) : physical_obj o -> o_nbot o = RtoC b -> (0 < b)%coqR ->
  conv_solve pinv eig o = (o', Solved r) -> report_all nonneg_eff r.
Proof. exact (@nonneg_end pinv eig o o' r b). Qed.
Print Assumptions C50_nonneg.
Theorem C50_unit_interval pinv eig : eigen_oracle eig -> forall o o' r (b : R),
  physical_obj o -> real_cell_of o -> o_use_pinv o = false -> o_nbot o = RtoC b -> (0 < b)%coqR ->
  conv_solve pinv eig o = (o', Solved r) -> report_all eff_in_unit r.
Proof. by move=> heig o o' r b; exact: unit_end. Qed.
Print Assumptions C50_unit_interval.

Example C49_C50_ex pinv p ts : p = 0%coqR \/ p = 1%coqR -> exists o' r,
  [/\ conv_solve pinv eig_ex (obj_ex p ts) = (o', Solved r), physical_obj (obj_ex p ts), real_cell_of (obj_ex p ts)
    & report_some r].
Proof.
move=> hp; have [o' [r [T1 [infos [e _ _]]]]] := obj_ex_solves pinv ts hp.
do 2 eexists; split; [exact: e | | | by eexists].
- split=> //=.
  + by exists 3%coqR => //; lra.
  + by move=> t [<-]; exists th_ex => //; exact: th_ex_bound.
  + by rewrite /psi_of; exists (PI / 2 * (1 - p))%coqR; rewrite RtoC_mul RtoC_sub.
  + by move=> ps [<-] q [<-|[<-|[]]]; lra.
- move=> f hf i j _ _; elim: (size ts) hf => //= k IH [<-|/IH] //; exact: conjR.
Qed.
