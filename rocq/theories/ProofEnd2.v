(** Further facts about conv_solve: layer counts, signs of the efficiencies, range of the polarisation, grating equation. *)
From Coq Require Import Reals ZArith Lra Lia.
From mathcomp Require Import all_ssreflect ssralg matrix.
From Coquelicot Require Import Complex.
From Verif Require Import Cplx Spec SpecSolve SpecLayer ModelTM ModelFourier ModelVec ModelField ModelState SpecState
  ProofSetup ProofEff ProofCompose ProofConv ProofLayer ProofState ProofState2 ProofEnd.

Set Implicit Arguments.
Unset Strict Implicit.
Unset Printing Implicit Defensive.
Local Open Scope ring_scope.
Import GRing.Theory.

Lemma layers_of_take n (cs : seq (conv3 n)) ts : layers_of (take (size ts) cs) ts = layers_of cs ts.
Proof. by elim: ts cs => [|t ts IH] [|[[ex ey] ez] cs] //=; rewrite IH. Qed.

Lemma layers_of_size n (cs : seq (conv3 n)) ts ls : layers_of cs ts = Some ls -> (size ts <= size cs)%N.
Proof. by elim: ts cs ls => [|t ts IH] [|[[ex ey] ez] cs] ls //=; case e: (layers_of cs ts) => [l|] // _; exact: IH e. Qed.

(** Layer [i] pairs the i-th convolution matrices with the i-th thickness. *)
Lemma layers_of_nth n (cs : seq (conv3 n)) ts ls l0 c0 : layers_of cs ts = Some ls ->
  size ls = size ts /\ forall i, (i < size ts)%N ->
  let '(ex, ey, ez) := nth c0 cs i in nth l0 ls i = Layer ex ey ez (nth 0%coqR ts i).
Proof.
elim: ts cs ls => [|t ts IH] [|[[ex ey] ez] cs] ls //=; try by case=> <-.
case e: (layers_of cs ts) => [l|] // [<-]; have [h1 h2] := IH _ _ e.
by split=> [|[|i] hi] //=; [rewrite h1 | exact: h2].
Qed.

Section End.
Variable pinv : forall n, 'M[C]_n -> 'M[C]_n.
Variable eig : forall n, 'M[C]_n -> 'rV[C]_n * 'M[C]_n.

Lemma vector_layers_size px py ins vs : vector_layers px py ins = Some vs -> size vs = size ins.
Proof.
elim: ins vs => [|[b objs] ins IH] vs /=; first by case=> <-.
by case: (vector_layer _ _ _ _) => [v0|] //; case es: (vector_layers _ _ _) => [vs0|] // [<-] /=; rewrite (IH _ es).
Qed.
Lemma vector_layers_take px py ins vs k : vector_layers px py ins = Some vs ->
  vector_layers px py (take k ins) = Some (take k vs).
Proof.
elim: ins vs k => [|[b objs] ins IH] vs [|k] /=; try by case=> <-.
  by case: (vector_layer _ _ _ _) => [v0|] //; case es: (vector_layers _ _ _) => [vs0|] // [<-].
by case: (vector_layer _ _ _ _) => [v0|] //; case es: (vector_layers _ _ _) => [vs0|] // [<-] /=; rewrite (IH _ k es).
Qed.

Lemma convs_size o fx fy cs : convs_of pinv o fx fy = Some cs -> size cs = layer_count o.
Proof.
rewrite /convs_of /layer_count; case: (o_mtype o) => [[]|] //; case: (o_cell o) => [|ny nx ls|ins|] //.
- case: (period_of o) => [[px py]|] //; case ev: (vector_layers px py ins) => [vs|] // /conv_all_size ->.
  exact: vector_layers_size ev.
- by case: ifP => // _; case: ifP => _; [|case: ifP => // _] => /conv_all_size ->; rewrite size_map.
Qed.

Lemma convs_take o fx fy cs k : convs_of pinv o fx fy = Some cs ->
  convs_of pinv (keep_layers k o) fx fy = Some (take k cs).
Proof.
rewrite /convs_of /keep_layers /=; case: (o_mtype o) => [[]|] //; case: (o_cell o) => [|ny nx ls|ins|] //.
- rewrite {2}/period_of /= -/(period_of o).
  case: (period_of o) => [[px py]|] //; case ev: (vector_layers px py ins) => [vs|] //.
  rewrite (vector_layers_take k ev); exact: conv_all_take.
- by case: ifP => // _; rewrite map_take; case: ifP => _; [|case: ifP => // _]; exact: conv_all_take.
Qed.

Lemma solve_with_take o fx fy th p (cs : seq (conv3 (fy.*2.+1 * fx.*2.+1))) g ts : o_thickness o = A1 ts ->
  solve_with pinv eig o th p (take (size ts) cs) g = solve_with pinv eig o th p cs g.
Proof.
move=> e; rewrite /solve_with e; case: ifP => // _; case: (o_algo o) => //; case: g => [[|[|g]]|].
- by rewrite /solve_1d /= map_take layers_of_take.
- by rewrite /solve_1d_conical /= layers_of_take.
- by rewrite /solve_2d /= layers_of_take.
- by rewrite /solve_2d /= layers_of_take.
Qed.

Lemma solve_with_keep k o fx fy th p (cs : seq (conv3 (fy.*2.+1 * fx.*2.+1))) g :
  solve_with pinv eig (keep_layers k o) th p cs g = solve_with pinv eig o th p cs g.
Proof. by []. Qed.

(** With more thicknesses than layers the TMM solver raises. *)
Lemma too_many_thicknesses o ts : o_thickness o = A1 ts -> o_algo o = TMM -> (layer_count o < size ts)%N ->
  (conv_solve pinv eig o).2 = Raised.
Proof.
move=> et ea hs; rewrite /conv_solve; case ef: (fto_of o) => [[fx fy]|] //.
case ec: (convs_of pinv o fx fy) => [cs|] //; case: (o_theta o) => [th|] //; case: (period_of o) => [p|] //.
case: (reqb _ _) => //; have hsz := convs_size ec; rewrite /solve_with ea et andbF.
have no n (cs' : seq (conv3 n)) : size cs' = size cs -> layers_of cs' ts = None.
  by move=> e; case el: (layers_of cs' ts) => [ls|] //; have := layers_of_size el; rewrite e hsz leqNgt hs.
case: (grating_of o fy) => [[|[|g]]|].
- by rewrite /solve_1d /= no ?size_map.
- by rewrite /solve_1d_conical /= no //; case: ifP.
- by rewrite /solve_2d /= no.
- by rewrite /solve_2d /= no.
Qed.

(** With fewer, the layers below are ignored. *)
Lemma extra_layers_dropped o o' r ts : o_thickness o = A1 ts -> conv_solve pinv eig o = (o', Solved r) ->
  (conv_solve pinv eig (keep_layers (size ts) o)).2 = Solved r /\
  o_memo (conv_solve pinv eig (keep_layers (size ts) o)).1 = o_memo o'.
Proof.
move=> eth /conv_solveE [fx [fy [cs [g [th [p [[ef ec eg pg et] [ep ew hg es]]]]]]]].
rewrite /conv_solve -[fto_of _]/(fto_of o) ef (convs_take _ ec).
rewrite -[o_theta _]/(o_theta o) et -[period_of _]/(period_of o) ep -[o_wavelength _]/(o_wavelength o).
have -> : reqb (o_wavelength o) 0 = false by rewrite /reqb; case: Req_EM_T.
have -> : grating_of (keep_layers (size ts) o) fy = Some g.
  by rewrite -eg /grating_of /keep_layers /=; case: (o_mtype o) => [[]|] //; case: (o_cell o).
by rewrite solve_with_keep (solve_with_take _ _ _ _ eth) es.
Qed.

(** ** Efficiencies are never negative over a lossless substrate. *)
Lemma nonneg_end o o' r (b : R) : physical_obj o -> o_nbot o = RtoC b -> (0 < b)%coqR ->
  conv_solve pinv eig o = (o', Solved r) -> report_all nonneg_eff r.
Proof.
move=> hp hb b0 /conv_solveE [fx [fy [cs [g [th [p [[ef ec eg pg et] [ep _ hg es]]]]]]]].
have [[nt nt0 hnt] /(_ _ et) [t t0 ht] hph _ _] := hp.
have hpv ts : exists f : R, phi_val (setup_of o fx fy th p ts) = RtoC f by apply: phi_real.
move: es; rewrite /solve_with; case: ifP => _; first by case=> _ <-; split.
case: (o_algo o) => //; case: (o_thickness o) => [|ts|] //; have [f hf] := hpv ts.
case: g eg pg hg => [|[|[|g]]] // eg pg _.
- have eph : o_phi o = None by inversion pg.
  case e1: (solve_1d _ _ _ _ _ _) => [[[d T1] infos]|] // [_ <-]; split=> // d' [<-].
  by have [] := c03_1d (s := setup_of o fx fy th p ts) hnt nt0 ht t0 eph hb b0 e1.
- case e1: (solve_1d_conical _ _ _ _ _ _) => [[d infos]|] // [_ <-].
  move: e1; rewrite /solve_1d_conical; case: ifP => // _; case: (layers_of _ _) => [ls|] // /rcwa_conical_inv h.
  have [[h1 _] [h2 _] [h3 _]] := c03_sp (s := setup_of o fx fy th p ts) hnt nt0 ht t0 hf hb b0 h.
  by split=> d' [<-].
- case e1: (solve_2d _ _ _ _ _ _) => [[d infos]|] // [_ <-].
  move: e1; rewrite /solve_2d; case: (layers_of _ _) => [ls|] // /rcwa_2d_inv h.
  have [[h1 _] [h2 _] [h3 _]] := c03_sp (s := setup_of o fx fy th p ts) hnt nt0 ht t0 hf hb b0 h.
  by split=> d' [<-].
Qed.

Lemma unit_end o o' r (b : R) : eigen_oracle eig -> physical_obj o -> real_cell_of o -> o_use_pinv o = false ->
  o_nbot o = RtoC b -> (0 < b)%coqR ->
  conv_solve pinv eig o = (o', Solved r) -> report_all eff_in_unit r.
Proof.
move=> heig h1 h2 h3 h4 h5 e; have := energy_end heig h1 h2 h3 e; have := nonneg_end h1 h4 h5 e.
case: r {e} => n a b' c [a1 a2 a3] [e1 e2 e3]; split=> d ed.
- exact (unit_eff (e1 _ ed) (a1 _ ed)).
- exact (unit_eff (e2 _ ed) (a2 _ ed)).
- exact (unit_eff (e3 _ ed) (a3 _ ed)).
Qed.

(** ** Range of the polarisation *)
Lemma rltbP x y : rltb x y -> (x < y)%coqR.
Proof. by rewrite /rltb; case: (Rlt_dec x y). Qed.
Lemma reqbP' x y : reqb x y -> x = y.
Proof. by rewrite /reqb; case: (Req_EM_T x y). Qed.
Lemma in_unit_real c : in_unit c -> is_real c -> exists2 p : R, c = RtoC p & (0 <= p <= 1)%coqR.
Proof.
move=> h [p e]; exists p => //; move: h; rewrite e /in_unit /cle /= => /andP [h1 h2]; split.
- case/orP: h1 => [/rltbP|/andP [/reqbP' + _]]; rewrite /Re /=; lra.
- case/orP: h2 => [/rltbP|/andP [/reqbP' + _]]; rewrite /Re /=; lra.
Qed.

Lemma pol_of_range p : (0 <= p <= PI / 2)%coqR -> exists2 q : R, pol_of (RtoC p) = RtoC q & (0 <= q <= 1)%coqR.
Proof.
have h := PI_RGT_0; move=> hp; exists (1 - 2 * p / PI)%coqR.
  by rewrite /pol_of -RtoC_mul -RtoC_div ?opprB; [rewrite -RtoC_sub | lra].
have [h1 h2] : (0 <= 2 * p / PI <= 1)%coqR.
  split; first by apply: Rmult_le_pos; [lra | apply: Rlt_le; apply: Rinv_0_lt_compat].
  by apply: (Rmult_le_reg_r PI) => //; rewrite /Rdiv Rmult_assoc Rinv_l ?Rmult_1_r ?Rmult_1_l; lra.
lra.
Qed.

Lemma step_range a o : proper_polar a -> pol_in_range o -> pol_in_range (do_op pinv eig a o).1.
Proof.
move=> ha h; case pa: (polar_op a); last first.
  by have [_ e] := @polar_frame pinv eig a o (negbT pa); rewrite /pol_in_range e.
case: a ha pa => // v ha _ /=.
- have go x : scalar v = Some x -> pol_in_range (set_polar (cnum x) (pol_of (cnum x)) o).
    by move=> /ha [p e hp]; rewrite /pol_in_range /= e; exact: pol_of_range.
  by case: v {ha} go => [|x|x|[|[x|] [|? ?]]|x|[|x [|? ?]]|? ? ? ?|?|?|] //= go; apply: go.
- rewrite /assign_pol; case: ifP => // hacc; case es: (scalar v) => [x|] //=.
  apply: in_unit_real (ha _ es); move: hacc; rewrite /pol_accepts.
  by rewrite es; case: v {ha es} => [|[z|r|c]|y|xs|y|xs|? ? ? ?|?|?|].
Qed.

Lemma after_range h o : pol_in_range o -> (forall a, List.In a h -> proper_polar a) -> pol_in_range (after pinv eig h o).
Proof.
elim: h o => //= a h IH o ho hh; apply: IH; last by move=> a' h'; apply: hh; right.
by apply: step_range => //; apply: hh; left.
Qed.

End End.

(** ** The grating equation *)
Lemma grating_eq s w : (Re (theta s) < pi32)%coqR ->
  (forall i, kx_vector s w i = conj (n_top s * csin (theta s) * ccos (phi_val s) + RtoC ((INR i - INR (fto_x s)) * (w / period_x s)))) /\
  (forall i, ky_vector s w i = conj (n_top s * csin (theta s) * csin (phi_val s) + RtoC ((INR i - INR (fto_y s)) * (w / period_y s)))).
Proof.
by move=> h; rewrite /kx_vector /ky_vector /sin_theta; case: Rle_dec => h'; [lra | split=> i; rewrite RtoC_mul].
Qed.

Section More.
Variable pinv : forall n, 'M[C]_n -> 'M[C]_n.
Variable eig : forall n, 'M[C]_n -> 'rV[C]_n * 'M[C]_n.

Lemma rejected_unchanged a o o' : ~~ fragile a o -> ~~ is_solve a -> do_op pinv eig a o = (o', Raised) -> o' = o.
Proof.
have as1 (r : obj * bool) : assigned r = (o', Raised) -> r = (o', true) by case: r => o1 [] // [->].
case: a => [v|v|v|v|v|v|v|v|v|c|nt nb|w|al up ft en||rx ry rz sel] //= hf _; last by case.
- by move=> /as1; exact: theta_atomic.
- by move=> /as1; exact: phi_atomic.
- by move=> /as1; apply: psi_atomic; move: hf; rewrite /is_psi_list.
- by move=> /as1; exact: pol_atomic.
- by move=> /as1; apply: fto_atomic; case: v hf.
- by move=> /as1; exact: period_atomic.
- by move=> /as1; exact: thickness_atomic.
- by move=> /as1; case ef: (o_fto o) hf => [x y| |] // _; exact: type_complex_atomic ef.
- by move=> /as1; apply: ucell_atomic; case: v hf.
Qed.

Lemma solve_settings o : same_settings (conv_solve pinv eig o).1 o.
Proof. by have [g [m ->]] := solve_frame pinv eig o. Qed.

Lemma same_field o1 o2 rx ry rz sel : same_settings o1 o2 -> o_grating o1 = o_grating o2 -> o_memo o1 = o_memo o2 ->
  calculate_field o1 rx ry rz sel = calculate_field o2 rx ry rz sel.
Proof.
move=> h eg em; have [[_ _ e1 _] [[_ _ e2 e3] [[e4 _ _ _] _]]] := h.
have [[f1 f2 _ f3] [[f4 f5 _ _] _]] := h.
rewrite /calculate_field /fto_of /period_of e1 e2 e3 e4 em eg f5 -/(fto_of o2) -/(period_of o2).
by rewrite /setup_of f1 f2 f3 f4 f5.
Qed.

Lemma same_settings_trans o1 o2 o3 : same_settings o1 o2 -> same_settings o2 o3 -> same_settings o1 o3.
Proof.
by rewrite /same_settings => -[[-> -> -> ->] [[-> -> -> ->] [[-> -> -> ->] [-> -> -> ->]]]].
Qed.
Lemma same_settings_sym o1 o2 : same_settings o1 o2 -> same_settings o2 o1.
Proof.
by rewrite /same_settings => -[[-> -> -> ->] [[-> -> -> ->] [[-> -> -> ->] [-> -> -> ->]]]].
Qed.

Lemma same_solve_field o1 o2 r rx ry rz sel : same_settings o1 o2 -> (conv_solve pinv eig o1).2 = Solved r ->
  calculate_field (conv_solve pinv eig o1).1 rx ry rz sel = calculate_field (conv_solve pinv eig o2).1 rx ry rz sel.
Proof.
move=> h hr; have [_ /(_ _ hr) [h1 h2]] := same_solve pinv eig h; apply: same_field => //.
apply: same_settings_trans (solve_settings o1) _; apply: same_settings_trans h _.
exact: same_settings_sym (solve_settings o2).
Qed.

Lemma conv_solve_out o : (conv_solve pinv eig o).2 = Raised \/ exists r, (conv_solve pinv eig o).2 = Solved r.
Proof.
rewrite /conv_solve; case: (fto_of o) => [[fx fy]|]; last by left.
case: (convs_of pinv o fx fy) => [cs|]; last by left.
case: (o_theta o) => [th|]; last by left.
case: (period_of o) => [p|]; last by left.
case: (reqb _ _); first by left.
rewrite /solve_with; case: ifP => _; first by right; eexists.
case: (o_algo o); try by left.
case: (o_thickness o) => [|ts|]; try by left.
case: (grating_of o fy) => [[|[|g]]|].
- by case: (solve_1d _ _ _ _ _ _) => [[[? ?] ?]|]; [right; eexists | left].
- by case: (solve_1d_conical _ _ _ _ _ _) => [[? ?]|]; [right; eexists | left].
- by case: (solve_2d _ _ _ _ _ _) => [[? ?]|]; [right; eexists | left].
- by case: (solve_2d _ _ _ _ _ _) => [[? ?]|]; [right; eexists | left].
Qed.

Lemma bad_thickness o : o_algo o = TMM -> (forall ts, o_thickness o <> A1 ts) -> (conv_solve pinv eig o).2 = Raised.
Proof.
move=> ea ht; rewrite /conv_solve; case: (fto_of o) => [[fx fy]|] //.
case: (convs_of pinv o fx fy) => [cs|] //.
case: (o_theta o) => [th|] //; case: (period_of o) => [p|] //; case: (reqb _ _) => //.
by rewrite /solve_with ea andbF; case: (o_thickness o) ht => [|ts|] // /(_ ts).
Qed.

Lemma other_algo o : o_algo o <> TMM -> (conv_solve pinv eig o).2 = Raised \/
  [/\ o_algo o = SMM, promised o 1 & (conv_solve pinv eig o).2 = Solved (@Report 0 None None None)].
Proof.
move=> ha; have [|[r hr]] := conv_solve_out o; [by left | right].
case e: (conv_solve pinv eig o) hr => [o' out] /= hr; rewrite hr in e.
by have [h1 h2 <- _] := solve_smm ha e; rewrite hr.
Qed.

End More.

(** What is stored. *)
Lemma period_scalar v o r : scalar_period v = Some r -> assign_period v o = (set_period (A1 [:: r; r]) o, false).
Proof.
case: v => [|[z|x|c]|x|[|y [|? ?]]|x|[|y [|? ?]]|? ? ? ?|?|?|] //=; try by move=> [<-].
- by move=> ->.
- by case: y => [z|x|c] //= [<-].
Qed.

Lemma thickness_normal v o o' : assign_thickness v o = (o', false) -> ~~ is_array0 v -> is_array3 v = false ->
  exists ts, o' = set_thickness (A1 ts) o.
Proof.
case: v => [|[z|x|c]|x|xs|x|xs|? ? ? ?|?|?|] //=; try by move=> [<-] _ _; eexists.
by case: (all_some _ _) => [ts|] // [<-] _ _; eexists.
Qed.
