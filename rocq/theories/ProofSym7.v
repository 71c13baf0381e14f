(** Translation and reflection of the unit cell of an object. *)
From Coq Require Import Reals ZArith Lra Lia.
From mathcomp Require Import all_ssreflect ssralg matrix.
From Coquelicot Require Import Complex.
From Verif Require Import Cplx Mx Spec SpecSolve SpecLayer SpecState SpecSym ModelTM ModelFourier ModelState ProofSetup ProofEff ProofState2 ProofEnd
  ProofPassive ProofSym2 ProofSym3 ProofSym4 ProofSym5 ProofSym6.

Set Implicit Arguments.
Unset Strict Implicit.
Unset Printing Implicit Defensive.
Local Open Scope ring_scope.
Import GRing.Theory.

Lemma uni_mod u z : unimodular u -> Cmod (u * z) = Cmod z.
Proof.
move=> h; rewrite Cmod_mult; suff -> : Cmod u = 1%coqR by rewrite Rmult_1_l.
have h1 : (Cmod u * Cmod u = 1)%coqR.
  have hc : Cmod (conj u) = Cmod u by rewrite /Cmod /conj /=; congr sqrt; ring.
  by have := congr1 Cmod h; rewrite Cmod_mult hc Cmod_1.
by have := Cmod_ge_0 u; nra.
Qed.

Section Objects.
Variable pinv : forall n, 'M[C]_n -> 'M[C]_n.
Variable eig : forall n, 'M[C]_n -> 'rV[C]_n * 'M[C]_n.
Hypothesis heig : eigen_oracle eig.

Lemma phases_cell my mx ny nx fx fy b px py : flips my = false -> flips mx = false ->
  axis_phases mx nx fx false px -> axis_phases my ny fy b py ->
  forall i, ph2 (fto_x := fx) (fto_y := fy) px py i = cell_phase b my mx ny nx fx fy i.
Proof.
move=> f1 f2 [_ _ hx] [_ _ hy] i; rewrite f2 in hx; rewrite f1 in hy.
by rewrite /ph2 /cell_phase (hx isT) (hy isT); case: b {hy}.
Qed.

Lemma place_keep m ff : flips m = false -> forall i, order_place m ff i = i.
Proof. by case: m. Qed.


(** A pair of objects that differ by the cell and the illumination. *)
Inductive pair_result (my mx : motion) (fx fy : nat) (px py : nat -> C) : report -> report -> Prop :=
  | PR0 : pair_result my mx fx fy px py (@Report 0 None None None) (@Report 0 None None None)
  | PR1 (d d' : diffraction fx.*2.+1) : fy = 0%N ->
      (let ph := fun i : 'I_(fx.*2.+1) => px i in let sg := lift_n (order_place mx fx.*2.+1) in
       moved_amps sg ph ph d d' /\ moved_effs sg d d') ->
      pair_result my mx fx fy px py (Report (Some d) None None) (Report (Some d') None None)
  | PR2 (r r' : sp_result (fy.*2.+1 * fx.*2.+1)) (f : 'I_(fy.*2.+1 * fx.*2.+1) -> C) : (forall i, unimodular (f i)) ->
      (flips my = false -> flips mx = false -> forall i, f i = ph2 (fto_x := fx) (fto_y := fy) px py i) ->
      moved_inc3 (sg2 (fto_x := fx) (fto_y := fy) (order_place mx fx.*2.+1) (order_place my fy.*2.+1)) (sgn (flips mx)) (sgn (flips my)) f r r' ->
      pair_result my mx fx fy px py (Report (Some (res r)) (Some (res_te_inc r)) (Some (res_tm_inc r)))
        (Report (Some (res r')) (Some (res_te_inc r')) (Some (res_tm_inc r'))).

Lemma factor_uni my mx px py ny nx b s w : axis_phases mx nx (fto_x s) false px -> axis_phases my ny (fto_y s) b py ->
  forall i, unimodular (sp_factor my mx px py (s := s) w i).
Proof.
move=> ax ay i; apply: unimodularM; last by apply: sign_uni; apply: eta_sign; exact: sgn_sign.
apply: unimodularM; first by apply: sign_uni; apply: eta_sign; exact: sgn_sign.
exact: sp_ph ax ay i.
Qed.
Lemma factor_keep my mx px py s w : flips my = false -> flips mx = false ->
  forall i, sp_factor my mx px py (s := s) w i = ph2 (fto_x := fto_x s) (fto_y := fto_y s) px py i.
Proof.
move=> f1 f2 i; rewrite /sp_factor /turn_factor f1 f2 /eta_of /= !if_same mul1r mulr1; reflexivity.
Qed.

Lemma pair_obj my mx o o' o1 o2 r r' ny nx ls fx fy th th' g :
  o_cell o = CRaster ny nx ls -> fto_of o = Some (fx, fy) -> o_theta o = Some th -> grating_of o fy = Some g ->
  o_use_pinv o = false -> physical_obj o -> thick_enough o ->
  o_cell o' = moved_cell my mx (o_cell o) -> o_mtype o' = o_mtype o ->
  [/\ o_ntop o' = o_ntop o, o_nbot o' = o_nbot o, o_fto o' = o_fto o, o_period o' = o_period o & o_wavelength o' = o_wavelength o] ->
  [/\ o_thickness o' = o_thickness o, o_algo o' = o_algo o, o_use_pinv o' = o_use_pinv o, o_enhanced o' = o_enhanced o
    & o_fourier_type o' = o_fourier_type o] ->
  o_theta o' = Some th' -> grating_of o' fy = Some g ->
  (g = 0%N -> [/\ o_phi o' = o_phi o, o_psi o' = o_psi o, o_pol o' = o_pol o, ccos th' = ccos th
     & forall s s', theta s = th -> theta s' = th' -> sin_theta s' = sgn (flips mx) * sin_theta s]) ->
  (g <> 0%N -> [/\ th' = th, o_phi o' = turned_phi my mx (o_phi o) & o_psi o' = turned_psi my mx (o_psi o)]) ->
  conv_solve pinv eig o = (o1, Solved r) -> conv_solve pinv eig o' = (o2, Solved r') ->
  exists px py, [/\ axis_phases mx nx fx false px, axis_phases my ny fy (o_fourier_type o =? 1)%Z py
    & pair_result my mx fx fy px py r r'].
Proof.
move=> hc hf het hgr hu hp ht hc' hmt' [q1 q2 q3 q4 q5] [q6 q7 q8 q9 q10] het' hgr' hcl hsp e e'.
have [fx' [fy' [cs [g0 [th0 [p [[ef ec eg pg et] [ep _ hg es]]]]]]]] := conv_solveE e.
have [fx'' [fy'' [cs' [g' [th0' [p' [[ef' ec' eg' pg' et'] [ep' _ hg' es']]]]]]]] := conv_solveE e'.
have hf' : fto_of o' = fto_of o by rewrite /fto_of q3.
have hpe' : period_of o' = period_of o by rewrite /period_of q4.
rewrite hf' in ef'; rewrite hpe' in ep'.
move: ef ef' et et' ep' cs ec eg es cs' ec' eg' es' pg pg' hg.
rewrite hf het het' ep => -[<- <-] [<- <-] [<-] [<-] [<-] cs ec; rewrite hgr => -[<-] es cs' ec'; rewrite hgr' => -[<-] es' pg pg' hg.
have hmt : o_mtype o = Some false by move: ec; rewrite /convs_of hc; case: (o_mtype o) => [[]|].
rewrite hmt in hmt'.
have hu' : o_use_pinv o' = false by rewrite q8.
have [px [py [ax ay hm]]] := convs_moved hmt hmt' hc hc' hu hu' q9 q10 ec ec'.
exists px, py; split=> //.
have hphys ts : physical (setup_of o fx fy th p ts) by exact: physical_setup.
move: es es'; rewrite /solve_with hu hu' q7 q6 q5; case: ifP => _; first by case=> _ <- [_ <-]; exact: PR0.
case: (o_algo o) => //; case eth: (o_thickness o) => [|ts|] //.
have hts : forall t, List.In t (thickness (setup_of o fx fy th p ts)) -> (0 <= t)%coqR by exact: ht.
case: g hcl hsp hgr hgr' pg pg' hg => [|[|[|g]]] // hcl hsp hgr hgr' pg pg' _.
- have fy0 : fy = 0%N by inversion pg as [? ? _ _ _ _ [f h _]| | |]; move: h; rewrite hf => -[_].
  have [c1 c2 c3 c4 c5] := hcl erefl.
  rewrite /setup_of q1 q2 c1 c2 c3.
  case e1: (solve_1d _ _ _ _ _ _) => [[[d T1] infos]|] // [_ <-].
  case e2: (solve_1d _ _ _ _ _ _) => [[[d' T1'] infos']|] // [_ <-].
  apply: PR1 => //.
  have c6 := c5 (setup_of o fx fy th p ts) (turn th' (o_phi o) (o_psi o) (setup_of o fx fy th p ts)) erefl erefl.
  exact (classical_moved heig (s := setup_of o fx fy th p ts) ax ay fy0 c6 c4 hm hts e1 e2).
- have [c1 c2 c3] := hsp (fun h => ltac:(discriminate h)).
  have ny1 : ny = 1%N by inversion pg as [|? ? _ h _| |]; move: h; rewrite hc => -[].
  rewrite /setup_of q1 q2 c1.
  case e1: (solve_1d_conical _ _ _ _ _ _) => [[d infos]|] // [_ <-].
  case e2: (solve_1d_conical _ _ _ _ _ _) => [[d' infos']|] // [_ <-].
  have l1 c : List.In c (used (setup_of o fx fy th p ts) cs) -> line_convs c.
    by move=> h; move: hc; rewrite ny1 => hc1; exact: (convs_line hmt hc1 hu ec (In_take h)).
  have l2 c : List.In c (used (setup_of o fx fy th p ts) cs') -> line_convs c.
    by move=> h; move: hc'; rewrite hc /= ny1 => hc1; exact: (convs_line hmt' hc1 hu' ec' (In_take h)).
  apply: (@PR2 _ _ _ _ _ _ _ _ (sp_factor my mx px py (s := setup_of o fx fy th p ts) (o_wavelength o))).
  + exact (@factor_uni my mx px py ny nx _ (setup_of o fx fy th p ts) (o_wavelength o) ax ay).
  + exact (@factor_keep my mx px py (setup_of o fx fy th p ts) (o_wavelength o)).
  exact (sp_conical heig (s := setup_of o fx fy th p ts) ax ay (hphys ts) c2 c3 hm hts l1 l2 e1 e2).
- have [c1 c2 c3] := hsp (fun h => ltac:(discriminate h)).
  rewrite /setup_of q1 q2 c1.
  case e1: (solve_2d _ _ _ _ _ _) => [[d infos]|] // [_ <-].
  case e2: (solve_2d _ _ _ _ _ _) => [[d' infos']|] // [_ <-].
  apply: (@PR2 _ _ _ _ _ _ _ _ (sp_factor my mx px py (s := setup_of o fx fy th p ts) (o_wavelength o))).
  + exact (@factor_uni my mx px py ny nx _ (setup_of o fx fy th p ts) (o_wavelength o) ax ay).
  + exact (@factor_keep my mx px py (setup_of o fx fy th p ts) (o_wavelength o)).
  exact (sp_2d heig (s := setup_of o fx fy th p ts) ax ay (hphys ts) c2 c3 hm hts e1 e2).
Qed.

Lemma place2_keep my mx ffx ffy i : flips my = false -> flips mx = false -> tau2 ffx (order_place mx ffx) (order_place my ffy) i = i.
Proof. by move=> f1 f2; rewrite /tau2 !place_keep // -divn_eq. Qed.
Lemma turned_keep my mx o : flips my = false -> flips mx = false ->
  turned_phi my mx (o_phi o) = o_phi o /\ turned_psi my mx (o_psi o) = o_psi o.
Proof. by rewrite /turned_phi /turned_psi => -> ->. Qed.

Lemma translated_inc my mx ny nx fx fy b px py (sg : 'I_(fy.*2.+1 * fx.*2.+1) -> 'I_(fy.*2.+1 * fx.*2.+1)) u v d d' :
  (forall i, sg i = i) -> (forall i : 'I_(fy.*2.+1 * fx.*2.+1), u i = ph2 (fto_x := fx) (fto_y := fy) px py i) ->
  (forall i : 'I_(fy.*2.+1 * fx.*2.+1), v i = ph2 (fto_x := fx) (fto_y := fy) px py i) ->
  (forall i, ph2 (fto_x := fx) (fto_y := fy) px py i = cell_phase b my mx ny nx fx fy i) ->
  moved_inc sg u v d d' -> translated (cell_phase b my mx ny nx fx fy) d d'.
Proof.
move=> hs hu hv hc [ha he]; split=> i; first by have := ha i; rewrite hs hu hv hc.
by have := he i; rewrite hs.
Qed.

Lemma translate_obj my mx o o1 o2 r r' ny nx ls fx fy :
  flips my = false -> flips mx = false -> physical_obj o -> thick_enough o -> o_use_pinv o = false ->
  o_cell o = CRaster ny nx ls -> fto_of o = Some (fx, fy) ->
  conv_solve pinv eig o = (o1, Solved r) -> conv_solve pinv eig (move_cell my mx o) = (o2, Solved r') ->
  reports (translated (cell_phase (o_fourier_type o =? 1)%Z my mx ny nx fx fy)) r r'.
Proof.
move=> f1 f2 hp ht hu hc hf e e'.
have [fx' [fy' [cs [g [th [p [[ef ec eg pg et] _]]]]]]] := conv_solveE e.
move: ef cs ec eg; rewrite hf => -[<- <-] cs ec eg.
have hmt : o_mtype o = Some false by move: ec; rewrite /convs_of hc; case: (o_mtype o) => [[]|].
have eg' : grating_of (move_cell my mx o) fy = Some g by rewrite -eg /grating_of /= hmt hc.
have [t1 t2] := turned_keep o f1 f2.
have [||px [py [ax ay hr]]] := @pair_obj my mx o (move_cell my mx o) o1 o2 r r' ny nx ls fx fy th th g hc hf et eg hu hp ht
  erefl erefl (And5 erefl erefl erefl erefl erefl) (And5 erefl erefl erefl erefl erefl) et eg' _ _ e e'.
- by move=> _; split=> // s s' h h'; rewrite f2 mul1r /sin_theta h h'.
- by rewrite t1 t2.
have hph := phases_cell f1 f2 ax ay.
case: hr => [|d d' fy0 [ha he]|q q' f hf1 hf2 [h1 h2 h3]].
- by do 2 constructor.
- constructor; try constructor; split=> i.
    have := ha i; have -> : lift_n (order_place mx fx.*2.+1) i = i.
      by apply: val_inj; rewrite /= lift_nE place_keep.
    have -> : px i = cell_phase (o_fourier_type o =? 1)%Z my mx ny nx fx fy i.
      have hi : (i < 1 * fx.*2.+1)%N by rewrite mul1n.
      rewrite /cell_phase divn_small // modn_small //.
      case: ax => _ _ hx; rewrite f2 in hx; rewrite (hx isT).
      case: ay => _; rewrite fy0 f1 => p1 hy; rewrite (hy isT) in p1.
      by rewrite p1 mul1r.
    by [].
  have := he i; have -> : lift_n (order_place mx fx.*2.+1) i = i; last by [].
  by apply: val_inj; rewrite /= lift_nE place_keep.
have hs i : sg2 (fto_x := fx) (fto_y := fy) (order_place mx fx.*2.+1) (order_place my fy.*2.+1) i = i.
  apply: val_inj; rewrite /= sg2E ?place2_keep //; by move=> j; exact: order_place_lt.
rewrite f1 f2 in h1 h2 h3.
have k1 i : f i = ph2 (fto_x := fx) (fto_y := fy) px py i := hf2 f1 f2 i.
have k2 i : 1 * 1 * f i = ph2 (fto_x := fx) (fto_y := fy) px py i by rewrite !mul1r.
by constructor; constructor; [exact: (translated_inc hs k2 k1 hph h1)|exact: (translated_inc hs k1 k2 hph h2)|exact: (translated_inc hs k2 k1 hph h3)].
Qed.

Lemma mirrored_inc n (sg : 'I_n -> 'I_n) (pl : nat -> nat) u v (d d' : diffraction n) : (forall i, sg i = pl i :> nat) ->
  (forall i, unimodular (u i)) -> (forall i, unimodular (v i)) -> moved_inc sg u v d d' -> mirrored pl d d'.
Proof.
move=> hs hu hv [ha he] i j hj; have -> : j = sg i by apply: val_inj; rewrite /= hs.
by have [-> -> -> ->] := ha i; have [h1 h2] := he i; rewrite !uni_mod.
Qed.

Lemma mirror_sp_obj my mx po o o1 o2 r r' ny nx ls fx fy :
  flips my || flips mx -> physical_obj o -> thick_enough o -> o_use_pinv o = false -> ~ promised o 0 ->
  o_cell o = CRaster ny nx ls -> fto_of o = Some (fx, fy) ->
  conv_solve pinv eig o = (o1, Solved r) -> conv_solve pinv eig (mirror_sp my mx po o) = (o2, Solved r') ->
  reports (mirrored (order_place2 my mx fx.*2.+1 fy.*2.+1)) r r'.
Proof.
move=> hfl hp ht hu hnp hc hf e e'.
have [fx' [fy' [cs [g [th [p [[ef ec eg pg et] _]]]]]]] := conv_solveE e.
move: ef cs ec eg; rewrite hf => -[<- <-] cs ec eg.
have hmt : o_mtype o = Some false by move: ec; rewrite /convs_of hc; case: (o_mtype o) => [[]|].
have g0 : g <> 0%N by move=> g0; apply: hnp; rewrite -g0.
have eg' : grating_of (mirror_sp my mx po o) fy = Some g.
  move: eg g0; rewrite /grating_of /= hmt hc /=; case: ifP => _ //; case: ifP => _ [<-] // _.
  by rewrite /turned_phi; move: hfl; case: (flips my); case: (flips mx) => //=; rewrite andbF.
have [||px [py [ax ay hr]]] := @pair_obj my mx o (mirror_sp my mx po o) o1 o2 r r' ny nx ls fx fy th th g hc hf et eg hu hp ht
  erefl erefl (And5 erefl erefl erefl erefl erefl) (And5 erefl erefl erefl erefl erefl) et eg' _ _ e e'.
- by move=> g1; case: (g0 g1).
- by [].
case: hr => [|d d' fy0 [ha he]|q q' f hf1 hf2 [h1 h2 h3]].
- by do 2 constructor.
- have hsg (i : 'I_(fx.*2.+1)) : lift_n (order_place mx fx.*2.+1) i = order_place2 my mx fx.*2.+1 fy.*2.+1 i :> nat.
    rewrite lift_nE; last by case: (@order_place_lt mx _ i (ltn_ord i)).
    by rewrite /order_place2 divn_small // modn_small // fy0; case: (my).
  have hu1 (i : 'I_(fx.*2.+1)) : unimodular (px i) by case: ax.
  by constructor; constructor; exact: (mirrored_inc hsg hu1 hu1).
have k2 i : unimodular (sgn (flips mx) * sgn (flips my) * f i).
  by apply: unimodularM => //; apply: unimodularM; apply: sign_uni; exact: sgn_sign.
have hs (i : 'I_(fy.*2.+1 * fx.*2.+1)) : sg2 (fto_x := fx) (fto_y := fy) (order_place mx fx.*2.+1) (order_place my fy.*2.+1) i = order_place2 my mx fx.*2.+1 fy.*2.+1 i :> nat.
  by rewrite sg2E // => j; exact: order_place_lt.
by constructor; constructor; [exact: (mirrored_inc hs k2 hf1 h1)|exact: (mirrored_inc hs hf1 k2 h2)|exact: (mirrored_inc hs k2 hf1 h3)].
Qed.

Lemma mirror_classical_obj o o1 o2 r r' nx ls fx :
  physical_obj o -> thick_enough o -> o_use_pinv o = false -> promised o 0 ->
  o_cell o = CRaster 1 nx ls -> fto_of o = Some (fx, 0%N) ->
  conv_solve pinv eig o = (o1, Solved r) -> conv_solve pinv eig (mirror_classical o) = (o2, Solved r') ->
  reports (mirrored (order_place Reverse fx.*2.+1)) r r'.
Proof.
move=> hp ht hu hpr hc hf e e'.
have [fx' [fy' [cs [g [th [p [[ef ec eg pg et] _]]]]]]] := conv_solveE e.
move: ef cs ec eg; rewrite hf => -[<- <-] cs ec eg.
have hmt : o_mtype o = Some false by move: ec; rewrite /convs_of hc; case: (o_mtype o) => [[]|].
have g0 : grating_of o 0 = Some 0%N.
  rewrite /grating_of hmt hc /=; inversion hpr as [? ? _ _ hpol -> _| | |].
  by case: hpol => ->; rewrite eqxx ?orbT.
have eg0 : g = 0%N by move: eg; rewrite g0 => -[].
have eg' : grating_of (mirror_classical o) 0 = Some g by rewrite -eg /grating_of /= hmt hc.
have et' : o_theta (mirror_classical o) = Some (- th) by rewrite /= et.
have [||px [py [ax ay hr]]] := @pair_obj Keep Reverse o (mirror_classical o) o1 o2 r r' 1 nx ls fx 0 th (- th) g hc hf et eg hu hp ht
  erefl erefl (And5 erefl erefl erefl erefl erefl) (And5 erefl erefl erefl erefl erefl) et' eg' _ _ e e'.
- move=> _; split=> //; first exact: ccosN.
  move=> s s' h h'; rewrite /sin_theta h h' mulN1r.
  have [t [tl tr] eth] : angle_below_90 th by case: hp => _ h2 _ _ _; exact: h2.
  have := pi32_gt; have p0 := PI_RGT_0 => hpi; rewrite eth -RtoC_opp !Re_RtoC.
  case: (Rle_dec pi32 t) => h3; first by exfalso; lra.
  case: (Rle_dec pi32 (- t)) => h4; first by exfalso; lra.
  by rewrite RtoC_opp csinN.
- by rewrite eg0.
case: hr => [|d d' _ hd|q q' f hf1 hf2 [h1 h2 h3]].
- by do 2 constructor.
- have hsg (i : 'I_(fx.*2.+1)) : lift_n (order_place Reverse fx.*2.+1) i = order_place Reverse fx.*2.+1 i :> nat.
    by rewrite lift_nE //; case: (@order_place_lt Reverse _ i (ltn_ord i)).
  have hu1 (i : 'I_(fx.*2.+1)) : unimodular (px i) by case: ax.
  by constructor; constructor; exact: (mirrored_inc hsg hu1 hu1).
have k2 i : unimodular (sgn (flips Reverse) * sgn (flips Keep) * f i).
  by apply: unimodularM => //; apply: unimodularM; apply: sign_uni; exact: sgn_sign.
have hs (i : 'I_(0.*2.+1 * fx.*2.+1)) : sg2 (fto_x := fx) (fto_y := 0) (order_place Reverse fx.*2.+1) (order_place Keep 0.*2.+1) i = order_place Reverse fx.*2.+1 i :> nat.
  have hi : (i < fx.*2.+1)%N by case: i => j /=; rewrite mul1n.
  rewrite sg2E; try by move=> j; exact: order_place_lt.
  by rewrite /tau2 divn_small // modn_small.
by constructor; constructor; [exact: (mirrored_inc hs k2 hf1 h1)|exact: (mirrored_inc hs hf1 k2 h2)|exact: (mirrored_inc hs k2 hf1 h3)].
Qed.
End Objects.
