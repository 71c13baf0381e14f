(** The arrays of calculate_field sample solutions of Maxwell's equations through the stack. *)
From Coq Require Import Reals Lra.
From mathcomp Require Import all_ssreflect ssralg matrix.
From Coquelicot Require Import Complex Hierarchy Derive.
From Verif Require Import Cplx Mx ModelTM ModelField ModelState Spec SpecSolve SpecField SpecMaxwell SpecLayer SpecFull SpecState ProofSetup ProofField
  ProofEnergy1D ProofBVP ProofBVP2 ProofFieldSolve ProofMaxwell ProofEnergy2D ProofState2 ProofEnd.

Set Implicit Arguments.
Unset Strict Implicit.
Unset Printing Implicit Defensive.
Local Open Scope ring_scope.
Import GRing.Theory.

Section Sp.
Variables (n : nat) (k0 : R) (kx ky : nat -> C).

Lemma face_of (m : R -> modes n) z : on_plane k0 kx ky (e_of k0 kx ky m) (h_of k0 kx ky m) (- z)%coqR (e_part (m z), h_part (m z)).
Proof.
rewrite /on_plane /e_of /h_of /e_part /h_part /vx /vy /= Ropp_involutive !col_mxKu !col_mxKd.
split=> x y //; rewrite osum_scale; apply: osum_eq => j; rewrite mxE //.
Qed.

Lemma em_of px py rx ry rz (ms : seq (R * (R -> modes n))) cs ts top bot :
  through ts top [seq ((fun z => e_part (x.2 z)), (fun z => h_part (x.2 z))) | x <- ms] bot ->
  all_solve k0 (media_sp kx ky cs ts) [seq ((fun z => e_part (x.2 z)), (fun z => h_part (x.2 z))) | x <- ms] ->
  (forall k x c t, List.nth_error ms k = Some x -> List.nth_error cs k = Some c -> List.nth_error ts k = Some t ->
     x.1 = t /\ forall z, x.2 z = complete kx ky c.2 (m_Sx (x.2 z)) (m_Sy (x.2 z)) (m_Ux (x.2 z)) (m_Uy (x.2 z))) ->
  em_stack k0 kx ky px py rx ry rz ts cs
    [seq (fun iz iy ix => sample_sp k0 kx ky (linspace px rx ix) (y_point py ry iy) (x.2 (z_point rz x.1 iz))) | x <- ms] top bot.
Proof.
elim: ms ts cs top => [|x ms IH] [|t ts] [|c cs] top //= [h1 h2] [h3 h4] h5.
have [e1 e2] := h5 0%N x c t erefl erefl erefl.
exists (e_of k0 kx ky x.2), (h_of k0 kx ky x.2), (e_part (x.2 t), h_part (x.2 t)); split.
- by rewrite -h1 -{1}Ropp_0; exact: face_of.
- exact: face_of.
- by apply: layer_maxwell; apply: solves_layer.
- by rewrite e1; exact: sample_layer.
- by apply: IH => // k; exact: (h5 k.+1).
Qed.
End Sp.

Section Classical.
Variables (n : nat) (k0 : R) (kx : nat -> C) (p : R).
Notation vm := (R -> 'cV[C]_n * 'cV[C]_n * 'cV[C]_n).
Definition te_modes (m : vm) z : modes n := Modes 0 (m z).1.1 0 (m z).1.2 0 (m z).2.
Definition tm_modes (m : vm) z : modes n := Modes ((- ci) *: (m z).1.2) 0 ((- ci) *: (m z).2) 0 ((- ci) *: (m z).1.1) 0.
Definition pol_modes (tm : bool) := if tm then tm_modes else te_modes.

Lemma plane_of tm (m : vm) z : let f := pol_modes tm m in
  plane_1d tm k0 kx (e_of k0 kx (fun _ => 0) f) (h_of k0 kx (fun _ => 0) f) (- z)%coqR (m z).1.
Proof.
rewrite /plane_1d /e_of /h_of /vx /vy /=; case: tm => /=; rewrite Ropp_involutive /tm_modes /te_modes /=; split=> x y //.
- by rewrite osum_scale; apply: osum_eq => j; rewrite mxE mulrA mulrN ci2 opprK mul1r.
- by rewrite osum_scale; apply: osum_eq => j; rewrite mxE.
Qed.

Lemma em_of_1d px rx rz (ms : seq (R * vm)) cs ts top bot : p = 0%coqR \/ p = 1%coqR ->
  through ts top [seq ((fun z => (x.2 z).1.1), (fun z => (x.2 z).1.2)) | x <- ms] bot ->
  all_solve k0 (media_1d (is_tm p) kx cs ts) [seq ((fun z => (x.2 z).1.1), (fun z => (x.2 z).1.2)) | x <- ms] ->
  (forall k x c t, List.nth_error ms k = Some x -> List.nth_error cs k = Some c -> List.nth_error ts k = Some t ->
     x.1 = t /\ forall z, (x.2 z).2 = (- ci) *: (if is_tm p then c.2 *m diagf n kx *m (x.2 z).1.1 else diagf n kx *m (x.2 z).1.1)) ->
  em_stack_1d (is_tm p) k0 kx px rx rz ts cs
    [seq (fun iz ix => sample_1d p k0 kx (linspace px rx ix) (x.2 (z_point rz x.1 iz))) | x <- ms] top bot.
Proof.
move=> hp; elim: ms ts cs top => [|x ms IH] [|t ts] [|c cs] top //= [h1 h2] [h3 h4] h5.
have [e1 e2] := h5 0%N x c t erefl erefl erefl.
exists (e_of k0 kx (fun _ => 0) (pol_modes (is_tm p) x.2)), (h_of k0 kx (fun _ => 0) (pol_modes (is_tm p) x.2)), (x.2 t).1; split.
- by rewrite -h1 -{1}Ropp_0 (_ : (_, _) = (x.2 0%coqR).1); [exact: plane_of|case: (x.2 0%coqR) => -[]].
- exact: plane_of.
- apply: layer_maxwell; case: hp e2 h3 => ->; rewrite ?is_tm0 ?is_tm1 => e2 h3.
    exact (te_layer h3 e2).
  exact (tm_layer h3 e2).
- rewrite e1; case: hp => ep; rewrite ep ?is_tm0 ?is_tm1.
    refine (@sample_layer_te _ _ _ x.2 _ _ _ _ _ is_tm0 _); by rewrite /reqb; case: Req_EM_T.
  refine (@sample_layer_tm _ _ _ x.2 _ _ _ _ _ _); by rewrite /reqb; case: Req_EM_T => // h; lra.
- apply: IH => //; last by move=> k; exact: (h5 k.+1).
  by move: h2; rewrite (_ : (_, _) = (x.2 t).1) //; case: (x.2 t) => -[].
Qed.
End Classical.

Section Solve.
Variable pinv : forall n, 'M[C]_n -> 'M[C]_n.
Variable eig : forall n, 'M[C]_n -> 'rV[C]_n * 'M[C]_n.
Hypothesis heig : eigen_oracle eig.

Lemma nth_map_some (A B : Type) (f : A -> B) s k x : List.nth_error (map f s) k = Some x -> exists2 y, List.nth_error s k = Some y & x = f y.
Proof. by elim: s k => [|a s IH] [|k] //=; [case=> <-; exists a|exact: IH]. Qed.

Lemma em_solve_1d s w (convs : seq (conv3 (ff_x s))) r T1 infos px rx rz :
  solve_1d pinv eig false s w convs = Some (r, T1, infos) ->
  em_field_1d (is_tm (pol s)) (k0_of w) (kx_vector s w) px rx rz (thickness s) convs (n_top s) (n_bot s) (theta s) r
    (field_1d w (kx_vector s w) T1 infos px (pol s) rx rz).
Proof.
move=> hs; have [[_ h2] _] := bvp_solve_1d heig hs; have h1 := flow_solve_1d hs.
set k0 := k0_of w; set kx := kx_vector s w.
pose g (lt : info_1d (ff_x s) * 'cV[C]_(ff_x s)) := (i1_d lt.1, modes_1d (pol s) k0 kx lt.1 lt.2).
have -> : field_1d w kx T1 infos px (pol s) rx rz =
  [seq (fun iz ix => sample_1d (pol s) k0 kx (linspace px rx ix) (x.2 (z_point rz x.1 iz))) | x <- map g (descend (next_1d k0) T1 (rev infos))].
  by rewrite -map_comp.
have ep : field_profiles_1d (pol s) k0 kx T1 infos = [seq ((fun z => (x.2 z).1.1), (fun z => (x.2 z).1.2)) | x <- map g (descend (next_1d k0) T1 (rev infos))].
  by rewrite -map_comp.
have hpol : (pol s = 0 \/ pol s = 1)%coqR.
  move: hs; rewrite /solve_1d; case: (layers_of _ _) => // ls.
  by rewrite /rcwa_1d /transfer_1d_1; case: ifP => [/reqbP|_]; [left|case: ifP => [/reqbP|_] //; right].
apply: em_of_1d => //; rewrite -?ep //.
move: hs; rewrite /solve_1d; case el: (layers_of _ _) => [ls|] // hr.
have [F [G [T [hst h4]]]] := rcwa_1d_parts hr; have [i1 i2] := infos_1d hst.
move=> k x c t hx hc ht; have [lt hlt ->] := nth_map_some hx.
have hk := nth_fst hlt.
have [l hl] : exists l, List.nth_error ls k = Some l.
  by have := ht; rewrite -(layers_thick el) => hm; have [l hl _] := nth_map_some hm; exists l.
have [e1 e2] := layers_nth el hl; rewrite e1 in hc; rewrite e2 in ht; case: hc => <-; case: ht => <-.
have d1 := nth_both i1 hk hl; have d2 := nth_both i2 hk hl; split; first exact: d2.
have ec : (conv_of l).2 = i1_epzi lt.1 by rewrite d1.
rewrite ec /g /= => z; case: hpol => ->; rewrite ?is_tm0 ?is_tm1 /modes_1d.
- by have -> : reqb 0 0 by rewrite /reqb; case: Req_EM_T.
- by have -> : reqb 1 0 = false by rewrite /reqb; case: Req_EM_T => // h; lra.
Qed.

Lemma em_2d s w (convs : seq (conv3 (ff_y s * ff_x s))) r infos T1 top bot px py rx ry rz :
  solve_2d pinv eig false s w convs = Some (r, infos) ->
  let kx := kx_tiled s w in let ky := ky_tiled s w in
  through (thickness s) top (field_profiles_2d (k0_of w) kx ky T1 infos) bot ->
  all_solve (k0_of w) (media_sp kx ky convs (thickness s)) (field_profiles_2d (k0_of w) kx ky T1 infos) ->
  em_stack (k0_of w) kx ky px py rx ry rz (thickness s) convs (field_2d w kx ky T1 infos px py rx ry rz) top bot.
Proof.
move=> hs kx ky h1 h2; set k0 := k0_of w.
pose g (lt : info_sp 'M[C]_(ff_y s * ff_x s + ff_y s * ff_x s) (ff_y s * ff_x s) * 'cV[C]_(ff_y s * ff_x s + ff_y s * ff_x s)) :=
  (is_d lt.1, modes_2d k0 kx ky lt.1 lt.2).
have -> : field_2d w kx ky T1 infos px py rx ry rz =
  [seq (fun iz iy ix => sample_sp k0 kx ky (linspace px rx ix) (y_point py ry iy) (x.2 (z_point rz x.1 iz))) | x <- map g (descend (next_2d k0) T1 (rev infos))].
  by rewrite -map_comp.
have ep : field_profiles_2d k0 kx ky T1 infos = [seq ((fun z => e_part (x.2 z)), (fun z => h_part (x.2 z))) | x <- map g (descend (next_2d k0) T1 (rev infos))].
  by rewrite -map_comp.
apply: em_of; rewrite -?ep //.
move: hs; rewrite /solve_2d; case el: (layers_of _ _) => [ls|] //.
rewrite /rcwa_2d /transfer_sp_1; case: ifP => // _.
case hst: (stack_with _ _ _) => [[[[F G] T] is']|] //.
case h4: (transfer_sp_4 _ _ _ _ _ _ _ _ _ _ _) => [r4|] // [_ ei]; rewrite ei in hst; have [i1 i2] := infos_2d hst.
move=> k x c t hx hc ht; have [lt hlt ->] := nth_map_some hx.
have hk := nth_fst hlt.
have [l hl] : exists l, List.nth_error ls k = Some l.
  by have := ht; rewrite -(layers_thick el) => hm; have [l hl _] := nth_map_some hm; exists l.
have [e1 e2] := layers_nth el hl; rewrite e1 in hc; rewrite e2 in ht; case: hc => <-; case: ht => <-.
have d1 := nth_both i1 hk hl; have d2 := nth_both i2 hk hl; split; first exact: d2.
have -> : (conv_of l).2 = is_epzi lt.1 by rewrite d1.
by move=> z; reflexivity.
Qed.

Lemma em_conical s w (convs : seq (conv3 (ff_y s * ff_x s))) r infos T1 top bot px py rx ry rz :
  solve_1d_conical pinv eig false s w convs = Some (r, infos) ->
  let kx := kx_tiled s w in let ky := ky_tiled s w in
  through (thickness s) top (field_profiles_conical (k0_of w) kx ky T1 infos) bot ->
  all_solve (k0_of w) (media_sp kx ky convs (thickness s)) (field_profiles_conical (k0_of w) kx ky T1 infos) ->
  em_stack (k0_of w) kx ky px py rx ry rz (thickness s) convs (field_conical w kx ky T1 infos px py rx ry rz) top bot.
Proof.
move=> hs kx ky h1 h2; set k0 := k0_of w.
pose g (lt : info_sp 'M[C]_(ff_y s * ff_x s, ff_y s * ff_x s + ff_y s * ff_x s) (ff_y s * ff_x s) * 'cV[C]_(ff_y s * ff_x s + ff_y s * ff_x s)) :=
  (is_d lt.1, modes_conical k0 kx ky lt.1 lt.2).
have -> : field_conical w kx ky T1 infos px py rx ry rz =
  [seq (fun iz iy ix => sample_sp k0 kx ky (linspace px rx ix) (y_point py ry iy) (x.2 (z_point rz x.1 iz))) | x <- map g (descend (next_conical k0) T1 (rev infos))].
  by rewrite -map_comp.
have ep : field_profiles_conical k0 kx ky T1 infos = [seq ((fun z => e_part (x.2 z)), (fun z => h_part (x.2 z))) | x <- map g (descend (next_conical k0) T1 (rev infos))].
  by rewrite -map_comp.
apply: em_of; rewrite -?ep //.
move: hs; rewrite /solve_1d_conical; case: eqP => // _; case el: (layers_of _ _) => [ls|] //.
rewrite /rcwa_conical /transfer_sp_1; case: ifP => // _.
case hst: (stack_with _ _ _) => [[[[F G] T] is']|] //.
case h4: (transfer_sp_4 _ _ _ _ _ _ _ _ _ _ _) => [r4|] // [_ ei]; rewrite ei in hst; have [i1 i2] := infos_conical hst.
move=> k x c t hx hc ht; have [lt hlt ->] := nth_map_some hx.
have hk := nth_fst hlt.
have [l hl] : exists l, List.nth_error ls k = Some l.
  by have := ht; rewrite -(layers_thick el) => hm; have [l hl _] := nth_map_some hm; exists l.
have [e1 e2] := layers_nth el hl; rewrite e1 in hc; rewrite e2 in ht; case: hc => <-; case: ht => <-.
have d1 := nth_both i1 hk hl; have d2 := nth_both i2 hk hl; split; first exact: d2.
have -> : (conv_of l).2 = is_epzi lt.1 by rewrite d1.
by move=> z; reflexivity.
Qed.

Definition em3 s w (convs : seq (conv3 (ff_y s * ff_x s))) (r : sp_result (ff_y s * ff_x s)) fields : Prop :=
  let kx := kx_tiled s w in let ky := ky_tiled s w in
  forall dc ds, directions (ff_y s * ff_x s) kx ky dc ds -> forall px py rx ry rz,
  let em := em_field (k0_of w) kx ky px py rx ry rz (thickness s) convs (n_top s) (n_bot s) (theta s) in
  [/\ em (psi s) dc ds (res r) (fields (T1_res r) px py rx ry rz),
      em (RtoC (PI / 2)) dc ds (res_te_inc r) (fields (T1_te r) px py rx ry rz)
    & em (RtoC 0) dc ds (res_tm_inc r) (fields (T1_tm r) px py rx ry rz)].

Lemma em_solve_2d s w convs r infos : physical s -> solve_2d pinv eig false s w convs = Some (r, infos) ->
  em3 w convs r (fun T1 => field_2d w (kx_tiled s w) (ky_tiled s w) T1 infos).
Proof.
move=> hp hs kx ky dc ds hd px py rx ry rz em.
have [[[_ a1] _] [[_ a2] _] [[_ a3] _]] := bvp_solve_2d heig hp hs hd; have [b1 b2 b3] := flow_solve_2d hp hs hd.
by split; [exact: em_2d hs b1 a1|exact: em_2d hs b2 a2|exact: em_2d hs b3 a3].
Qed.
Lemma em_solve_conical s w convs r infos : physical s -> (forall c, List.In c (used s convs) -> line_convs c) ->
  solve_1d_conical pinv eig false s w convs = Some (r, infos) ->
  em3 w convs r (fun T1 => field_conical w (kx_tiled s w) (ky_tiled s w) T1 infos).
Proof.
move=> hp hl hs kx ky dc ds hd px py rx ry rz em.
have [[[_ a1] _] [[_ a2] _] [[_ a3] _]] := bvp_solve_conical heig hp hl hs hd; have [b1 b2 b3] := flow_solve_conical hp hs hd.
by split; [exact: em_conical hs b1 a1|exact: em_conical hs b2 a2|exact: em_conical hs b3 a3].
Qed.

Lemma report_inj n (a b c a' b' c' : option (diffraction n)) : Report a b c = Report a' b' c' -> [/\ a = a', b = b' & c = c'].
Proof.
case=> h1 h2 h3.
have inj := Eqdep_dec.inj_pair2_eq_dec _ PeanoNat.Nat.eq_dec.
by split; [exact: inj h1|exact: inj h2|exact: inj h3].
Qed.

Definition the_report (x : memo * outcome) : report := if x.2 is Solved r then r else @Report 0 None None None.
Lemma solved_inj (m m' : memo) r r' : (m, Solved r) = (m', Solved r') -> m = m' /\ r = r'.
Proof. by move=> h; split; [exact (congr1 fst h)|exact (congr1 the_report h)]. Qed.

(** What is left in the object by a solve. *)
Lemma conv_solve_left o o1 fx fy cs th p out : fto_of o = Some (fx, fy) -> convs_of pinv o fx fy = Some cs -> o_theta o = Some th ->
  period_of o = Some p -> conv_solve pinv eig o = (o1, Solved out) -> exists m,
  [/\ o1 = set_memo (grating_of o fy) m o, solve_with pinv eig o th p cs (grating_of o fy) = (m, Solved out), reqb (o_wavelength o) 0 = false
    & exists2 g, grating_of o fy = Some g & promised o g].
Proof.
move=> ef ec et ep; have hg := grating_promised ef ec; rewrite /conv_solve ef ec et ep; case: (reqb _ _) => //.
by case: (solve_with _ _ _ _ _ _ _) => m ou [<- <-]; exists m.
Qed.

Lemma field_obj_sp o o1 fx fy (cs : seq (conv3 (fy.*2.+1 * fx.*2.+1))) th px py ts a b c :
  physical_obj o -> o_use_pinv o = false -> fto_of o = Some (fx, fy) -> convs_of pinv o fx fy = Some cs -> o_theta o = Some th ->
  period_of o = Some (px, py) -> o_thickness o = A1 ts ->
  conv_solve pinv eig o = (o1, Solved (@Report (fy.*2.+1 * fx.*2.+1) (Some a) (Some b) (Some c))) ->
  let w := o_wavelength o in let s := setup_of o fx fy th (px, py) ts in let kx := kx_tiled s w in let ky := ky_tiled s w in
  forall dc ds, directions (fy.*2.+1 * fx.*2.+1) kx ky dc ds -> forall rx ry rz sa sb sc, exists fa fb fc,
  calculate_field o1 rx ry rz (sa, sb, sc) =
    FieldOf (FieldSp ((if sa then [:: fa] else [::]) ++ (if sb then [:: fb] else [::]) ++ (if sc then [:: fc] else [::]))) /\
  let em ps := em_field (k0_of w) kx ky px py rx ry rz ts cs (o_ntop o) (o_nbot o) th ps dc ds in
  [/\ em (o_psi o) a fa, em (RtoC (PI / 2)) b fb & em (RtoC 0) c fc].
Proof.
move=> hp hu ef ec et ep ets hs w s kx ky dc ds hd rx ry rz sa sb sc.
have [m [-> es hw [g eg pg]]] := conv_solve_left ef ec et ep hs; rewrite eg.
have hphys : physical s by exact: physical_setup.
rewrite /calculate_field; change (fto_of (set_memo (Some g) m o)) with (fto_of o); rewrite ef.
change (o_theta (set_memo (Some g) m o)) with (o_theta o); rewrite et.
change (period_of (set_memo (Some g) m o)) with (period_of o); rewrite ep.
change (o_wavelength (set_memo (Some g) m o)) with w; rewrite hw.
change (o_memo (set_memo (Some g) m o)) with m.
move: es; rewrite eg /solve_with hu ets; case: ifP => _.
  by move=> /solved_inj [_] /(congr1 (fun r : report => let: Report _ a _ _ := r in isSome a)).
case: (o_algo o) => //; case: g eg pg => [|[|g]] eg pg.
- by case: (solve_1d _ _ _ _ _ _) => [[[d T1] infos]|] // /solved_inj [_] /(congr1 (fun r : report => let: Report _ _ a _ := r in isSome a)).
- have [nx [ls [hm ho]]] : exists nx ls, o_mtype o = Some false /\ o_cell o = CRaster 1 nx ls.
    by inversion pg as [|nx ls h1 h2 _| |]; exists nx, ls.
  case e1: (solve_1d_conical _ _ _ _ _ _) => [[d infos]|] // /solved_inj [<-] /report_inj [[<-] [<-] [<-]].
  have hl c' : List.In c' (used s cs) -> line_convs c' by move=> hc; exact: (convs_line hm ho hu ec (In_take hc)).
  have [h1 h2 h3] := em_solve_conical hphys hl e1 hd px py rx ry rz.
  do 3 eexists; split; last by split; [exact h1|exact h2|exact h3].
  rewrite eqxx; congr (FieldOf (FieldSp _)).
  by rewrite /selected !map_cat; case: sa sb sc => [] [] [].
- have e2 : (if solve_2d pinv eig false s w cs is Some (r, infos) then (M2d r infos, Solved (Report (Some (res r)) (Some (res_te_inc r)) (Some (res_tm_inc r)))) else (MNone, Raised)) =
    (m, Solved (@Report (fy.*2.+1 * fx.*2.+1) (Some a) (Some b) (Some c))) -> exists d infos, [/\ solve_2d pinv eig false s w cs = Some (d, infos),
     m = M2d d infos, a = res d, b = res_te_inc d & c = res_tm_inc d].
    by case: (solve_2d _ _ _ _ _ _) => [[d infos]|] // /solved_inj [<-] /report_inj [[<-] [<-] [<-]]; exists d, infos.
  move=> /e2 [d [infos [e1 -> -> -> ->]]].
  have [h1 h2 h3] := em_solve_2d hphys e1 hd px py rx ry rz.
  do 3 eexists; split; last by split; [exact h1|exact h2|exact h3].
  rewrite eqxx; congr (FieldOf (FieldSp _)).
  by rewrite /selected !map_cat; case: sa sb sc => [] [] [].
Qed.

Lemma field_obj_1d o o1 fx fy (cs : seq (conv3 (fy.*2.+1 * fx.*2.+1))) th px py ts (a : diffraction fx.*2.+1) :
  physical_obj o -> o_use_pinv o = false -> fto_of o = Some (fx, fy) -> convs_of pinv o fx fy = Some cs -> o_theta o = Some th ->
  period_of o = Some (px, py) -> o_thickness o = A1 ts ->
  conv_solve pinv eig o = (o1, Solved (Report (Some a) None None)) ->
  let w := o_wavelength o in let kx := kx_vector (setup_of o fx fy th (px, py) ts) w in
  forall rx ry rz sel, exists2 f, calculate_field o1 rx ry rz sel = FieldOf (Field1d f) &
  em_field_1d (o_pol o == 1) (k0_of w) kx px rx rz ts [seq crop3 fx.*2.+1 c | c <- cs] (o_ntop o) (o_nbot o) th a f.
Proof.
move=> hp hu ef ec et ep ets hs w kx rx ry rz sel.
have [m [-> es hw [g eg pg]]] := conv_solve_left ef ec et ep hs; rewrite eg.
rewrite /calculate_field; change (fto_of (set_memo (Some g) m o)) with (fto_of o); rewrite ef.
change (o_theta (set_memo (Some g) m o)) with (o_theta o); rewrite et.
change (period_of (set_memo (Some g) m o)) with (period_of o); rewrite ep.
change (o_wavelength (set_memo (Some g) m o)) with w; rewrite hw.
change (o_memo (set_memo (Some g) m o)) with m.
change (o_pol (set_memo (Some g) m o)) with (o_pol o).
move: es; rewrite eg /solve_with hu ets; case: ifP => _.
  by move=> /solved_inj [_] /(congr1 (fun r : report => let: Report _ a _ _ := r in isSome a)).
case: (o_algo o) => //; case: g eg pg => [|[|g]] eg pg.
- case e1: (solve_1d _ _ _ _ _ _) => [[[d T1] infos]|] // /solved_inj [<-] /report_inj [[<-] _ _]; rewrite eqxx.
  have epol : o_pol o = 0 \/ o_pol o = 1 by inversion pg.
  have h := em_solve_1d px rx rz e1.
  eexists; first reflexivity.
  have ep1 : pol_flag (o_pol o) = Re (o_pol o).
    by rewrite /pol_flag; case: epol => ->; rewrite ?eqxx // (negPf (oner_neq0 _)).
  have ep2 : (o_pol o == 1) = is_tm (Re (o_pol o)).
    by case: epol => ->; rewrite ?eqxx ?is_tm1 // is_tm0 eq_sym (negPf (oner_neq0 _)).
  rewrite ep1 ep2; exact h.
- by case: (solve_1d_conical _ _ _ _ _ _) => [[d infos]|] // /solved_inj [_] /(congr1 (fun r : report => let: Report _ _ a _ := r in isSome a)).
- by case: (solve_2d _ _ _ _ _ _) => [[d infos]|] // /solved_inj [_] /(congr1 (fun r : report => let: Report _ _ a _ := r in isSome a)).
Qed.
End Solve.
