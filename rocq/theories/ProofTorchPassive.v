(** Passivity of the PyTorch solver object: every component without gain, pseudo-inverses included. *)
From Coq Require Import Reals ZArith Lra Psatz FunctionalExtensionality.
From mathcomp Require Import all_ssreflect ssralg matrix.
From Coquelicot Require Import Complex.
From Verif Require Import Cplx Mx Spec SpecSolve SpecLayer SpecFourier SpecTorch SpecVec SpecPassive ModelTM ModelFourier ModelVec ModelField ModelState ModelTorch
  ModelTorchObj SpecState SpecTorchObj SpecTorchPassive ProofSetup ProofEff ProofPinv ProofConv ProofFourier ProofCell ProofRules ProofLayer ProofVec ProofState2 ProofEnd ProofEnd2
  ProofInvert ProofPassive2 ProofPassive3 ProofTorch3 ProofTorchObj ProofTorchObj2.

Set Implicit Arguments.
Unset Strict Implicit.
Unset Printing Implicit Defensive.
Local Open Scope ring_scope.
Import GRing.Theory.

(** ** The pseudo-inverse of a matrix without gain has no gain *)
Lemma semi_ker n u (A : 'M[C]_n) (v w : 'cV[C]_n) : u != 0 -> semi u A -> A *m v = 0 -> adj v *m A *m w = 0.
Proof.
move=> u0 h e; apply/matrixP => i j; rewrite !ord1 [RHS]mxE; set z := (X in X = _).
pose Q := Re (u * (adj w *m A *m w) ord0 ord0)%R.
have hQ : (0 <= Q)%coqR by have := h (fun i => w i ord0); rewrite formE.
have key (t : C) : (0 <= Re (u * t * z)%R + nrm2 t * Q)%coqR.
  have := h (fun i => (v + t *: w) i ord0); rewrite formE.
  have -> : adj (v + t *: w) *m A *m (v + t *: w) = t *: (adj v *m A *m w) + (t * conj t) *: (adj w *m A *m w).
    by rewrite -!mulmxA [A *m (_ + _)]mulmxDr e add0r -!scalemxAr adjD adjZ mulmxDl -!scalemxAl scalerDr scalerA.
  have -> (a b : C) (X Y : 'M[C]_1) : (a *: X + b *: Y) ord0 ord0 = a * X ord0 ord0 + b * Y ord0 ord0 by rewrite !mxE.
  rewrite mul_conj mulrDr ReD mulrA -/z mulrCA ReZ; exact: id.
have hs : (0 < / (Q + 1))%coqR by apply: Rinv_0_lt_compat; lra.
have := key (- (RtoC (/ (Q + 1)) * conj (u * z))).
have -> : u * - (RtoC (/ (Q + 1)) * conj (u * z)) * z = RtoC (- / (Q + 1) * nrm2 (u * z)).
  by rewrite RtoC_mul -mul_conj RtoC_opp; cring.
have -> : nrm2 (- (RtoC (/ (Q + 1)) * conj (u * z)))%R = (/ (Q + 1) * / (Q + 1) * nrm2 (u * z)%R)%coqR.
  by rewrite /nrm2; case: (u * z) => x y; rewrite /Re /Im /=; ring.
rewrite Re_RtoC => k.
have n0 := nrm2_ge0 (u * z).
have e1 : (/ (Q + 1) * (Q + 1) = 1)%coqR by apply: Rinv_l; lra.
have : (nrm2 (u * z)%R <= 0)%coqR.
  set s := (/ (Q + 1))%coqR in hs k e1; set N := nrm2 _ in k n0 *.
  have e2 : (- s * N + s * s * N * Q = - (s * s * N))%coqR.
    have -> : (- s * N)%coqR = (- (s * (Q + 1)) * s * N)%coqR by rewrite e1; ring.
    by ring.
  have hss := Rmult_lt_0_compat _ _ hs hs; case: (Rle_lt_dec N 0) => // hN.
  have := Rmult_lt_0_compat _ _ hss hN; lra.
move=> hN; have /nrm2_eq0 /eqP : nrm2 (u * z) = 0%coqR by lra.
by rewrite mulf_eq0 (negbTE u0) => /eqP.
Qed.

Lemma semi_adj n u (A : 'M[C]_n) : semi u A -> semi (conj u) (adj A).
Proof.
move=> h f; have := h f; pose v : 'cV[C]_n := \col_i f i.
have E (B : 'M[C]_n) : form B f = (adj v *m B *m v) ord0 ord0.
  by rewrite -formE; apply: eq_bigr => i _; apply: eq_bigr => j _; rewrite !mxE.
have -> : form (adj A) f = conj (form A f) by rewrite !E -adjE !adjM adjK mulmxA.
by rewrite -conjM Re_conj.
Qed.

Lemma herm_adj n (A : 'M[C]_n) : hermitian A -> adj A = A.
Proof. by move=> h; apply/matrixP => i j; rewrite adjE -h. Qed.

Lemma semi_ker_mx n u (A B : 'M[C]_n) : u != 0 -> semi u A -> A *m B = 0 -> adj B *m A = 0.
Proof.
move=> u0 h e; apply/matrixP => i j.
have e' : A *m col i B = 0 by rewrite colE mulmxA e mul0mx.
have := semi_ker (delta_mx j ord0) u0 h e'; rewrite -colE => /matrixP /(_ ord0 ord0).
rewrite [in RHS]mxE => k; rewrite [RHS]mxE -k mxE; rewrite !mxE; apply: eq_bigr => l _.
by rewrite !adjE mxE.
Qed.

Lemma semi_pinv n u (A P : 'M[C]_n) : u != 0 -> P *m A *m P = P -> A *m P *m A = A -> hermitian (A *m P) -> hermitian (P *m A) ->
  semi u A -> semi (conj u) P.
Proof.
move=> u0 e2 e1 /herm_adj h1 /herm_adj h2 h.
have k1 : adj A *m (1%:M - A *m P) = 0.
  by rewrite -[X in _ *m X]adjK adjB adj1 h1 -adjM mulmxBl mul1mx e1 subrr adj0.
have k2 : A *m P *m adj A = adj A.
  have := semi_ker_mx _ (semi_adj h) k1; rewrite conj_eq0 adjB adj1 h1 => /(_ u0) /eqP.
  by rewrite mulmxBl mul1mx subr_eq0 => /eqP.
have k3 : A *m P *m P = P.
  have eP : P = adj A *m adj P *m P by rewrite -adjM h2.
  by rewrite [X in _ *m X]eP !mulmxA k2 -!mulmxA mulmxA -eP.
have k4 : adj P *m adj A *m P = P by rewrite -adjM h1 k3.
move=> f; pose v : 'cV[C]_n := \col_i f i; pose w := P *m v.
have -> : form P f = conj (form A (fun i => w i ord0)).
  have -> : form P f = (adj v *m P *m v) ord0 ord0.
    by rewrite -formE; apply: eq_bigr => i _; apply: eq_bigr => j _; rewrite !mxE.
  by rewrite formE -adjE !adjM !adjK -{1}k4 !mulmxA.
rewrite -conjM Re_conj; exact: h.
Qed.

Section Passive.
Variable pinv : forall n, 'M[C]_n -> 'M[C]_n.
Hypothesis hmp : moore_penrose pinv.

Lemma semi_t_inv up n u (A : 'M[C]_n) : u != 0 -> semi u A -> semi (conj u) (t_inv pinv up A).
Proof.
move=> u0 h; have [h1 h2 h3 h4] := hmp A.
have hp := semi_pinv u0 h2 h1 h3 h4 h.
by rewrite /t_inv; case: up => //; case: ifP => // hu; exact: semi_inv.
Qed.

Lemma ci0 : ci != 0.
Proof. by apply/eqP => /(congr1 Im) /=; rewrite /ci /Im /=; lra. Qed.

Lemma t_three_passive up n (z y x : option 'M[C]_n) c : (forall M, z = Some M -> semi ci M) -> (forall M, y = Some M -> semi ci M) ->
  (forall M, x = Some M -> semi ci M) -> t_three_convs pinv up z y x = Some c -> passive_convs c.
Proof.
rewrite /t_three_convs; case: z => [z|] // hz; case: y => [y|] // hy; case: x => [x|] // hx [<-] v.
have {}hz := semi_t_inv up ci0 (hz _ erefl) (fun i => v i ord0).
have {}hy := hy _ erefl (fun i => v i ord0); have {}hx := hx _ erefl (fun i => v i ord0).
rewrite Re_ci in hx; rewrite Re_ci in hy; rewrite conjI mulNr ReN Re_ci in hz; rewrite !quad_form; split; lra.
Qed.

Lemma t_cfs_semi fx fy l cx cy M : (0 < rows l)%N -> (0 < cols l)%N -> all_px passive_px l -> cx || cy ->
  t_cfs cx cy fx fy l = Some M -> semi ci M.
Proof.
move=> hr hc h hab; rewrite /t_cfs.
have hl := all_pick_rows (all_pick_cols (all_flip h)).
move: (compression_ok hr hc) hl; rewrite /=.
set x := ends _ _; set y := ends _ _ => -[kx ky _ _] hl.
have px0 : last 0%coqR x <> 0%coqR by case: kx => _ ->; lra.
have py0 : last 0%coqR y <> 0%coqR by case: ky => _ ->; lra.
apply: four2d_semi => //; try exact: cfs_in_range; try exact: cfs_reads.
- exact: cfs_keeps_sign kx.
- exact: cfs_keeps_sign ky.
by move=> i j hi hj; apply: hl; [move: hi | move: hj]; rewrite /= /ends size_map.
Qed.

Lemma t_dfs_semi e fx fy l cx cy M : (0 < rows l)%N -> (0 < cols l)%N -> all_px passive_px l -> cx || cy ->
  t_dfs e cx cy fx fy l = Some M -> semi ci M.
Proof.
move=> hr hc h hab; rewrite /t_dfs.
have [h1 h2] := enlarge_size e fx fy hr hc.
have hl := all_enlarge (e := e) (fto_x := fx) (fto_y := fy) h.
set l' := enlarge _ _ _ _ in h1 h2 hl *.
have hx : (fx.*2.+1 <= cols l')%N by apply: dbl_lt.
have hy : (fy.*2.+1 <= rows l')%N by apply: dbl_lt.
apply: four2d_semi => //; try exact: fft_in_range; try exact: fft_reads; exact: fft_keeps_sign.
Qed.

Lemma vec_semi fx fy l x y pxx pyy cx cy M : SpecFourier.covers x pxx -> SpecFourier.covers y pyy -> rows l = size y -> cols l = size x ->
  all_px passive_px l -> cx || cy -> cfs2d (eps_of l) x y cx cy fx fy = Some M -> semi ci M.
Proof.
move=> kx ky er ec h hab.
have px0 : last 0%coqR x <> 0%coqR by case: kx => _ ->; lra.
have py0 : last 0%coqR y <> 0%coqR by case: ky => _ ->; lra.
apply: four2d_semi => //; try exact: cfs_in_range; try exact: cfs_reads.
- exact: cfs_keeps_sign kx.
- exact: cfs_keeps_sign ky.
by move=> i j hi hj; apply: h; rewrite ?er ?ec.
Qed.

(** The grid of a vector layer. *)
Lemma t_vector_grid px py b objs l x y : general_position px py (map fst objs) -> t_vector_layer px py b objs = Some (l, x, y) ->
  SpecFourier.covers x px /\ SpecFourier.covers y py.
Proof.
move=> hg; have [r [cl [rl [e _ g1 g2 _]]]] := vector_layer_painted 0 hg.
have [x0 y0] := x_edges_ge0 hg; case: (hg) => -[px0 py0] _ _ _.
have : SpecFourier.covers cl px /\ SpecFourier.covers rl py by split; [exact: grid_covers g1|exact: grid_covers g2].
move: e; rewrite /vector_layer /t_vector_layer; case: (grid_lists _) => [[[p rl'] cl'] ds].
case: (paint_all _ _ _ _) => [?|] // [_ <- <-]; case: ifP => _; case: (t_paint_all _ _ _ _) => [?|] //.
- by move=> h [_ <- <-].
- by move=> h [_ <- <-].
Qed.

Lemma t_convs_passive o fx fy cs : cell_all passive_index (t_cell o) -> t_general_position o ->
  t_convs_of pinv o fx fy = Some cs -> forall c, List.In c cs -> passive_convs c.
Proof.
move=> hr hg ec c hc; case em: (o_mtype (t_attrs o)) => [[]|]; last by move: ec; rewrite /t_convs_of em; case: (t_cell o).
- move: ec hg; rewrite /t_convs_of em /t_general_position; case: (t_cell o) hr => // ins hr.
  case ep: (period_of _) => [[px py]|] //; case ev: (t_vector_layers _ _ _) => [vs|] // ec hg.
  have [[[l x] y] hin hl] := conv_all_in ec hc.
  have [b [objs [h1 h2]]] := t_layers_in ev hin; have [h3 h4] := hr _ _ h1.
  have [|k1 k2] := t_vector_px (P := passive_index) h3 _ h2.
    move=> q hq; have [s hs h5] := In_flatten hq; have [ob h6 es] := In_map hs.
    by move: h5; rewrite es /t_draw => h7; have [r0 _ ->] := In_map h7; exact: (h4 _ h6).
  have [kx ky] := t_vector_grid (hg _ _ _ h1 erefl) h2.
  move: hl k1 k2; rewrite /layer_all /layer_dim /t_conv_vector; case: (components l) => [[lx ly] lz] hl [a1 a2 a3] [[r1 r2 r3] [c1 c2 c3]].
  have P l' : all_px passive_index l' -> all_px passive_px l' by apply: all_impl => z; exact: passive_pxE.
  by apply: (t_three_passive _ _ _ hl) => M e; [apply: (vec_semi kx ky _ _ _ _ e)|apply: (vec_semi kx ky _ _ _ _ e)|apply: (vec_semi kx ky _ _ _ _ e)] => //; exact: P.
- have [ny [nx [ls [el ny0 nx0 eo]]]] := raster_convs em ec.
  have P l' : all_px passive_index l' -> all_px passive_px l' by apply: all_impl => z; exact: passive_pxE.
  case: eo => eo; have [l hin hl] := conv_all_in eo hc; have [h1 h2] := layers_cell el hr hin;
    move: hl h1 h2; rewrite /layer_all /layer_dim /conv_by; case: (components l) => [[lx ly] lz] hl [[r1 r2 r3] [c1 c2 c3]] [a1 a2 a3].
  + by apply: (t_three_passive _ _ _ hl) => M e; apply: (t_dfs_semi _ _ _ _ e); rewrite ?r1 ?r2 ?r3 ?c1 ?c2 ?c3 //; exact: P.
  + by apply: (t_three_passive _ _ _ hl) => M e; apply: (t_cfs_semi _ _ _ _ e); rewrite ?r1 ?r2 ?r3 ?c1 ?c2 ?c3 //; exact: P.
Qed.
End Passive.

(** ** Line gratings *)
Section Line.
Variable pinv : forall n, 'M[C]_n -> 'M[C]_n.
Variables (n : nat) (d : bool -> bool -> raster -> option 'M[C]_n) (ny nx : nat).
Hypothesis d_def : forall u cx cy l, rows l = ny -> cols l = nx -> nrm2 u = 1%coqR ->
  all_px (fun z => 0 < Re (u * z ^+ 2)%R)%coqR l -> cx || cy -> exists2 M, d cx cy l = Some M & coercive u M.
Hypothesis d_line : forall l M, rows l = ny -> cols l = nx -> y_invariant l -> d true false l = Some M -> d true true l = Some M.

Lemma by_line_half l c : layer_dim ny nx l -> half_plane_of ny nx (px (components l).2) -> (components l).1.2 = (components l).2 ->
  y_invariant (components l).2 -> conv_by pinv d false l = Some c -> line_convs c.
Proof.
rewrite /layer_dim /conv_by; case: (components l) => [[lx ly] lz] [[r1 r2 r3] [c1 c2 c3]] /= [u u1 h3] e0 hy.
rewrite /t_three_convs e0; case ez: (d true true lz) => [z|] //; case ey: (d true false lz) => [y|] //.
case: (d false true lx) => [x|] // [<-].
have := d_line r3 c3 hy ey; rewrite ez => -[<-].
have hp : all_px (fun z => 0 < Re (u * z ^+ 2)%R)%coqR lz by move=> i j hi hj; apply: h3; rewrite -?r3 -?c3.
have [M' e' hM] := @d_def u true true lz r3 c3 u1 hp isT.
move: ez; rewrite e' => -[<-]; rewrite /line_convs /t_inv (coercive_unit hM).
exact: mulVmx (coercive_unit hM).
Qed.
End Line.

Section Object.
Variable pinv : forall n, 'M[C]_n -> 'M[C]_n.
Variable eig : forall n, 'M[C]_n -> 'rV[C]_n * 'M[C]_n.

Lemma t_convs_line_half o fx fy cs : half_plane_tcell (t_cell o) -> o_use_pinv (t_attrs o) = false ->
  o_mtype (t_attrs o) = Some false -> t_rows (t_cell o) = 1%N -> isotropic (t_cell o) ->
  t_convs_of pinv o fx fy = Some cs -> forall c, List.In c cs -> line_convs c.
Proof.
move=> hr hu em h1 hi ec c hc; have [ny [nx [ls [el ny0 nx0 eo]]]] := raster_convs em ec; rewrite hu in eo.
have eny : ny = 1%N by move: el h1; case: (t_cell o) => //= ? ? ? [<- _ _].
rewrite {}eny {ny0} in el eo.
have key l : List.In l ls -> (components l).1.2 = (components l).2 /\ y_invariant (components l).2.
  move: el hi; case: (t_cell o) => [|ny' nx' fs|ny' nx' fs|ins|] //= [-> -> <-] hi hl; have [f hf ->] := In_map hl => /=.
    by split=> // -[|i].
  split; last by case.
  congr Raster; apply: functional_extensionality => i; apply: functional_extensionality => j; by have [_] := hi f hf i j.
have half l : List.In l ls -> layer_dim 1 nx l /\ half_plane_of 1 nx (px (components l).2).
  move=> hl; have [k1 k2] := half_layers el hr hl; split=> //; move: k2; by case: (components l) => [[lx ly] lz] [].
case: eo => eo; have [l hin hl] := conv_all_in eo hc; have [k1 k2] := half l hin; have [k3 k4] := key l hin;
  apply: (by_line_half _ _ k1 k2 k3 k4 hl).
- by move=> u cx cy l0 e1 e2; apply: dfs_def; rewrite ?e1 ?e2.
- by move=> l0 M e1 e2; apply: t_dfs_line; rewrite ?e1 ?e2.
- by move=> u cx cy l0 e1 e2; apply: cfs_def; rewrite ?e1 ?e2.
- by move=> l0 M e1 e2; apply: t_cfs_line; rewrite ?e1 ?e2.
Qed.

Lemma plain_passive o m r : eigen_oracle eig -> moore_penrose pinv -> let a := t_attrs o in physical_obj a ->
  cell_all passive_index (t_cell o) -> t_general_position o -> (t_rows (t_cell o) = 1%N -> half_plane_tcell (t_cell o)) ->
  isotropic (t_cell o) \/ anisotropic (t_cell o) -> (0 < o_wavelength a)%coqR -> thick_obj a -> o_use_pinv a = false ->
  plain_run pinv eig o m r -> report_all power_bounded r.
Proof.
move=> heig hmp a hp hr hgp hh hia hw ht hu [fx [fy [cs [g [th [p [[ef ec eg et ep] [ew hg es]]]]]]]].
have hl := t_convs_passive hmp hr hgp ec.
have [g0 g1 _] := grating_cases eg (convs_mtype ec).
have hphys ts : physical (setup_of (numpy_twin CNone o) fx fy th p ts) by exact: (@physical_setup a).
have hpsi : is_real (- o_psi a) by case: hp => _ _ _ [q ->] _; exists (- q)%coqR; rewrite RtoC_opp.
move: es; rewrite /solve_with /= -/a hu; case: ifP => _; first by case=> _ <-; split.
case: (o_algo a) => //; case eth: (o_thickness a) => [|ts|] //.
have hts t : List.In t ts -> (0 <= t)%coqR by exact: ht eth.
case: g eg hg g0 g1 => [|[|[|g]]] // eg _ g0 g1.
- have [efy eph] := g0 erefl.
  case e1: (solve_1d _ _ _ _ _ _) => [[[d T1] infos]|] // [_ <-]; split=> // d' [<-].
  rewrite phi_zero in e1; last exact: eph.
  have h1 : physical (no_phi (setup_of (numpy_twin CNone o) fx fy th p ts)).
    by have [k1 k2 k3 k4 k5] := hphys ts; split.
  apply: (passive_solve_1d heig h1 _ _ _ _ e1) => //.
  move=> c hc; have [c0 h0 ->] := In_map (In_take hc); apply: crop3_passive; last exact: hl.
  by rewrite efy mul1n.
- have [hm h1 ha] := g1 erefl.
  have hi : isotropic (t_cell o) by case: hia => // /aniso_true; rewrite ha.
  case e1: (solve_1d_conical _ _ _ _ _ _) => [[d infos]|] // [_ <-].
  have [||k1 k2 k3] := passive_solve_conical heig (hphys ts) hpsi hw _ _ e1 => //.
    by move=> c hc; split; [exact: hl (In_take hc) | exact: (t_convs_line_half (hh h1) hu hm h1 hi ec (In_take hc))].
  by split=> d' [<-].
- case e1: (solve_2d _ _ _ _ _ _) => [[d infos]|] // [_ <-].
  have [||k1 k2 k3] := passive_solve_2d heig (hphys ts) hpsi hw _ _ e1 => //.
    by move=> c hc; exact: hl (In_take hc).
  by split=> d' [<-].
Qed.

Lemma same_bounded n (a b : diffraction n) : same_efficiencies a b -> power_bounded b -> power_bounded a.
Proof.
move=> h; rewrite /power_bounded.
have -> : total (de_ri a) = total (de_ri b) by apply: eq_bigr => i _; have [[_ _ ->]] := h i.
by have -> : total (de_ti a) = total (de_ti b) by apply: eq_bigr => i _; have [_ [_ _ ->]] := h i.
Qed.

Lemma t_passive_obj o m r (b : R) : eigen_oracle eig -> moore_penrose pinv -> let a := t_attrs o in
  physical_obj a -> o_nbot a = RtoC b -> (0 < b)%coqR ->
  cell_all passive_index (t_cell o) -> t_general_position o -> (t_rows (t_cell o) = 1%N -> half_plane_tcell (t_cell o)) ->
  isotropic (t_cell o) \/ anisotropic (t_cell o) -> (0 < o_wavelength a)%coqR -> thick_obj a -> o_use_pinv a = false ->
  plain_run pinv eig o m r -> no_flat_memo m ->
  exists o' r', [/\ t_conv_solve pinv eig o = (o', Solved r'), report_all power_bounded r' & report_all eff_in_unit r'].
Proof.
move=> heig hmp a hp hb b0 hr hgp hh hia hw ht hu hrun hf.
have hbr : is_real (o_nbot a) by exists b.
have hup : o_use_pinv a = true -> pinv_oracle pinv by rewrite hu.
have [o' [r' [e hs]]] := plain_same hp hbr hup hrun hf.
have h1 := same_report_all (P := power_bounded) (fun n a b => @same_bounded n a b) hs (plain_passive heig hmp hp hr hgp hh hia hw ht hu hrun).
have h2 := same_report_all (P := nonneg_eff) (fun n a b => @same_nonneg n a b) hs (plain_nonneg hp hb b0 hrun).
by exists o', r'; split=> //; exact: unit_bounded.
Qed.
End Object.
