(** Passivity from the public attributes: a unit cell without gain gives convolution matrices without gain. *)
From Coq Require Import Reals Lra Psatz FunctionalExtensionality.
From mathcomp Require Import all_ssreflect ssralg matrix.
From Coquelicot Require Import Complex.
From Verif Require Import Cplx Mx Spec SpecFourier SpecSolve SpecLayer SpecVec SpecState SpecPassive ModelTM ModelFourier ModelVec
  ModelState ProofFourier ProofConv ProofCell ProofLayer ProofRules ProofWell ProofEff ProofInvert ProofVec ProofState2 ProofEnd ProofPassive2.

Set Implicit Arguments.
Unset Strict Implicit.
Unset Printing Implicit Defensive.
Local Open Scope ring_scope.
Import GRing.Theory.

Definition semi n (u : C) (A : 'M[C]_n) : Prop := forall v, (0 <= Re (u * form A v)%R)%coqR.

Lemma semi_inv n u (A : 'M[C]_n) : A \in unitmx -> semi u A -> semi (conj u) (invmx A).
Proof.
move=> ua h f; pose v : 'cV[C]_n := \col_i f i; pose w := invmx A *m v.
have vE : v = A *m w by rewrite /w invmx_lK.
have -> : form (invmx A) f = conj (form A (fun i => w i ord0)).
  have -> : form (invmx A) f = form (invmx A) (fun i => v i ord0).
    by apply: eq_bigr => i _; apply: eq_bigr => j _; rewrite !mxE.
  have fc (B : 'M[C]_n) (z : 'cV[C]_n) : conj ((adj z *m B *m z) ord0 ord0) = (adj z *m adj B *m z) ord0 ord0.
    by rewrite -adjE !adjM adjK mulmxA.
  by rewrite !formE fc vE adjM -!mulmxA (mulKmx ua).
rewrite -conjM Re_conj; exact: h.
Qed.

Lemma semi_scalar u (z : C) : (0 <= Re (u * z)%R)%coqR -> semi u (z%:M : 'M[C]_1).
Proof.
move=> h v; rewrite -scalemx1 formZ form1.
have -> : u * (z * RtoC (norms v)) = RtoC (norms v) * (u * z) by rewrite mulrA mulrC.
by rewrite ReZ; apply: Rmult_le_pos => //; exact: norms_ge0.
Qed.

Lemma half_inv u (z : C) : (0 <= Re (u * z)%R)%coqR -> (0 <= Re (conj u * z^-1)%R)%coqR.
Proof.
move=> h; case: (eqVneq z 0) => [->|z0]; first by rewrite invr0 mulr0; exact: Rle_refl.
have n0 : (0 < nrm2 z)%coqR.
  have := nrm2_ge0 z; case: (Req_EM_T (nrm2 z) 0) => [/nrm2_eq0 e|]; last lra.
  by rewrite e eqxx in z0.
have -> : z^-1 = RtoC (/ nrm2 z) * conj z.
  rewrite RtoC_inv; last lra.
  by rewrite -mul_conj invfM -mulrA mulVf ?mulr1 // conj_eq0.
rewrite mulrCA ReZ -conjM Re_conj; apply: Rmult_le_pos => //; apply: Rlt_le; exact: Rinv_0_lt_compat.
Qed.

Section Layer.
Variables (tx ty : transform) (nx ny : nat) (cell : nat -> nat -> C) (fto_x fto_y : nat) (u : C).
Let ff_x := fto_x.*2.+1.
Let ff_y := fto_y.*2.+1.
Hypotheses (ix : in_range tx ff_x) (iy : in_range ty ff_y) (rx : reads tx nx)
  (sx : keeps_sign tx nx ff_x) (sy : keeps_sign ty ny ff_y)
  (hp : forall b a, (b < ny)%N -> (a < nx)%N -> (0 <= Re (u * cell b a)%R)%coqR).

Lemma toep_y_semi cy a : (a < nx)%N -> semi (if cy then u else conj u) (toep_y ty cell cy fto_y a).
Proof.
move=> ha.
pose z b := if cy then cell b a else (cell b a)^-1.
have -> : toep_y ty cell cy fto_y a = gather ty (fun i : 'I_ff_y => val i) (fun _ => ord0) (fun b => (z b)%:M : 'M[C]_1).
  apply/matrixP => i j; rewrite !mxE; congr ocoef.
  by apply: functional_extensionality => b; rewrite mxE.
apply: sy => [i|b P hb]; first exact: ltn_ord.
apply: semi_scalar; rewrite /z; have h := hp hb ha.
by case: cy {z} => //; exact: half_inv.
Qed.

Lemma four2d_semi cx cy M : cx || cy -> four2d tx ty nx ny cell cx cy fto_x fto_y = Some M -> semi u M.
Proof.
move=> hcc; rewrite four2dE //; case: ifP => // _; case: ifP => // /negbT hu.
have lt i : (i < ff_y * ff_x)%N -> (i %/ ff_x < ff_y)%N := @flat_div _ _ i.
have h : semi (if cx then u else conj u) (toep_xy tx ty cell cx cy fto_x fto_y).
  have -> : toep_xy tx ty cell cx cy fto_x fto_y =
    gather tx (fun i : 'I_(ff_y * ff_x) => (i %% ff_x)%N) (fun i => Ordinal (lt i (ltn_ord i)))
       (fact_y ty cell cx cy fto_y).
    apply/matrixP => i j; rewrite !mxE; congr ocoef.
    by apply: functional_extensionality => a; rewrite -entE.
  apply: sx => [i|a P ha]; first by rewrite ltn_mod.
  rewrite /fact_y; have := @toep_y_semi cy a ha.
  have : cx (+) cy -> toep_y ty cell cy fto_y a \in unitmx.
    move=> hx; move: hu; rewrite hx negbK => /allP; apply; by rewrite mem_iota.
  case: cx cy hcc {hu} => -[] //= _ hun hs.
  - by have := semi_inv (hun isT) hs; rewrite conjK => /(_ P).
  - by have := semi_inv (hun isT) hs => /(_ P).
case: cx hcc hu h => hcc hu h; first by case=> <-.
by rewrite /np_inv; case: ifP => // hun [<-]; have := semi_inv hun h; rewrite conjK.
Qed.
End Layer.

Lemma Re_ci z : Re (ci * z)%R = (- Im z)%coqR.
Proof. by case: z => x y; rewrite /ci /Re /Im /=; ring. Qed.
Lemma quad_form n (A : 'M[C]_n) v : quad A v = form A (fun i => v i ord0).
Proof. by []. Qed.

Lemma three_passive pinv n (f : bool -> bool -> option 'M[C]_n) c :
  (forall a b M, a || b -> f a b = Some M -> semi ci M) -> three_convs pinv false f = Some c -> passive_convs c.
Proof.
move=> h; rewrite /three_convs; case ez: (f true true) => [z|] //; case ey: (f true false) => [y|] //.
case ex: (f false true) => [x|] //; rewrite /meeinv; case: ifP => // hu [<-] v.
have hz := semi_inv hu (h true true _ isT ez) (fun i => v i ord0).
have hy := h true false _ isT ey (fun i => v i ord0); have hx := h false true _ isT ex (fun i => v i ord0).
rewrite Re_ci in hx; rewrite Re_ci in hy; rewrite conjI mulNr ReN Re_ci in hz; rewrite !quad_form; split; lra.
Qed.

Definition passive_px (n : C) : Prop := (0 <= Re (ci * n ^+ 2)%R)%coqR.
Lemma passive_pxE n : passive_index n -> passive_px n.
Proof. by rewrite /passive_index /passive_px Re_ci; lra. Qed.

Lemma continuous_passive pinv fto_x fto_y l c : (0 < rows l)%N -> (0 < cols l)%N -> all_px passive_px l ->
  conv_continuous pinv false fto_x fto_y l = Some c -> passive_convs c.
Proof.
move=> hr hc h; rewrite /conv_continuous.
have hl := all_pick_rows (all_pick_cols (all_flip h)).
move: (compression_ok hr hc) hl; rewrite /=.
set x := ends _ _; set y := ends _ _ => -[cx cy _ _] hl.
have px0 : last 0%coqR x <> 0%coqR by case: cx => _ ->; lra.
have py0 : last 0%coqR y <> 0%coqR by case: cy => _ ->; lra.
apply: three_passive => a b M hab; apply: four2d_semi => //; try exact: cfs_in_range; try exact: cfs_reads.
- exact: cfs_keeps_sign cx.
- exact: cfs_keeps_sign cy.
by move=> i j hi hj; apply: hl; [move: hi | move: hj]; rewrite /= /ends size_map.
Qed.

Lemma vector_passive pinv fto_x fto_y l x y pxx pyy c : SpecFourier.covers x pxx -> SpecFourier.covers y pyy -> rows l = size y -> cols l = size x ->
  all_px passive_px l -> conv_vector pinv false fto_x fto_y (l, x, y) = Some c -> passive_convs c.
Proof.
move=> cx cy er ec h; rewrite /conv_vector.
have px0 : last 0%coqR x <> 0%coqR by case: cx => _ ->; lra.
have py0 : last 0%coqR y <> 0%coqR by case: cy => _ ->; lra.
apply: three_passive => a b M hab; apply: four2d_semi => //; try exact: cfs_in_range; try exact: cfs_reads.
- exact: cfs_keeps_sign cx.
- exact: cfs_keeps_sign cy.
by move=> i j hi hj; apply: h; rewrite ?er ?ec.
Qed.

Lemma discrete_passive pinv e fto_x fto_y l c : (0 < rows l)%N -> (0 < cols l)%N -> all_px passive_px l ->
  conv_discrete pinv false e fto_x fto_y l = Some c -> passive_convs c.
Proof.
move=> hr hc h; rewrite /conv_discrete.
have [h1 h2] := enlarge_size e fto_x fto_y hr hc.
have hl := all_enlarge (e := e) (fto_x := fto_x) (fto_y := fto_y) h.
set l' := enlarge _ _ _ _ in h1 h2 hl *.
have hx : (fto_x.*2.+1 <= cols l')%N by apply: dbl_lt.
have hy : (fto_y.*2.+1 <= rows l')%N by apply: dbl_lt.
apply: three_passive => a b M hab; apply: four2d_semi => //; try exact: fft_in_range; try exact: fft_reads; exact: fft_keeps_sign.
Qed.

Lemma grid_covers p es a : (0 < p)%coqR -> (forall e, List.In e es -> (0 <= e)%coqR) -> grid_for p es a -> SpecFourier.covers a p.
Proof.
move=> hp he [hi hl hin]; split=> //.
have hpos v : List.In v a -> (0 <= v)%coqR.
  by move=> /hin [_ [->|/he]]; [lra|].
case: a hi hpos {hl hin} => [|x a] // hi hpos; split; first by apply: hpos; left.
elim: a x hi {hpos} => [|y a IH] x hi //=; split; first by have := hi 0%N 1%N isT isT; rewrite /=; lra.
by apply: IH => i j hij hj; exact: (hi i.+1 j.+1).
Qed.

Section End.
Variable pinv : forall n, 'M[C]_n -> 'M[C]_n.
Variable eig : forall n, 'M[C]_n -> 'rV[C]_n * 'M[C]_n.

Lemma x_edges_ge0 px py objs : general_position px py objs ->
  (forall e, List.In e (x_edges objs) -> (0 <= e)%coqR) /\ (forall e, List.In e (y_edges objs) -> (0 <= e)%coqR).
Proof.
move=> [_ _ _ h]; split=> e he.
- by have [s hs hin] := In_flatten he; have [o ho es] := In_map hs; move: hin; rewrite es => -[|[|[]]] <-; have := h o ho; lra.
- by have [s hs hin] := In_flatten he; have [o ho es] := In_map hs; move: hin; rewrite es => -[|[|[]]] <-; have := h o ho; lra.
Qed.

Lemma convs_passive o fx fy cs : passive_cell_of o -> o_use_pinv o = false -> convs_of pinv o fx fy = Some cs ->
  forall c, List.In c cs -> passive_convs c.
Proof.
rewrite /passive_cell_of /convs_of => hr ->; case: (o_mtype o) => [[]|] //; case: (o_cell o) hr => [|ny nx ls|ins|] // hr.
- case ep: (period_of o) hr => [[px py]|] // hr; case ev: (vector_layers px py ins) => [vs|] // ec c hc.
  have [[[l x] y] hv hl] := conv_all_in ec hc.
  have [b [objs [hin e]]] := vector_layers_in ev hv.
  have [hb ho hg] := hr _ _ hin; have {}hg := hg _ (erefl _).
  have [] := vector_layer_px (P := passive_px) (passive_pxE hb) _ e.
    move=> r h0; have [s hs h2] := In_flatten h0; have [ob h1 es] := In_map hs.
    by apply: passive_pxE; apply: ho h1 _; rewrite -es.
  have [r' [cl [rl [e' _ g1 g2 _]]]] := vector_layer_painted b hg.
  move: e; rewrite e' => -[e1 e2 e3]; rewrite e2 in g1; rewrite e3 in g2.
  have [x0 y0] := x_edges_ge0 hg; case: hg => -[px0 py0] _ _ _.
  by move=> h1 h2 h3; apply: vector_passive hl; [exact: grid_covers g1|exact: grid_covers g2| | |].
- case: eqP => // ny0; case: eqP => // nx0 /=.
  have hny : (0 < ny)%N by rewrite lt0n; apply/eqP.
  have hnx : (0 < nx)%N by rewrite lt0n; apply/eqP.
  case: ifP => _; [|case: ifP => // _] => ec c hc; have [l hf0 hl] := conv_all_in ec hc; have [f hf e0] := In_map hf0; rewrite e0 in hl.
  + by apply: discrete_passive hl => // i j /= hi hj; apply: passive_pxE; apply: hr.
  + by apply: continuous_passive hl => // i j /= hi hj; apply: passive_pxE; apply: hr.
Qed.

Lemma crop3_passive m n (c : conv3 m) : m = n -> passive_convs c -> passive_convs (crop3 n c).
Proof. by move=> e; move: c; rewrite e => -[[ex ey] ez]; rewrite /crop3 !crop_id. Qed.

Hypothesis heig : eigen_oracle eig.

Lemma passive_end o o' r : physical_obj o -> passive_cell_of o -> (0 < o_wavelength o)%coqR -> thick_obj o -> o_use_pinv o = false ->
  conv_solve pinv eig o = (o', Solved r) -> report_all power_bounded r.
Proof.
move=> hp hr hw ht hu /conv_solveE [fx [fy [cs [g [th [p [[ef ec eg pg et] [ep _ hg es]]]]]]]].
have hl := convs_passive hr hu ec.
have hphys ts : physical (setup_of o fx fy th p ts) by exact: physical_setup.
have hpsi : is_real (o_psi o) by case: hp.
move: es; rewrite /solve_with hu; case: ifP => _; first by case=> _ <-; split.
case: (o_algo o) => //; case eth: (o_thickness o) => [|ts|] //.
have hts t : List.In t ts -> (0 <= t)%coqR by exact: ht eth.
case: g eg pg hg => [|[|[|g]]] // eg pg _.
- have [efy eph] : fy = 0%N /\ o_phi o = None.
    by inversion pg as [nx ls _ _ _ h [f h' _]| | |]; move: ef; rewrite h' => -[_ <-].
  case e1: (solve_1d _ _ _ _ _ _) => [[[d T1] infos]|] // [_ <-]; split=> // d' [<-].
  apply: (passive_solve_1d heig (hphys ts) _ _ _ _ e1) => //.
  move=> c hc; have [c0 h0 ->] := In_map (In_take hc); apply: crop3_passive; last exact: hl.
  by rewrite efy mul1n.
- have [nx [ls [hm ho]]] : exists nx ls, o_mtype o = Some false /\ o_cell o = CRaster 1 nx ls.
    by inversion pg as [|nx ls h1 h2 _| |]; exists nx, ls.
  case e1: (solve_1d_conical _ _ _ _ _ _) => [[d infos]|] // [_ <-].
  have [||h1 h2 h3] := passive_solve_conical heig (hphys ts) hpsi hw _ _ e1 => //.
    by move=> c hc; split; [exact: hl (In_take hc) | exact: (convs_line hm ho hu ec (In_take hc))].
  by split=> d' [<-].
- case e1: (solve_2d _ _ _ _ _ _) => [[d infos]|] // [_ <-].
  have [||h1 h2 h3] := passive_solve_2d heig (hphys ts) hpsi hw _ _ e1 => //.
    by move=> c hc; exact: hl (In_take hc).
  by split=> d' [<-].
Qed.
End End.

Lemma unit_bound n (r : diffraction n) : power_bounded r -> nonneg_eff r -> eff_in_unit r.
Proof.
rewrite /power_bounded => e h i.
have h1 j : (0 <= de_ri r j)%coqR by have [[]] := h j.
have h2 j : (0 <= de_ti r j)%coqR by have [_ []] := h j.
have := (total_ge i h1, total_ge i h2, total_ge0 h1, total_ge0 h2, h1 i, h2 i).
by move=> [[[[[]]]]]; lra.
Qed.
Lemma unit_bounded r : report_all power_bounded r -> report_all nonneg_eff r -> report_all eff_in_unit r.
Proof.
case: r => n a b' c [e1 e2 e3] [a1 a2 a3]; split=> d ed.
- exact (unit_bound (e1 _ ed) (a1 _ ed)).
- exact (unit_bound (e2 _ ed) (a2 _ ed)).
- exact (unit_bound (e3 _ ed) (a3 _ ed)).
Qed.
Lemma lossless_passive n (c : conv3 n) : lossless_convs c -> passive_convs c.
Proof.
case: c => [[ex ey] ez] [h1 h2 h3] v.
have q (A : 'M[C]_n) : hermitian A -> Im (quad A v) = 0%coqR.
  move=> hA; suff : Im (quad A v) = (- Im (quad A v))%coqR by lra.
  rewrite -Im_conj; congr Im; rewrite /quad rmorph_sum /= exchange_big /=; apply: eq_bigr => j _.
  rewrite rmorph_sum /=; apply: eq_bigr => i _; rewrite !conjM conjK -(hA i j) //.
  by rewrite [LHS]mulrC mulrA [RHS]mulrAC.
by rewrite !q //; split; exact: Rle_refl.
Qed.
