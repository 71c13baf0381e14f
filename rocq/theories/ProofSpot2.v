(** From one absorbing pixel, or one absorbing point of a drawing, to lost power. *)
From Coq Require Import Reals ZArith Lra Psatz Classical.
From mathcomp Require Import all_ssreflect ssralg matrix.
From Coquelicot Require Import Complex.
From Verif Require Import Cplx Mx Spec SpecFourier SpecSolve SpecLayer SpecVec SpecState SpecPassive SpecAbsorb SpecStrict SpecSpot ModelTM ModelFourier ModelVec
  ModelState ProofFourier ProofConv ProofCell ProofLayer ProofRules ProofWell ProofEff ProofInvert ProofVec ProofState2 ProofEnd ProofEnd2
  ProofPassive2 ProofPassive3 ProofAbsorb5 ProofStrict2 ProofStrict3 ProofSpot.

Set Implicit Arguments.
Unset Strict Implicit.
Unset Printing Implicit Defensive.
Local Open Scope ring_scope.
Import GRing.Theory.

Lemma nz_col n (v : 'cV[C]_n) : v <> 0 -> nz (fun i => v i ord0).
Proof.
move=> h; apply: NNPP => hn; apply: h; apply/colP => j; rewrite mxE; apply: NNPP => hj; apply: hn; by exists j.
Qed.

Lemma three_absorbing pinv n (f : bool -> bool -> option 'M[C]_n) c :
  (forall a b M, a || b -> f a b = Some M -> strict ci M) -> three_convs pinv false f = Some c -> absorbing_convs c.
Proof.
move=> h; rewrite /three_convs; case ez: (f true true) => [z|] //; case ey: (f true false) => [y|] //.
case ex: (f false true) => [x|] //; rewrite /meeinv; case: ifP => // hu [<-] v v0; have hv := nz_col v0.
have hz := strict_inv hu (h true true _ isT ez) hv.
have hy := h true false _ isT ey _ hv; have hx := h false true _ isT ex _ hv.
rewrite Re_ci in hx; rewrite Re_ci in hy; rewrite conjI mulNr ReN Re_ci in hz; rewrite !quad_form; split; lra.
Qed.

(** ** Arrays *)
Lemma enlarge_enhanced fx fy l : (0 < rows l)%N -> (0 < cols l)%N -> exists ry rx : nat,
  [/\ (fy.*2.+1 <= ry)%N, (fx.*2.+1 <= rx)%N, rows (enlarge true fx fy l) = (rows l * ry)%N,
      cols (enlarge true fx fy l) = (cols l * rx)%N
    & forall i j, px (enlarge true fx fy l) i j = px l (i %/ ry)%N (j %/ rx)%N].
Proof.
move=> hr hc; rewrite /enlarge; set my := (_ * rows l)%N; set mx := (_ * cols l)%N.
set l1 := if (rows l < my)%N then _ else _.
have big f n : (0 < n)%N -> (f.*2.+1 <= (f.*2.*2.+1 * n %/ n).+1)%N.
  by move=> hn; rewrite mulnK // ltnS; apply: leq_trans (leqnSn _); rewrite -[X in (_ <= X)%N]addnn leq_addr.
have small f n : (0 < n)%N -> (n < f.*2.*2.+1 * n)%N = false -> f = 0%N.
  by move=> hn; rewrite -[X in (X < _)%N]mul1n ltn_pmul2r //; case: f.
have [ry [h1 h2 h3 h4]] : exists ry : nat, [/\ (fy.*2.+1 <= ry)%N, rows l1 = (rows l * ry)%N, cols l1 = cols l
  & forall i j, px l1 i j = px l (i %/ ry)%N j].
  rewrite /l1; case e: (rows l < my)%N; first by exists (my %/ rows l).+1; split=> //; exact: big.
  have -> := small fy _ hr e.
  by exists 1%N; split; rewrite ?muln1 // => i j; rewrite divn1.
case e: (cols l1 < mx)%N.
  exists ry, (mx %/ cols l1).+1; split=> //=; rewrite ?h3 //; exact: big.
rewrite h3 in e; have -> := small fx _ hc e.
by exists ry, 1%N; split; rewrite ?muln1 //; move=> i j; rewrite h4 divn1.
Qed.

Lemma in_block i n r ff a : (i < n)%N -> (ff <= r)%N -> (i * r <= a < i * r + ff)%N -> (a %/ r = i)%N /\ (a < n * r)%N.
Proof.
move=> hi hr /andP [h1 h2].
have h3 : (a < i.+1 * r)%N by rewrite mulSn addnC; apply: leq_trans h2 _; rewrite leq_add2l.
split; last by apply: leq_trans h3 _; rewrite leq_mul2r hi orbT.
have r0 : (0 < r)%N by case: r h3 {h1 h2 hr} => //; rewrite muln0.
by apply/eqP; rewrite eqn_leq -ltnS ltn_divLR // h3 leq_divRL.
Qed.

Section Px.
Variables (pinv : forall n, 'M[C]_n -> 'M[C]_n) (fx fy : nat) (l : raster).
Hypotheses (hpass : all_px passive_px l).

Lemma discrete_spot c : absorbing_pixel (rows l) (cols l) (px l) -> conv_discrete pinv false true fx fy l = Some c -> absorbing_convs c.
Proof.
case=> i [j [hi hj hab]]; have hr : (0 < rows l)%N by exact: leq_ltn_trans hi.
have hc : (0 < cols l)%N by exact: leq_ltn_trans hj.
rewrite /conv_discrete.
have [h1 h2] := enlarge_size true fx fy hr hc.
have hl := all_enlarge (e := true) (fto_x := fx) (fto_y := fy) hpass.
have [ry [rx [k1 k2 k3 k4 k5]]] := enlarge_enhanced fx fy hr hc.
set l' := enlarge _ _ _ _ in h1 h2 hl k3 k4 k5 *.
have hx : (fx.*2.+1 <= cols l')%N by apply: dbl_lt.
have hy : (fy.*2.+1 <= rows l')%N by apply: dbl_lt.
have fit m n r ff : (m < n)%N -> (ff <= r)%N -> (m * r + ff <= n * r)%N.
  move=> hm hf; apply: (@leq_trans (m.+1 * r)); first by rewrite mulSn addnC leq_add2r.
  by rewrite leq_mul2r hm orbT.
apply: three_absorbing => a b M hab'.
apply: (@four2d_strict _ _ _ _ _ _ _ _ (fun a => (j * rx <= a < j * rx + fx.*2.+1)%N) (fun b => (i * ry <= b < i * ry + fy.*2.+1)%N)) => //;
  try exact: fft_in_range; try exact: fft_reads; try exact: fft_keeps_sign.
- by apply: fft_keeps_strict => //; rewrite k4; exact: fit.
- by apply: fft_keeps_strict => //; rewrite k3; exact: fit.
- by move=> q hq; have [_] := in_block hj k2 hq; rewrite -k4.
- move=> p q hp hq; have [e1 _] := in_block hi k1 hp; have [e2 _] := in_block hj k2 hq.
  by rewrite /eps_of k5 e1 e2; exact: absorbing_px.
Qed.

Lemma pixel_in n j t : (0 < n)%N -> (INR j / INR n < t < (INR j + 1) / INR n)%coqR ->
  forall k, rlt t (1 / INR n * (INR k + 1)) = (j <= k)%N.
Proof.
move=> hn [t1 t2]; have n0 : (0 < INR n)%coqR by apply: lt_0_INR; apply/leP.
have lo : (INR j <= t * INR n)%coqR.
  have := Rmult_lt_compat_r _ _ _ n0 t1; rewrite /Rdiv Rmult_assoc Rinv_l; lra.
have hi : (t * INR n < INR j + 1)%coqR.
  have := Rmult_lt_compat_r _ _ _ n0 t2; rewrite /Rdiv Rmult_assoc Rinv_l; lra.
move=> k; rewrite /rlt.
have e : (1 / INR n * (INR k + 1) * INR n = INR k + 1)%coqR by field; lra.
case: leqP => h; case: Rlt_dec => // hr.
  case: hr; apply: (Rmult_lt_reg_r (INR n)) => //; rewrite e.
  by have := le_INR _ _ (elimT leP h); lra.
have : (t * INR n < INR k + 1)%coqR by rewrite -e; apply: Rmult_lt_compat_r.
have := le_INR _ _ (elimT leP h); rewrite S_INR; lra.
Qed.
Lemma pixel_bounds n j : (j < n)%N -> [/\ 0 <= INR j / INR n, INR j / INR n < (INR j + 1) / INR n & (INR j + 1) / INR n <= 1]%coqR.
Proof.
move=> hj; have n0 : (0 < INR n)%coqR by apply: lt_0_INR; apply/leP; exact: leq_ltn_trans hj.
have j0 := pos_INR j; have i0 := Rinv_0_lt_compat _ n0; have hn : (INR j + 1 <= INR n)%coqR by rewrite -S_INR; apply: le_INR; apply/leP.
rewrite /Rdiv; split; first nra.
  by apply: Rmult_lt_compat_r; lra.
have : ((INR j + 1) * / INR n <= INR n * / INR n)%coqR by apply: Rmult_le_compat_r; lra.
by rewrite Rinv_r; lra.
Qed.

Lemma continuous_spot c : absorbing_pixel (rows l) (cols l) (px l) -> conv_continuous pinv false fx fy l = Some c -> absorbing_convs c.
Proof.
case=> i [j [hi hj hab]]; have hr : (0 < rows l)%N by exact: leq_ltn_trans hi.
have hc : (0 < cols l)%N by exact: leq_ltn_trans hj.
rewrite /conv_continuous.
have hl := all_pick_rows (all_pick_cols (all_flip hpass)).
pose l1 := flipud l; pose l2 := pick_cols l1; pose i' := (rows l - i.+1)%N.
have hi' : (i' < rows l)%N by rewrite /i' -subSn // subSS; exact: leq_subr.
pose a0 := find (leq j) (sel_cols l1); pose b0 := find (leq i') (sel_rows l2).
have ha0 : (a0 < size (sel_cols l1))%N by apply: find_sel_lt => //; exact: (keep_last_col l1).
have val0 : px (pick_rows l2) b0 a0 = px l i j.
  rewrite /b0 pick_rows_eq // (@pick_cols_eq l1) //= /i'; congr px.
  by rewrite -subSn // subSS subKn // ltnW.
move: (compression_ok hr hc) hl; rewrite /= -/l1 -/l2.
set x := ends _ _; set y := ends _ _ => -[cx cy _ _] hl.
have px0 : last 0%coqR x <> 0%coqR by case: cx => _ ->; lra.
have py0 : last 0%coqR y <> 0%coqR by case: cy => _ ->; lra.
have fx0 t : (INR j / INR (cols l) < t < (INR j + 1) / INR (cols l))%coqR -> find (rlt t) x = a0.
  by move=> ht; rewrite /x (find_ends _ (pixel_in hc ht)).
have fy0 t : (INR i' / INR (rows l) < t < (INR i' + 1) / INR (rows l))%coqR -> find (rlt t) y = b0.
  by move=> ht; rewrite /y (find_ends _ (pixel_in hr ht)).
have [x1 x2 x3] := pixel_bounds hj; have [y1 y2 y3] := pixel_bounds hi'.
apply: three_absorbing => a b M hab'; apply: (@four2d_strict _ _ _ _ _ _ _ _ (eq a0) (eq b0)) => //;
  try exact: cfs_in_range; try exact: cfs_reads.
- exact: cfs_keeps_sign cy.
- exact (cfs_keeps_strict cx x1 x2 x3 fx0).
- exact (cfs_keeps_strict cy y1 y2 y3 fy0).
- by move=> q <-; rewrite /x /ends size_map.
- by move=> p q hp hq; apply: hl; [move: hp | move: hq]; rewrite /= /ends size_map.
- by move=> p q <- <-; rewrite /eps_of val0; exact: absorbing_px.
Qed.
End Px.

(** ** Drawings *)
Lemma In_nth_seq (a : seq R) i : (i < size a)%N -> List.In (nth 0%coqR a i) a.
Proof. by elim: a i => [|x a IH] [|i] //= h; [left|right; exact: IH]. Qed.
Lemma find_cell p es a j t : grid_for p es a -> in_cell a j t -> find (rlt t) a = j.
Proof.
move=> [inc _ _] [hj ht].
have hlt : (find (rlt t) a <= j)%N.
  rewrite leqNgt; apply/negP => h; have := before_find 0%coqR h; rewrite /rlt; case: Rlt_dec => // hn _; apply: hn; lra.
have hf : (find (rlt t) a < size a)%N by exact: leq_ltn_trans hj.
apply/eqP; rewrite eqn_leq hlt leqNgt; apply/negP => h.
have := nth_find 0%coqR (s := a) (a := rlt t); rewrite has_find hf => /(_ isT); rewrite /rlt; case: Rlt_dec => // hr _.
case: j hj ht h {hlt} => // j hj /= [ht _] h; rewrite ltnS leq_eqVlt in h; case/orP: h => [/eqP e|h].
  by move: hr; rewrite e; lra.
have h9 := inc _ _ h (ltnW hj).
have := Rlt_trans _ _ _ hr (Rlt_trans _ _ _ h9 ht); exact: Rlt_irrefl.
Qed.
Lemma cell_bounds p es a j t : (0 < p)%coqR -> (forall e, List.In e es -> (0 <= e <= p)%coqR) -> grid_for p es a -> in_cell a j t ->
  exists c d, [/\ (0 <= c)%coqR, (c < d)%coqR, (d <= p)%coqR & forall t', (c < t' < d)%coqR -> find (rlt t') a = j].
Proof.
move=> hp he hg [hj ht]; have [inc hl hin] := hg.
have rng i : (i < size a)%N -> (0 <= nth 0%coqR a i <= p)%coqR.
  move=> hi; have : List.In (nth 0%coqR a i) a by exact: In_nth_seq.
  by move=> /hin [_ [->|/he]]; lra.
exists (if j is j'.+1 then nth 0%coqR a j' else 0%coqR), (nth 0%coqR a j); split.
- by case: j hj {ht} => [|j] hj; [lra|have := rng j (ltnW hj); lra].
- lra.
- by have := rng j hj; lra.
- by move=> t' ht'; apply: (find_cell hg); split.
Qed.

Lemma vector_spot pinv fx fy l x y pxx pyy esx esy a b tx ty c : (0 < pxx)%coqR -> (0 < pyy)%coqR ->
  (forall e, List.In e esx -> (0 <= e <= pxx)%coqR) -> (forall e, List.In e esy -> (0 <= e <= pyy)%coqR) ->
  grid_for pxx esx x -> grid_for pyy esy y -> rows l = size y -> cols l = size x ->
  in_cell x a tx -> in_cell y b ty -> all_px passive_px l -> absorbing_index (px l b a) ->
  conv_vector pinv false fx fy (l, x, y) = Some c -> absorbing_convs c.
Proof.
move=> px0 py0 hex hey gx gy er ec ia ib hl hab; rewrite /conv_vector.
have cx : SpecFourier.covers x pxx by apply: grid_covers gx => // e /hex; lra.
have cy : SpecFourier.covers y pyy by apply: grid_covers gy => // e /hey; lra.
have lx0 : last 0%coqR x <> 0%coqR by case: cx => _ ->; lra.
have ly0 : last 0%coqR y <> 0%coqR by case: cy => _ ->; lra.
have [c1 [d1 [x1 x2 x3 x4]]] := cell_bounds px0 hex gx ia; have [c2 [d2 [y1 y2 y3 y4]]] := cell_bounds py0 hey gy ib.
apply: three_absorbing => p q M hpq; apply: (@four2d_strict _ _ _ _ _ _ _ _ (eq a) (eq b)) => //;
  try exact: cfs_in_range; try exact: cfs_reads.
- exact: cfs_keeps_sign cy.
- exact (cfs_keeps_strict cx x1 x2 x3 x4).
- exact (cfs_keeps_strict cy y1 y2 y3 y4).
- by move=> k <-; case: ia.
- by move=> i j hi hj; apply: hl; rewrite ?er ?ec.
- by move=> i j <- <-; rewrite /eps_of; exact: absorbing_px.
Qed.

Lemma edges_in pxx pyy objs : general_position pxx pyy objs ->
  (forall e, List.In e (x_edges objs) -> (0 <= e <= pxx)%coqR) /\ (forall e, List.In e (y_edges objs) -> (0 <= e <= pyy)%coqR).
Proof.
move=> [_ _ _ h]; split=> e he.
- by have [s hs hin] := In_flatten he; have [o ho es] := In_map hs; move: hin; rewrite es => -[|[|[]]] <-; have := h o ho; lra.
- by have [s hs hin] := In_flatten he; have [o ho es] := In_map hs; move: hin; rewrite es => -[|[|[]]] <-; have := h o ho; lra.
Qed.
Lemma off_grid p es a v : grid_for p es a -> (0 < v < p)%coqR -> ~ List.In v es -> exists i, in_cell a i v.
Proof.
move=> [_ hl hin] hv hn; apply: in_cell_ex; first by rewrite hl.
by move=> /hin [_ [e|//]]; lra.
Qed.

(** ** From the attributes *)
Section End.
Variable pinv : forall n, 'M[C]_n -> 'M[C]_n.
Variable eig : forall n, 'M[C]_n -> 'rV[C]_n * 'M[C]_n.

Lemma convs_spot o fx fy cs ts : passive_cell_of o -> absorbing_spot_of o -> o_use_pinv o = false -> o_thickness o = A1 ts ->
  convs_of pinv o fx fy = Some cs -> has_absorber cs ts.
Proof.
move=> hpass [k [ts' [t [eth hk t0 hcell]]]] hu eth'; rewrite eth in eth'; case: eth' hk => -> hk {ts' eth}.
rewrite /convs_of hu; move: hpass; rewrite /passive_cell_of; case: (o_mtype o) => [[]|] //; case: (o_cell o) hcell => [|ny nx ls|ins|] // hcell hpass.
- case: hcell => b [objs [pxx [pyy [hn hper [tx [ty [htx hty nex ney hp]]]]]]].
  rewrite hper in hpass *; case ev: (vector_layers pxx pyy ins) => [vs|] // ec.
  have [[[l x] y] hv e] := vector_layers_nth ev hn.
  have [c hc1 hc2] := conv_all_nth ec hv.
  exists k, c, t; split=> //.
  have [hb ho hg] := hpass _ _ (nth_in hn); have {}hg := hg _ (erefl _).
  have [_ _ hpx] : [/\ rows l = size y, cols l = size x & all_px passive_px l].
    apply: (vector_layer_px (P := passive_px) _ _ e); first exact: passive_pxE.
    by move=> r h0; have [s hs h2] := In_flatten h0; have [ob h1 es] := In_map hs; apply: passive_pxE; apply: ho h1 _; rewrite -es.
  have [r' [cl [rl [e' [g1 g2] g3 g4 g5]]]] := vector_layer_painted b hg.
  move: e; rewrite e' => -[e1 e2 e3]; rewrite e1 in g1 g2 g5; rewrite e2 in g2 g3 g5; rewrite e3 in g1 g4 g5.
  have [ex ey] := edges_in hg; case: (hg) => -[px0 py0] _ _ _.
  have [a ia] := off_grid g3 htx nex; have [q iq] := off_grid g4 hty ney.
  have habs : absorbing_index (px l q a) by apply: hp; exact: g5 iq ia.
  exact (vector_spot px0 py0 ex ey g3 g4 g1 g2 ia iq hpx habs hc2).
- case: eqP => // ny0; case: eqP => // nx0 /=.
  case: hcell => hft [f hn hf].
  have hpx : all_px passive_px (Raster ny nx f).
    by move=> i j /= hi hj; apply: passive_pxE; exact: hpass (nth_in hn) _ _ hi hj.
  have hn' := nth_map (Raster ny nx) hn.
  case: ifP => [/Z.eqb_eq h0|_]; [|case: ifP => // _] => ec; have [c hc1 hc2] := conv_all_nth ec hn'; exists k, c, t; split=> //.
  + have hen : o_enhanced o = true by case: hft => // h1; rewrite h1 in h0.
    by rewrite hen in hc2; exact (discrete_spot hpx hf hc2).
  + exact (continuous_spot hpx hf hc2).
Qed.

Hypothesis heig : eigen_oracle eig.

Lemma spot_end o o' r : physical_obj o -> passive_cell_of o -> absorbing_spot_of o -> (0 < o_wavelength o)%coqR -> thick_obj o ->
  o_use_pinv o = false -> conv_solve pinv eig o = (o', Solved r) -> report_all power_lost r.
Proof.
move=> hp hr hab hw ht hu /conv_solveE [fx [fy [cs [g [th [p [[ef ec eg pg et] [ep _ hg es]]]]]]]].
have hl := convs_passive hr hu ec.
have hphys ts : physical (setup_of o fx fy th p ts) by exact: physical_setup.
have hpsi : is_real (o_psi o) by case: hp.
move: es; rewrite /solve_with hu; case: ifP => _; first by case=> _ <-; split.
case: (o_algo o) => //; case eth: (o_thickness o) => [|ts|] //.
have hts t : List.In t ts -> (0 <= t)%coqR by exact: ht eth.
have hd := convs_spot hr hab hu eth ec.
case: g eg pg hg => [|[|[|g]]] // eg pg _.
- have [efy eph] : fy = 0%N /\ o_phi o = None.
    by inversion pg as [nx ls _ _ _ h [f h' _]| | |]; move: ef; rewrite h' => -[_ <-].
  case e1: (solve_1d _ _ _ _ _ _) => [[[d T1] infos]|] // [_ <-]; split=> // d' [<-].
  have em : (fy.*2.+1 * fx.*2.+1)%N = fx.*2.+1 by rewrite efy mul1n.
  apply: (strict_solve_1d heig (hphys ts) _ hw hts _ _ e1) => //.
  + move=> c hc; have [c0 h0 ->] := In_map (In_take hc); apply: crop3_passive; last exact: hl.
    by rewrite efy mul1n.
  + exact: has_crop hd.
- have [nx [ls [hm ho]]] : exists nx ls, o_mtype o = Some false /\ o_cell o = CRaster 1 nx ls.
    by inversion pg as [|nx ls h1 h2 _| |]; exists nx, ls.
  case e1: (solve_1d_conical _ _ _ _ _ _) => [[d infos]|] // [_ <-].
  have [|h1 h2 h3] := strict_solve_conical heig (hphys ts) hpsi hw hts _ hd e1 => //.
    by move=> c hc; split; [exact: hl (In_take hc) | exact: (convs_line hm ho hu ec (In_take hc))].
  by split=> d' [<-].
- case e1: (solve_2d _ _ _ _ _ _) => [[d infos]|] // [_ <-].
  have [|h1 h2 h3] := strict_solve_2d heig (hphys ts) hpsi hw hts _ hd e1 => //.
    by move=> c hc; exact: hl (In_take hc).
  by split=> d' [<-].
Qed.
End End.
