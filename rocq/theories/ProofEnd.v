(** From the public attributes to the result: energy conservation, signs and layer counts of conv_solve. *)
From Coq Require Import Reals ZArith Lra Lia.
From mathcomp Require Import all_ssreflect ssralg matrix.
From Coquelicot Require Import Complex.
From Verif Require Import Cplx Spec SpecSolve SpecLayer ModelTM ModelFourier ModelVec ModelField ModelState SpecState
  ProofSetup ProofEff ProofCompose ProofConv ProofLayer ProofState2.

Set Implicit Arguments.
Unset Strict Implicit.
Unset Printing Implicit Defensive.
Local Open Scope ring_scope.
Import GRing.Theory.

Lemma conv_all_in (A B : Type) (f : A -> option B) ls cs : conv_all f ls = Some cs ->
  forall c, List.In c cs -> exists2 l, List.In l ls & f l = Some c.
Proof.
elim: ls cs => [|l ls IH] cs /=; first by case=> <-.
case el: (f l) => [c0|] //; case ec: (conv_all f ls) => [cs0|] // [<-] c [<-|h].
  by exists l => //; left.
by have [l' h1 h2] := IH _ ec _ h; exists l' => //; right.
Qed.

Lemma conv_all_size (A B : Type) (f : A -> option B) ls cs : conv_all f ls = Some cs -> size cs = size ls.
Proof.
elim: ls cs => [|l ls IH] cs /=; first by case=> <-.
by case: (f l) => [c0|] //; case ec: (conv_all f ls) => [cs0|] // [<-] /=; rewrite (IH _ ec).
Qed.

Lemma conv_all_take (A B : Type) (f : A -> option B) ls cs k : conv_all f ls = Some cs ->
  conv_all f (take k ls) = Some (take k cs).
Proof.
elim: ls cs k => [|l ls IH] cs [|k] /=; try by case=> <-.
  by case: (f l) => [c0|] //; case ec: (conv_all f ls) => [cs0|] // [<-].
by case: (f l) => [c0|] //; case ec: (conv_all f ls) => [cs0|] // [<-] /=; rewrite (IH _ k ec).
Qed.

Lemma In_map (A B : Type) (f : A -> B) ls y : List.In y (map f ls) -> exists2 x, List.In x ls & y = f x.
Proof.
elim: ls => [|x ls IH] //= [<-|/IH [x' h ->]]; first by exists x => //; left.
by exists x' => //; right.
Qed.
Lemma In_take (A : Type) k (ls : seq A) x : List.In x (take k ls) -> List.In x ls.
Proof. by elim: ls k => [|y ls IH] [|k] //= [<-|/IH]; [left | right]. Qed.
Lemma In_flatten (A : Type) (ss : seq (seq A)) x : List.In x (flatten ss) -> exists2 s, List.In s ss & List.In x s.
Proof.
elim: ss => [|s ss IH] //= /List.in_app_iff [h|/IH [s' h1 h2]]; first by exists s => //; left.
by exists s' => //; right.
Qed.

(** ** The cropped matrices are the matrices themselves when there is one row of orders. *)
Lemma crop_id n (A : 'M[C]_n) : crop n A = A.
Proof. by apply/matrixP => i j; rewrite mxE entE. Qed.
Lemma crop_herm m n (A : 'M[C]_m) : m = n -> hermitian A -> hermitian (crop n A).
Proof. by move=> e; case: n / e; rewrite crop_id. Qed.
Lemma crop3_lossless m n (c : conv3 m) : m = n -> lossless_convs c -> lossless_convs (crop3 n c).
Proof. by case: c => [[a b] d] e [h1 h2 h3]; split; apply: crop_herm. Qed.

(** ** Painting keeps the indices *)
Lemma paint_px (P : C -> Prop) a b cell o cell' : (forall i j, P (cell i j)) -> P (r_index o) ->
  paint a b cell o = Some cell' -> forall i j, P (cell' i j).
Proof.
move=> h ho; rewrite /paint; case: (span a _ _) => [[rb re]|] //; case: (span b _ _) => [[cb ce]|] // [<-] i j.
by case: ifP.
Qed.
Lemma paint_all_px (P : C -> Prop) a b objs cell cell' : (forall i j, P (cell i j)) ->
  (forall o, List.In o objs -> P (r_index o)) -> paint_all a b cell objs = Some cell' -> forall i j, P (cell' i j).
Proof.
elim: objs cell => [|o objs IH] cell h ho /=; first by case=> <-.
case e: (paint a b cell o) => [c1|] //; apply: IH; last by move=> o' h'; apply: ho; right.
by apply: paint_px e => //; apply: ho; left.
Qed.

Lemma grid_index objs st pert a b ds : foldl insert_object st objs = (pert, a, b, ds) ->
  map r_index ds = map r_index st.2 ++ map r_index objs.
Proof.
elim: objs st => [|o objs IH] [[[p0 a0] b0] d0]; first by case=> _ _ _ -> /=; rewrite cats0.
move=> e; change (foldl insert_object (insert_object (p0, a0, b0, d0) o) objs = (pert, a, b, ds)) in e.
have [p1 [a1 [b1 [t [l [bt [r es]]]]]]] : exists p1 a1 b1 t l bt r,
  insert_object (p0, a0, b0, d0) o = (p1, a1, b1, rcons d0 (Rect t l bt r (r_index o))).
  rewrite /insert_object; case: (insert_edge _ _ _ _) => [[? ?] ?]; case: (insert_edge _ _ _ _) => [[? ?] ?].
  by case: (insert_edge _ _ _ _) => [[? ?] ?]; case: (insert_edge _ _ _ _) => [[? ?] ?]; do 7 eexists.
by move: e; rewrite es => /IH -> /=; rewrite map_rcons cat_rcons.
Qed.

Lemma In_map_to (A B : Type) (f : A -> B) ls x : List.In x ls -> List.In (f x) (map f ls).
Proof. by elim: ls => [|y ls IH] //= [->|/IH]; [left | right]. Qed.

Lemma vector_layer_px (P : C -> Prop) px py b objs l x y : P b -> (forall o, List.In o objs -> P (r_index o)) ->
  vector_layer px py b objs = Some (l, x, y) -> [/\ rows l = size y, cols l = size x & all_px P l].
Proof.
move=> hb ho; rewrite /vector_layer; case eg: (grid_lists objs) => [[[p a] c] ds].
case ep: (paint_all _ _ _ _) => [cell|] // [<- <- <-]; split=> // i j _ _ /=.
apply: (paint_all_px (P := P) _ _ ep) => // o h.
have := grid_index eg; rewrite /= => ei.
have : List.In (r_index o) (map r_index objs) by rewrite -ei; exact: In_map_to.
by move=> hx; have [o' /ho h' ->] := In_map hx.
Qed.

Lemma vector_layers_in px py ins vs : vector_layers px py ins = Some vs -> forall v, List.In v vs ->
  exists b objs, List.In (b, objs) ins /\ vector_layer px py b (flatten (map draw_object objs)) = Some v.
Proof.
elim: ins vs => [|[b objs] ins IH] vs /=; first by case=> <-.
case e: (vector_layer _ _ _ _) => [v0|] //; case es: (vector_layers _ _ _) => [vs0|] // [<-] v [<-|h].
  by exists b, objs; split=> //; left.
by have [b' [o' [h1 h2]]] := IH _ es _ h; exists b', o'; split=> //; right.
Qed.

Section End.
Variable pinv : forall n, 'M[C]_n -> 'M[C]_n.
Variable eig : forall n, 'M[C]_n -> 'rV[C]_n * 'M[C]_n.

(** The convolution matrices of a cell of real indices are Hermitian; with one row of pixels they are those of a line
    grating. *)
Lemma convs_lossless o fx fy cs : real_cell_of o -> o_use_pinv o = false -> convs_of pinv o fx fy = Some cs ->
  forall c, List.In c cs -> lossless_convs c.
Proof.
rewrite /real_cell_of /convs_of => hr ->; case: (o_mtype o) => [[]|] //; case: (o_cell o) hr => [|ny nx ls|ins|] // hr.
- case: (period_of o) => [[px py]|] //; case ev: (vector_layers px py ins) => [vs|] // ec c hc.
  have [[[l x] y] hv hl] := conv_all_in ec hc.
  have [b [objs [hin e]]] := vector_layers_in ev hv.
  have [hb ho] := hr _ _ hin.
  have [] := vector_layer_px (P := fun z => conj z = z) hb _ e.
    move=> r h0; have [s hs h2] := In_flatten h0; have [ob h1 es] := In_map hs.
    by apply: ho h1 _; rewrite -es.
  by move=> h1 h2 h3; apply: vector_lossless hl.
- case: eqP => // ny0; case: eqP => // nx0 /=.
  have hny : (0 < ny)%N by rewrite lt0n; apply/eqP.
  have hnx : (0 < nx)%N by rewrite lt0n; apply/eqP.
  case: ifP => _; [|case: ifP => // _] => ec c hc; have [l hf0 hl] := conv_all_in ec hc; have [f hf e0] := In_map hf0; rewrite e0 in hl.
  + by apply: discrete_lossless hl => // i j /= hi hj; apply: hr.
  + by apply: continuous_lossless hl => i j /= hi hj; apply: hr.
Qed.

Lemma convs_line o fx fy cs nx ls : o_mtype o = Some false -> o_cell o = CRaster 1 nx ls -> o_use_pinv o = false ->
  convs_of pinv o fx fy = Some cs -> forall c, List.In c cs -> line_convs c.
Proof.
move=> hm ho hp; rewrite /convs_of hm ho hp /=; case: eqP => // nx0.
have hnx : (0 < nx)%N by rewrite lt0n; apply/eqP.
case: ifP => _; [|case: ifP => // _] => ec c hc; have [l hf0 hl] := conv_all_in ec hc; have [f hf e0] := In_map hf0; rewrite e0 in hl.
- by apply: discrete_line hl => // -[|i] [|i'] j.
- by apply: continuous_line hl => // -[|i] [|i'] j.
Qed.

Lemma physical_setup o fx fy th p ts : physical_obj o -> o_theta o = Some th -> period_of o = Some p ->
  physical (setup_of o fx fy th p ts).
Proof.
move=> [h1 h2 h3 _ h5] et; rewrite /period_of; case ep: (o_period o) => [|[|px [|py ps]]|] //.
case: ifP => // _ [<-]; split=> //=; first exact: h2.
- by apply: (h5 _ ep); left.
- by apply: (h5 _ ep); right; left.
Qed.

(** What a solve that returned went through. *)
Lemma conv_solveE o o' r : conv_solve pinv eig o = (o', Solved r) -> exists fx fy cs g th p,
  [/\ fto_of o = Some (fx, fy), convs_of pinv o fx fy = Some cs, grating_of o fy = Some g, promised o g
    & o_theta o = Some th] /\
  [/\ period_of o = Some p, o_wavelength o <> 0%coqR, g < 3
    & solve_with pinv eig o th p cs (Some g) = (o_memo o', Solved r)].
Proof.
rewrite /conv_solve; case ef: (fto_of o) => [[fx fy]|] //; case ec: (convs_of pinv o fx fy) => [cs|] //.
have [g eg pg] := grating_promised ef ec; rewrite eg.
case et: (o_theta o) => [th|] //; case ep: (period_of o) => [p|] //; case ew: (reqb _ _) => //.
case es: (solve_with _ _ _ _ _ _ _) => [m out] [<- eo]; rewrite eo in es.
exists fx, fy, cs, g, th, p; split=> //; split=> //; first last.
- by case: pg.
- by move=> e0; move: ew; rewrite e0 /reqb; case: Req_EM_T.
Qed.

Hypothesis heig : eigen_oracle eig.

Lemma energy_end o o' r : physical_obj o -> real_cell_of o -> o_use_pinv o = false ->
  conv_solve pinv eig o = (o', Solved r) -> report_all power_conserved r.
Proof.
move=> hp hr hu /conv_solveE [fx [fy [cs [g [th [p [[ef ec eg pg et] [ep _ hg es]]]]]]]].
have hl := convs_lossless hr hu ec.
have hphys ts : physical (setup_of o fx fy th p ts) by exact: physical_setup.
have hpsi : is_real (o_psi o) by case: hp.
move: es; rewrite /solve_with hu; case: ifP => _; first by case=> _ <-; split.
case: (o_algo o) => //; case: (o_thickness o) => [|ts|] //.
case: g eg pg hg => [|[|[|g]]] // eg pg _.
- have [efy eph] : fy = 0%N /\ o_phi o = None.
    by inversion pg as [nx ls _ _ _ h [f h' _]| | |]; move: ef; rewrite h' => -[_ <-].
  case e1: (solve_1d _ _ _ _ _ _) => [[[d T1] infos]|] // [_ <-]; split=> // d' [<-].
  apply: (energy_solve_1d heig (hphys ts) _ _ e1) => //.
  move=> c hc; have [c0 h0 ->] := In_map (In_take hc); apply: crop3_lossless; last exact: hl.
  by rewrite efy mul1n.
- have [nx [ls [hm ho]]] : exists nx ls, o_mtype o = Some false /\ o_cell o = CRaster 1 nx ls.
    by inversion pg as [|nx ls h1 h2 _| |]; exists nx, ls.
  case e1: (solve_1d_conical _ _ _ _ _ _) => [[d infos]|] // [_ <-].
  have [|h1 h2 h3] := energy_solve_conical heig (hphys ts) hpsi _ e1.
    by move=> c hc; split; [exact: hl (In_take hc) | exact: (convs_line hm ho hu ec (In_take hc))].
  by split=> d' [<-].
- case e1: (solve_2d _ _ _ _ _ _) => [[d infos]|] // [_ <-].
  have [|h1 h2 h3] := energy_solve_2d heig (hphys ts) hpsi _ e1.
    by move=> c hc; exact: hl (In_take hc).
  by split=> d' [<-].
Qed.

End End.
