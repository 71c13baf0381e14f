(** From the public attributes: a cell without gain, one of whose layers absorbs everywhere, loses power. *)
From Coq Require Import Reals Lra Psatz.
From mathcomp Require Import all_ssreflect ssralg matrix.
From Coquelicot Require Import Complex.
From Verif Require Import Cplx Mx Spec SpecFourier SpecSolve SpecLayer SpecVec SpecState SpecPassive SpecAbsorb SpecStrict ModelTM ModelFourier ModelVec
  ModelState ProofFourier ProofConv ProofCell ProofLayer ProofRules ProofWell ProofEff ProofInvert ProofVec ProofState2 ProofEnd ProofEnd2
  ProofPassive2 ProofPassive3 ProofAbsorb5 ProofStrict2.

Set Implicit Arguments.
Unset Strict Implicit.
Unset Printing Implicit Defensive.
Local Open Scope ring_scope.
Import GRing.Theory.

Lemma conv_all_nth (A B : Type) (f : A -> option B) ls cs : conv_all f ls = Some cs ->
  forall k l, List.nth_error ls k = Some l -> exists2 c, List.nth_error cs k = Some c & f l = Some c.
Proof.
elim: ls cs => [|l ls IH] cs /=; first by case=> <- [].
case el: (f l) => [c0|] //; case ec: (conv_all f ls) => [cs0|] // [<-] [|k] l' /=; first by case=> <-; exists c0.
by move/(IH _ ec).
Qed.
Lemma nth_map (A B : Type) (f : A -> B) ls k l : List.nth_error ls k = Some l -> List.nth_error (map f ls) k = Some (f l).
Proof. by elim: ls k => [|a ls IH] [|k] //=; [case=> ->|exact: IH]. Qed.
Lemma nth_in (A : Type) (ls : seq A) k l : List.nth_error ls k = Some l -> List.In l ls.
Proof. exact: List.nth_error_In. Qed.
Lemma vector_layers_nth px py ins vs : vector_layers px py ins = Some vs -> forall k b objs, List.nth_error ins k = Some (b, objs) ->
  exists2 v, List.nth_error vs k = Some v & vector_layer px py b (flatten (map draw_object objs)) = Some v.
Proof.
elim: ins vs => [|[b objs] ins IH] vs /=; first by case=> <- [].
case e: (vector_layer _ _ _ _) => [v0|] //; case es: (vector_layers _ _ _) => [vs0|] // [<-] [|k] b' o' /=.
  by case=> <- <-; exists v0.
by move/(IH _ es).
Qed.

Section End.
Variable pinv : forall n, 'M[C]_n -> 'M[C]_n.
Variable eig : forall n, 'M[C]_n -> 'rV[C]_n * 'M[C]_n.

Lemma convs_absorb o fx fy cs ts : passive_cell_of o -> absorbing_layer_of o -> o_use_pinv o = false -> o_thickness o = A1 ts ->
  convs_of pinv o fx fy = Some cs -> has_absorber cs ts.
Proof.
move=> hpass [k [ts' [t [eth hk t0 hcell]]]] hu eth'; rewrite eth in eth'; case: eth' hk => -> hk {ts' eth}.
rewrite /convs_of hu; move: hpass; rewrite /passive_cell_of; case: (o_mtype o) => [[]|] //; case: (o_cell o) hcell => [|ny nx ls|ins|] // hcell hpass.
- case ep: (period_of o) hpass => [[px py]|] // hpass; case ev: (vector_layers px py ins) => [vs|] // ec.
  case: hcell => b [objs [hn hb ho]].
  have [[[l x] y] hv e] := vector_layers_nth ev hn.
  have [c hc1 hc2] := conv_all_nth ec hv.
  exists k, c, t; split=> //.
  have [_ _ hg] := hpass _ _ (nth_in hn); have {}hg := hg _ (erefl _).
  have [] := vector_layer_px (P := absorbing_index) hb _ e.
    by move=> r h0; have [s hs h2] := In_flatten h0; have [ob h1 es] := In_map hs; apply: ho h1 _; rewrite -es.
  have [r' [cl [rl [e' _ g1 g2 _]]]] := vector_layer_painted b hg.
  move: e; rewrite e' => -[e1 e2 e3]; rewrite e2 in g1; rewrite e3 in g2.
  have [x0 y0] := x_edges_ge0 hg; case: hg => -[px0 py0] _ _ _ h1 h2 h3.
  have [||c' ec' hc'] := @vector_absorbs pinv fx fy l x y px py _ _ h1 h2 h3; [exact: grid_covers g1|exact: grid_covers g2|].
  by move: hc2; rewrite ec' => -[<-].
- case: eqP => // ny0; case: eqP => // nx0 /=.
  have hny : (0 < ny)%N by rewrite lt0n; apply/eqP.
  have hnx : (0 < nx)%N by rewrite lt0n; apply/eqP.
  case: hcell => f hn hf.
  have hf' : all_px absorbing_index (Raster ny nx f) by move=> i j /= hi hj; exact: hf.
  have hn' := nth_map (Raster ny nx) hn.
  case: ifP => _; [|case: ifP => // _] => ec; have [c hc1 hc2] := conv_all_nth ec hn'; exists k, c, t; split=> //.
  + have [c' ec' hc'] := @discrete_absorbs pinv fx fy (Raster ny nx f) (o_enhanced o) hny hnx hf'.
    by move: hc2; rewrite ec' => -[<-].
  + have [c' ec' hc'] := @continuous_absorbs pinv fx fy (Raster ny nx f) hny hnx hf'.
    by move: hc2; rewrite ec' => -[<-].
Qed.

Lemma crop3_absorb m n (c : conv3 m) : m = n -> absorbing_convs c -> absorbing_convs (crop3 n c).
Proof. by move=> e; move: c; rewrite e => -[[ex ey] ez]; rewrite /crop3 !crop_id. Qed.
Lemma has_crop m n (cs : seq (conv3 m)) ts : m = n -> has_absorber cs ts -> has_absorber (map (crop3 n) cs) ts.
Proof. by move=> e [k [c [t [h1 h2 h3 h4]]]]; exists k, (crop3 n c), t; split=> //; [exact: nth_map|exact: crop3_absorb]. Qed.

Hypothesis heig : eigen_oracle eig.

Lemma strict_end o o' r : physical_obj o -> passive_cell_of o -> absorbing_layer_of o -> (0 < o_wavelength o)%coqR -> thick_obj o ->
  o_use_pinv o = false -> conv_solve pinv eig o = (o', Solved r) -> report_all power_lost r.
Proof.
move=> hp hr hab hw ht hu /conv_solveE [fx [fy [cs [g [th [p [[ef ec eg pg et] [ep _ hg es]]]]]]]].
have hl := convs_passive hr hu ec.
have hphys ts : physical (setup_of o fx fy th p ts) by exact: physical_setup.
have hpsi : is_real (o_psi o) by case: hp.
move: es; rewrite /solve_with hu; case: ifP => _; first by case=> _ <-; split.
case: (o_algo o) => //; case eth: (o_thickness o) => [|ts|] //.
have hts t : List.In t ts -> (0 <= t)%coqR by exact: ht eth.
have hd := convs_absorb hr hab hu eth ec.
case: g eg pg hg => [|[|[|g]]] // eg pg _.
- have [efy eph] : fy = 0%N /\ o_phi o = None.
    by inversion pg as [nx ls _ _ _ h [f h' _]| | |]; move: ef; rewrite h' => -[_ <-].
  case e1: (solve_1d _ _ _ _ _ _) => [[[d T1] infos]|] // [_ <-]; split=> // d' [<-].
  have em : (fy.*2.+1 * fx.*2.+1)%N = fx.*2.+1 by rewrite efy mul1n.
  apply: (strict_solve_1d heig (hphys ts) _ hw hts _ _ e1) => //.
  + move=> c hc; have [c0 h0 ->] := In_map (In_take hc); apply: crop3_passive; last exact: hl.
    by rewrite efy mul1n.
  + exact: has_crop hd.
- have [nx [ls [hm ho]]] : exists nx ls, o_mtype o = Some false /\ o_cell o = CRaster 1 nx ls.
    by inversion pg as [|nx ls h1 h2 _| |]; exists nx, ls.
  case e1: (solve_1d_conical _ _ _ _ _ _) => [[d infos]|] // [_ <-].
  have [|h1 h2 h3] := strict_solve_conical heig (hphys ts) hpsi hw hts _ hd e1 => //.
    by move=> c hc; split; [exact: hl (In_take hc) | exact: (convs_line hm ho hu ec (In_take hc))].
  by split=> d' [<-].
- case e1: (solve_2d _ _ _ _ _ _) => [[d infos]|] // [_ <-].
  have [|h1 h2 h3] := strict_solve_2d heig (hphys ts) hpsi hw hts _ hd e1 => //.
    by move=> c hc; exact: hl (In_take hc).
  by split=> d' [<-].
Qed.
End End.
