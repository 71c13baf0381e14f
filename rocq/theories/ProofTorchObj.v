(** The PyTorch solver object: vector layers, convolution matrices, dispatch and results compared with NumPy. *)
From Coq Require Import Reals ZArith Lra FunctionalExtensionality.
From mathcomp Require Import all_ssreflect ssralg matrix.
From Coquelicot Require Import Complex.
From Verif Require Import Cplx Mx Spec SpecSolve SpecLayer SpecTorch ModelTM ModelFourier ModelVec ModelField ModelState ModelTorch
  ModelTorchObj SpecState SpecJax SpecTorchObj ProofSetup ProofPinv ProofEnergy1D ProofConv ProofFourier ProofLayer ProofState2 ProofEnd ProofEnd2
  ProofInvert ProofTorch ProofTorch2 ProofTorch3.

Set Implicit Arguments.
Unset Strict Implicit.
Unset Printing Implicit Defensive.
Local Open Scope ring_scope.
Import GRing.Theory.

(** ** Painting *)
Definition geo (r : rect) := (r_top r, r_left r, r_bottom r, r_right r).

Lemma t_paintE a b cell objs : paint_all a b cell objs = t_paint_all a b cell (map (fun o => (o, r_index o)) objs).
Proof. by elim: objs cell => [|o objs IH] cell //=; rewrite /paint /t_paint /=; case: (span _ _ _) => [[? ?]|] //; case: (span _ _ _) => [[? ?]|]. Qed.

Lemma t_paint_geo A a b (cell : nat -> nat -> A) ds ds' zs : map geo ds = map geo ds' ->
  t_paint_all a b cell (zip ds zs) = t_paint_all a b cell (zip ds' zs).
Proof.
elim: ds ds' zs cell => [|d ds IH] [|d' ds'] [|z zs] cell //= [e1 e2 e3 e4 /IH {}IH].
rewrite /t_paint /= e1 e2 e3 e4; case: (span _ _ _) => [[? ?]|] //; case: (span _ _ _) => [[? ?]|] //.
Qed.

Lemma t_paint_map A B (g : A -> B) a b cell ds zs :
  t_paint_all a b (fun i j => g (cell i j)) (zip ds (map g zs)) =
  if t_paint_all a b cell (zip ds zs) is Some c then Some (fun i j => g (c i j)) else None.
Proof.
elim: ds zs cell => [|d ds IH] [|z zs] cell //=.
rewrite /t_paint /=; case: (span _ _ _) => [[rb re]|] //; case: (span _ _ _) => [[cb ce]|] //.
rewrite -IH; congr t_paint_all; do 2 (apply: functional_extensionality => ?); by case: ifP.
Qed.

Lemma grid_geo objs objs' : map geo objs = map geo objs' ->
  let '(p, rl, cl, ds) := grid_lists objs in let '(p', rl', cl', ds') := grid_lists objs' in
  [/\ p = p', rl = rl', cl = cl' & map geo ds = map geo ds'].
Proof.
rewrite /grid_lists; set st := (X in foldl _ X objs); set st' := (X in foldl _ X objs').
have : st.1 = st'.1 /\ map geo st.2 = map geo st'.2 by [].
move: st st'; elim: objs objs' => [|o objs IH] [|o' objs'] // [[[p rl] cl] ds] [[[p' rl'] cl'] ds'].
  by move=> [/= [<- <- <-] e2] _.
move=> [/= [<- <- <-] e2] [e3 e4 e5 e6 e7]; apply: IH => //.
rewrite /insert_object e3 e4 e5 e6.
case: (insert_edge _ _ _ _) => [[? ?] ?]; case: (insert_edge _ _ _ _) => [[? ?] ?].
case: (insert_edge _ _ _ _) => [[? ?] ?]; case: (insert_edge _ _ _ _) => [[? ?] ?] /=; split=> //.
by rewrite !map_rcons e2.
Qed.

Lemma zip_index ds : zip ds (map r_index ds) = map (fun o => (o, r_index o)) ds.
Proof. by elim: ds => //= d ds ->. Qed.

(** A vector layer painted with triples. *)
Definition t_layer3 (px py : R) (base : C * C * C) (objs : seq rect) (zs : seq (C * C * C)) :=
  let '(_, rl, cl, ds) := grid_lists objs in
  let rl := close_list rl py in let cl := close_list cl px in
  if t_paint_all rl cl (fun _ _ => base) (zip ds zs) is Some c then
    Some (Raster (size rl) (size cl) (fun i j => (c i j).1.1), Raster (size rl) (size cl) (fun i j => (c i j).1.2),
          Raster (size rl) (size cl) (fun i j => (c i j).2), cl, rl)
  else None.

Definition comps_of (v : t_layer * seq R * seq R) := (components v.1.1, v.1.2, v.2).

Lemma not_vector i : is_vector_index i = false -> to_index_vector i = (scalar_index i, scalar_index i, scalar_index i).
Proof. by case: i. Qed.

Lemma t_layer3E px py base objs :
  (if t_vector_layer px py base objs is Some v then Some (comps_of v) else None) =
  t_layer3 px py (to_index_vector base) (map fst objs) [seq to_index_vector o.2 | o <- objs].
Proof.
rewrite /t_vector_layer /t_layer3; case: (grid_lists _) => [[[p rl] cl] ds].
case: ifP => h; first by case: (t_paint_all _ _ _ _).
move: h => /negbT; rewrite negb_or => /andP [/negbTE hb ho].
pose g c : C * C * C := (c, c, c).
have -> : to_index_vector base = g (scalar_index base) by exact: not_vector.
have -> : [seq to_index_vector o.2 | o <- objs] = map g [seq scalar_index o.2 | o <- objs].
  rewrite -map_comp; elim: objs ho {p rl cl ds} => //= o objs IH; rewrite negb_or => /andP [/negbTE h1 /IH ->].
  by rewrite not_vector.
by rewrite (t_paint_map g); case: (t_paint_all _ _ _ _).
Qed.

Lemma geo_recolor (f : tindex -> C) (objs : seq (rect * tindex)) :
  map geo [seq recolor (f q.2) q.1 | q <- objs] = map geo (map fst objs).
Proof. by elim: objs => //= q objs ->. Qed.

Lemma iso_layer px py b objs : ~~ has (fun o : rect * tindex => is_vector_index o.2) objs ->
  t_vector_layer px py (I1 b) objs =
  if vector_layer px py b [seq recolor (scalar_index q.2) q.1 | q <- objs] is Some (l, x, y) then Some (TIso l, x, y) else None.
Proof.
move=> h; rewrite /t_vector_layer /vector_layer.
have := grid_geo (esym (geo_recolor scalar_index objs)).
case: (grid_lists _) => [[[p rl] cl] ds]; case eg: (grid_lists _) => [[[p' rl'] cl'] ds'] [_ <- <- eds].
rewrite /= (negbTE h) t_paintE -zip_index.
have -> : map r_index ds' = [seq scalar_index o.2 | o <- objs].
  have -> := grid_index eg; rewrite /= -map_comp; by elim: objs {h eg eds} => //= q objs ->.
by rewrite (t_paint_geo _ _ _ _ eds); case: (t_paint_all _ _ _ _).
Qed.

Lemma draw_fill c o : draw_object (fill c o) = map (recolor c) (draw_object o).
Proof. by case: o => [cx cy lx ly n a ap|rs] //=; do 4 (case: ifP => //). Qed.

Lemma iso_draw (os : seq (vobject * C)) :
  flatten (map draw_object [seq fill o.2 o.1 | o <- os]) =
  [seq recolor (scalar_index q.2) q.1 | q <- flatten (map t_draw [seq (o.1, I1 o.2) | o <- os])] /\
  ~~ has (fun o : rect * tindex => is_vector_index o.2) (flatten (map t_draw [seq (o.1, I1 o.2) | o <- os])).
Proof.
elim: os => //= o os [IH1 IH2]; rewrite map_cat has_cat negb_or -IH1 IH2 andbT; split.
  by congr (_ ++ _); rewrite draw_fill /t_draw -map_comp.
by rewrite /t_draw /= has_map; elim: (draw_object _).
Qed.

Lemma iso_layers px py (ins : seq (C * seq (vobject * C))) :
  t_vector_layers px py [seq (I1 p.1, [seq (o.1, I1 o.2) | o <- p.2]) | p <- ins] =
  if vector_layers px py [seq (p.1, [seq fill o.2 o.1 | o <- p.2]) | p <- ins] is Some vs
  then Some [seq (TIso v.1.1, v.1.2, v.2) | v <- vs] else None.
Proof.
elim: ins => [|[b os] ins IH] //=; have [e1 e2] := iso_draw os.
rewrite (iso_layer _ _ _ e2) -e1 IH; case: (vector_layer _ _ _ _) => [[[l x] y]|] //.
by case: (vector_layers _ _ _).
Qed.

(** ** Convolution matrices *)
Section Convs.
Variable pinv : forall n, 'M[C]_n -> 'M[C]_n.

Lemma three_iso up n (f : bool -> bool -> option 'M[C]_n) c : three_convs pinv up f = Some c ->
  t_three_convs pinv up (f true true) (f true false) (f false true) = Some c.
Proof.
rewrite /three_convs /t_three_convs; case: (f true true) => [z|] //; case: (f true false) => [y|] //.
by case: (f false true) => [x|] //; case e: (meeinv _ _ _) => [zi|] // [<-]; rewrite (tinv_of e).
Qed.

Lemma conv_all_map (A A' B : Type) (h : A -> A') (f : A -> option B) (g : A' -> option B) ls cs :
  (forall l c, f l = Some c -> g (h l) = Some c) -> conv_all f ls = Some cs -> conv_all g (map h ls) = Some cs.
Proof.
move=> hh; elim: ls cs => [|l ls IH] cs //=; case el: (f l) => [c0|] //; case ec: (conv_all f ls) => [cs0|] // [<-].
by rewrite (hh _ _ el) (IH _ ec).
Qed.

Lemma convs_twin o c fx fy cs : same_cell (t_cell o) c -> convs_of pinv (numpy_twin c o) fx fy = Some cs ->
  t_convs_of pinv o fx fy = Some cs.
Proof.
move=> h; rewrite /convs_of /t_convs_of /=; case: (t_cell o) c / h => [ny nx layers|ins]; case: (o_mtype _) => [[]|] //=.
- case: ifP => // _; case: ifP => _; [|case: ifP => // _].
  + move=> e.
    have -> : [seq layer3 ny nx f | f <- layers] = map TIso (map (Raster ny nx) layers) by rewrite -map_comp.
    move: e; apply: conv_all_map => l c0; exact: three_iso.
  + have -> : [seq layer3 ny nx f | f <- layers] = map TIso (map (Raster ny nx) layers) by rewrite -map_comp.
    apply: conv_all_map => l c0; exact: three_iso.
- rewrite {1}/period_of /= -/(period_of (t_attrs o)); case: (period_of _) => [[px py]|] //.
  rewrite iso_layers; case: (vector_layers _ _ _) => [vs|] //.
  apply: conv_all_map => -[[l x] y] c0; exact: three_iso.
Qed.

(** ** Three equal components *)
Lemma each2_layers px py ins ins' :
  each2 (fun p p' : t_instruction => same_index p.1 p'.1 /\
           each2 (fun q q' : vobject * tindex => q.1 = q'.1 /\ same_index q.2 q'.2) p.2 p'.2) ins ins' ->
  (if t_vector_layers px py ins is Some vs then Some (map comps_of vs) else None) =
  (if t_vector_layers px py ins' is Some vs then Some (map comps_of vs) else None).
Proof.
elim: ins ins' => [|[b os] ins IH] [|[b' os'] ins'] //= [[hb ho] /IH {}IH].
have [h1 h2] : map fst (flatten (map t_draw os)) = map fst (flatten (map t_draw os')) /\
  [seq to_index_vector o.2 | o <- flatten (map t_draw os)] = [seq to_index_vector o.2 | o <- flatten (map t_draw os')].
  elim: os os' ho {IH} => [|q os IHo] [|q' os'] //= [[e1 e2] /IHo [IH1 IH2]].
  rewrite !map_cat IH1 IH2 /t_draw e1 -!map_comp; split=> //; congr (_ ++ _).
  by apply: eq_map => r /=; rewrite e2.
have := t_layer3E px py b (flatten (map t_draw os)).
rewrite h1 h2 hb -t_layer3E.
case: (t_vector_layer px py b _) => [v|]; case: (t_vector_layer px py b' _) => [v'|] // [ev ev0 ev1].
move: IH; case: (t_vector_layers px py ins) => [vs|]; case: (t_vector_layers px py ins') => [vs'|] //= [->].
by rewrite /comps_of ev; move: ev0 => -> ; rewrite ev1.
Qed.

Lemma conv_all_comps up fx fy vs vs' : map comps_of vs = map comps_of vs' ->
  conv_all (t_conv_vector pinv up fx fy) vs = conv_all (t_conv_vector pinv up fx fy) vs'.
Proof.
elim: vs vs' => [|[[l x] y] vs IH] [|[[l' x'] y'] vs'] //= [e1 e2 e3 /IH ->].
by rewrite /t_conv_vector e1 e2 e3.
Qed.

Lemma conv_all_ext (A A' B : Type) (h : A -> A') (f : A -> option B) (g : A' -> option B) ls :
  (forall l, f l = g (h l)) -> conv_all f ls = conv_all g (map h ls).
Proof. by move=> e; elim: ls => //= l ls ->; rewrite e. Qed.

Lemma promoted_convs a b b' c c' fx fy : promoted c c' ->
  t_convs_of pinv (TObj a c b) fx fy = t_convs_of pinv (TObj a c' b') fx fy.
Proof.
case=> [ny nx layers|ins ins' h]; rewrite /t_convs_of /=; case: (o_mtype a) => [[]|] //.
- have -> : [seq layer4 ny nx i | i <- [seq (fun i j => (f i j, f i j, f i j)) | f : nat -> nat -> C <- layers]] =
    [seq (if l is TIso l then TAni l l l else l) | l <- [seq layer3 ny nx i | i <- layers]] by rewrite -!map_comp.
  case: ifP => // _; case: ifP => _; [|case: ifP => // _]; apply: conv_all_ext; by case.
- case: (period_of a) => [[px py]|] //; have := each2_layers px py h.
  case: (t_vector_layers px py ins) => [vs|]; case: (t_vector_layers px py ins') => [vs'|] // [e].
  exact: conv_all_comps.
Qed.

Lemma close_refl z : close z z.
Proof.
rewrite /close /rleb subrr; case: (Rle_dec _ _) => // -[].
have := Cmod_ge_0 z; have -> : Cmod 0 = 0%coqR by rewrite Cmod_0.
move=> h; have : (0 < 10 ^ 5)%coqR by apply: pow_lt; lra.
move=> h5; have : (0 < 10 ^ 8)%coqR by apply: pow_lt; lra.
move=> h8; have := Rinv_0_lt_compat _ h5; have := Rinv_0_lt_compat _ h8 => k8 k5.
have : (0 <= / 10 ^ 5 * Cmod z)%coqR by apply: Rmult_le_pos => //; lra.
rewrite /Rdiv !Rmult_1_l; lra.
Qed.

Lemma not_aniso c : isotropic c -> t_is_aniso c = false.
Proof.
case: c => //= ny nx layers h; apply: negbF; rewrite /allclose; apply/andP; split; rewrite all_map.
- elim: layers h => //= f layers IH h; apply/andP; split; last by apply: IH => g hg; apply: h; right.
  apply/allP => i; rewrite mem_iota /= => hi; apply/allP => j; rewrite mem_iota /= => hj.
  by have [-> _] := h f (or_introl erefl) i j; exact: close_refl.
- elim: layers h => //= f layers IH h; apply/andP; split; last by apply: IH => g hg; apply: h; right.
  apply/allP => i; rewrite mem_iota /= => hi; apply/allP => j; rewrite mem_iota /= => hj.
  by have [_ ->] := h f (or_introl erefl) i j; exact: close_refl.
Qed.

Lemma not_close a b : far a b -> close a b = false.
Proof. by rewrite /far /close /rleb => h; case: (Rle_dec _ _) => // h'; lra. Qed.

Lemma aniso_true c : anisotropic c -> t_is_aniso c = true.
Proof.
case=> ny [nx [layers [f [i [j [-> hf hi hj hd]]]]]] /=; rewrite /allclose !all_map; apply/negP => /andP [h1 h2].
have at_ (P : (nat -> nat -> C * C * C) -> bool) : all P layers -> P f.
  by elim: layers hf {h1 h2} => //= g layers IH [->|/IH {}IH] /andP [].
have mi n k : (k < n)%N -> k \in iota 0 n by rewrite mem_iota.
case: hd => hd.
- by have /= := allP (allP (at_ _ h1) _ (mi _ _ hi)) _ (mi _ _ hj); rewrite not_close.
- by have /= := allP (allP (at_ _ h2) _ (mi _ _ hi)) _ (mi _ _ hj); rewrite not_close.
Qed.

Lemma promoted_rows c c' : promoted c c' -> t_rows c = t_rows c' /\ isotropic c /\ isotropic c'.
Proof.
case=> [ny nx layers|ins ins' h] //=; split=> //; split=> // f hf i j.
by have [g _ ->] := In_map hf.
Qed.

Lemma promoted_grating a b b' c c' fy : promoted c c' -> t_grating (TObj a c b) fy = t_grating (TObj a c' b') fy.
Proof. by move=> /promoted_rows [e [h1 h2]]; rewrite /t_grating /= e (not_aniso h1) (not_aniso h2). Qed.

End Convs.

Section Solve.
Variable pinv : forall n, 'M[C]_n -> 'M[C]_n.
Variable eig : forall n, 'M[C]_n -> 'rV[C]_n * 'M[C]_n.

Lemma promoted_solve a b b' c c' : promoted c c' ->
  (t_conv_solve pinv eig (TObj a c b)).2 = (t_conv_solve pinv eig (TObj a c' b')).2 /\
  t_attrs (t_conv_solve pinv eig (TObj a c b)).1 = t_attrs (t_conv_solve pinv eig (TObj a c' b')).1.
Proof.
move=> h; rewrite /t_conv_solve /=; case: (fto_of a) => [[fx fy]|] //.
rewrite (promoted_convs pinv a b b' fx fy h) (promoted_grating a b b' fy h).
case: (t_convs_of _ _ _ _) => [cs|] //; case: (o_theta a) => [th|] //; case: (period_of a) => [p|] //.
by case: (reqb _ _) => //; case: (t_solve_with _ _ _ _ _ _ _).
Qed.
End Solve.
