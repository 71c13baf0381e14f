(** The PyTorch solver object: results compared with NumPy, energy, dispatch, histories. *)
From Coq Require Import Reals ZArith Lra FunctionalExtensionality.
From mathcomp Require Import all_ssreflect ssralg matrix.
From Coquelicot Require Import Complex.
From Verif Require Import Cplx Mx Spec SpecSolve SpecLayer SpecTorch ModelTM ModelFourier ModelVec ModelField ModelState ModelTorch
  ModelTorchObj SpecState SpecJax SpecTorchObj ProofSetup ProofEff ProofCompose ProofPinv SpecFourier ProofConv ProofFourier ProofCell ProofRules ProofLayer ProofState2 ProofEnd ProofEnd2
  ProofInvert ProofTorch ProofTorch2 ProofTorch3 ProofTorch4 SpecAgree ProofAgree3 ProofTorchObj.

Set Implicit Arguments.
Unset Strict Implicit.
Unset Printing Implicit Defensive.
Local Open Scope ring_scope.
Import GRing.Theory.

Section Solve.
Variable pinv : forall n, 'M[C]_n -> 'M[C]_n.
Variable eig : forall n, 'M[C]_n -> 'rV[C]_n * 'M[C]_n.

(** ** The solvers *)
Lemma with_same c o fx fy th p (cs : seq (conv3 (fy.*2.+1 * fx.*2.+1))) g m r : let a := t_attrs o in
  physical_obj a -> is_real (o_nbot a) -> (o_use_pinv a = true -> pinv_oracle pinv) ->
  o_theta a = Some th -> period_of a = Some p -> g < 3 ->
  solve_with pinv eig (numpy_twin c o) th p cs (Some g) = (m, Solved r) -> no_flat_memo m ->
  exists m' r', t_solve_with pinv eig a th p cs (Some g) = (m', Solved r') /\ same_report r' r.
Proof.
move=> a hp [nb hb] hu et ep hg.
have [[nt _ hnt] _ _ [ps hps] _] := hp.
have en : - o_psi a = RtoC (- ps) by rewrite hps RtoC_opp.
have hs ts : physical (setup_of a fx fy th p ts) by exact: physical_setup.
rewrite /solve_with /t_solve_with /=.
case: ifP => h1; first by case=> <- <- _; do 2 eexists; split; [reflexivity|].
case: (o_algo a) h1 => // h1; case: (o_thickness a) => [|ts|] //.
case: g hg {h1} => [|[|[|g]]] // _.
- case e1: (solve_1d _ _ _ _ _ _) => [[[d T1] infos]|] // [<- <-] _.
  have hnb : is_real (n_bot (setup_of a fx fy th p ts)) by exists nb.
  have [r' e' [he _]] := torch_1d (hs ts) hnb (e1 : solve_1d pinv eig _ (setup_of a fx fy th p ts) _ _ = _).
  rewrite e'; do 2 eexists; split; first reflexivity.
  by constructor.
- case e1: (solve_1d_conical _ _ _ _ _ _) => [[d infos]|] // [<- <-] _.
  have e2 : solve_1d_conical pinv eig (o_use_pinv a) (with_psi (setup_of a fx fy th p ts) (RtoC (- ps))) (o_wavelength a) cs = Some (d, infos).
    by rewrite -e1 /with_psi /setup_of /= -/a en.
  have [r' e' [[he1 he2 he3] _ _]] := torch_conical (hs ts) hnt hb hps e2.
  rewrite e'; do 2 eexists; split; first reflexivity.
  by constructor.
- case e1: (solve_2d _ _ _ _ _ _) => [[d infos]|] // [<- <-] hf.
  have e2 : solve_2d pinv eig (o_use_pinv a) (with_psi (setup_of a fx fy th p ts) (RtoC (- ps))) (o_wavelength a) cs = Some (d, infos).
    by rewrite -e1 /with_psi /setup_of /= -/a en.
  have [r' e' [[he1 he2 he3] _ _]] := torch_2d hu (hs ts) hnt hb hps e2 hf.
  rewrite e'; do 2 eexists; split; first reflexivity.
  by constructor.
Qed.

(** ** Objects *)
Lemma plain_same o m r : let a := t_attrs o in
  physical_obj a -> is_real (o_nbot a) -> (o_use_pinv a = true -> pinv_oracle pinv) ->
  plain_run pinv eig o m r -> no_flat_memo m ->
  exists o' r', t_conv_solve pinv eig o = (o', Solved r') /\ same_report r' r.
Proof.
move=> a hp hb hu [fx [fy [cs [g [th [p [[ef ec eg et ep] [ew hg es]]]]]]]] hf.
have [m' [r' [e hr]]] := with_same hp hb hu et ep hg es hf.
rewrite /t_conv_solve ef ec et ep eg e; case er: (reqb _ _); last by do 2 eexists; split; [reflexivity|].
by case: ew; move: er; rewrite /reqb; case: Req_EM_T.
Qed.

Lemma twin_grating o c fy : same_cell (t_cell o) c -> o_phi (t_attrs o) <> Some 0 -> forall fx cs,
  convs_of pinv (numpy_twin c o) fx fy = Some cs -> t_grating o fy = grating_of (numpy_twin c o) fy.
Proof.
move=> h hphi fx cs; rewrite /t_grating /convs_of /=.
case em: (o_mtype _) => [[]|] //; first by rewrite /t_grating_of /grating_of /= em.
have e1 : t_is_aniso (t_cell o) = false by case: h.
rewrite e1; case: (t_cell o) c / h => [ny nx layers|ins] // _.
rewrite -em; exact: (@dispatch_agree (numpy_twin (CRaster ny nx layers) o) fy ny nx layers).
Qed.

Lemma twin_plain o c n' r : same_cell (t_cell o) c -> o_phi (t_attrs o) <> Some 0 ->
  conv_solve pinv eig (numpy_twin c o) = (n', Solved r) -> plain_run pinv eig o (o_memo n') r.
Proof.
move=> hc hphi /conv_solveE [fx [fy [cs [g [th [p [[ef ec eg pg et] [ep ew hg es]]]]]]]].
exists fx, fy, cs, g, th, p; split; split=> //.
- exact: convs_twin hc ec.
- by rewrite (twin_grating hc hphi ec).
Qed.

Lemma twin_same o c n' r : let a := t_attrs o in
  same_cell (t_cell o) c -> o_phi a <> Some 0 ->
  physical_obj a -> is_real (o_nbot a) -> (o_use_pinv a = true -> pinv_oracle pinv) ->
  conv_solve pinv eig (numpy_twin c o) = (n', Solved r) -> no_flat_memo (o_memo n') ->
  exists o' r', t_conv_solve pinv eig o = (o', Solved r') /\ same_report r' r.
Proof.
move=> a hc hphi hp hb hu e hf; exact: (plain_same hp hb hu (twin_plain hc hphi e) hf).
Qed.

(** ** Convolution matrices component by component *)
Lemma cfs_def fx fy l u cx cy : (0 < rows l)%N -> (0 < cols l)%N -> nrm2 u = 1%coqR ->
  all_px (fun n => 0 < Re (u * n ^+ 2)%R)%coqR l -> cx || cy -> exists2 M, t_cfs cx cy fx fy l = Some M & coercive u M.
Proof.
move=> hr hc u1 h hcc; rewrite /t_cfs.
have hl := all_pick_rows (all_pick_cols (all_flip h)).
move: (compression_ok hr hc) hl; rewrite /=.
set x := ends _ _; set y := ends _ _ => -[kx ky _ _] hl.
have px0 : last 0%coqR x <> 0%coqR by case: kx => _ ->; lra.
have py0 : last 0%coqR y <> 0%coqR by case: ky => _ ->; lra.
apply: four2d_defined => //; try exact: cfs_in_range; try exact: cfs_reads; try exact: cfs_linear; try exact: cfs_unital.
- exact: cfs_keeps_sign kx.
- exact: cfs_keeps_sign ky.
by move=> i j hi hj; apply: hl; [move: hi | move: hj]; rewrite /= /ends size_map.
Qed.

Lemma dfs_def e fx fy l u cx cy : (0 < rows l)%N -> (0 < cols l)%N -> nrm2 u = 1%coqR ->
  all_px (fun n => 0 < Re (u * n ^+ 2)%R)%coqR l -> cx || cy -> exists2 M, t_dfs e cx cy fx fy l = Some M & coercive u M.
Proof.
move=> hr hc u1 h hcc; rewrite /t_dfs.
have [h1 h2] := enlarge_size e fx fy hr hc.
have hl := all_enlarge (e := e) (fto_x := fx) (fto_y := fy) h.
set l' := enlarge _ _ _ _ in h1 h2 hl *.
have hx : (fx.*2.+1 <= cols l')%N by apply: dbl_lt.
have hy : (fy.*2.+1 <= rows l')%N by apply: dbl_lt.
apply: four2d_defined => //; try exact: fft_in_range; try exact: fft_reads; try exact: fft_linear; try exact: fft_unital; exact: fft_keeps_sign.
Qed.

Lemma t_cfs_herm fx fy l cx cy M : all_px real_index l -> t_cfs cx cy fx fy l = Some M -> hermitian M.
Proof.
move=> h; apply: cfs2d_herm; rewrite /ends !size_map.
have hp := all_pick_rows (all_pick_cols (all_flip h)).
exact: real_eps hp.
Qed.

Lemma t_dfs_herm e fx fy l cx cy M : (0 < rows l)%N -> (0 < cols l)%N -> all_px real_index l ->
  t_dfs e cx cy fx fy l = Some M -> hermitian M.
Proof.
move=> hr hc h; have [h1 h2] := enlarge_size e fx fy hr hc.
apply: dfs2d_herm; try exact: dbl_lt.
by apply: real_eps; apply: all_enlarge.
Qed.

Lemma real_pos z : real_nonzero z -> (0 < Re (1 * z ^+ 2)%R)%coqR.
Proof.
case: z => x y [[h] h0]; have hy : y = 0%coqR by lra.
rewrite mul1r expr2 /Re /= hy; have hx : x <> 0%coqR by move=> ex; apply: h0; rewrite ex hy.
by have := Rsqr_pos_lt x hx; rewrite /Rsqr; lra.
Qed.

Lemma all_impl (P Q : C -> Prop) l : (forall z, P z -> Q z) -> all_px P l -> all_px Q l.
Proof. by move=> h hl i j hi hj; apply/h/hl. Qed.

(** Every component of the layer satisfies [P]. *)
Definition layer_all (P : C -> Prop) (l : t_layer) : Prop :=
  let '(lx, ly, lz) := components l in [/\ all_px P lx, all_px P ly & all_px P lz].
Definition layer_dim (ny nx : nat) (l : t_layer) : Prop :=
  let '(lx, ly, lz) := components l in [/\ rows lx = ny, rows ly = ny & rows lz = ny] /\ [/\ cols lx = nx, cols ly = nx & cols lz = nx].

Lemma t_three_lossless n (z y x : option 'M[C]_n) c : (forall M, z = Some M -> hermitian M /\ M \in unitmx) ->
  (forall M, y = Some M -> hermitian M) -> (forall M, x = Some M -> hermitian M) ->
  t_three_convs pinv false z y x = Some c -> lossless_convs c.
Proof.
rewrite /t_three_convs; case: z => [z|] // hz; case: y => [y|] // hy; case: x => [x|] // hx [<-].
have [h1 h2] := hz _ erefl; split; [exact: hx|exact: hy|].
rewrite /t_inv h2; exact: herm_inv.
Qed.

Lemma nrm2_1 : nrm2 1 = 1%coqR.
Proof. by rewrite /nrm2 /Re /Im /=; ring. Qed.

Section Raster.
Variables (n : nat) (d : bool -> bool -> raster -> option 'M[C]_n) (ny nx : nat).
Hypothesis d_def : forall u cx cy l, rows l = ny -> cols l = nx -> nrm2 u = 1%coqR ->
  all_px (fun z => 0 < Re (u * z ^+ 2)%R)%coqR l -> cx || cy -> exists2 M, d cx cy l = Some M & coercive u M.
Hypothesis d_herm : forall cx cy l M, rows l = ny -> cols l = nx -> all_px real_index l -> d cx cy l = Some M -> hermitian M.
Hypothesis d_line : forall l M, rows l = ny -> cols l = nx -> y_invariant l -> d true false l = Some M -> d true true l = Some M.
Definition conv_by up (l : t_layer) :=
  let '(lx, ly, lz) := components l in t_three_convs pinv up (d true true lz) (d true false ly) (d false true lx).

Lemma by_lossless l c : layer_dim ny nx l -> layer_all real_nonzero l -> conv_by false l = Some c -> lossless_convs c.
Proof.
rewrite /layer_dim /layer_all /conv_by; case: (components l) => [[lx ly] lz] [[r1 r2 r3] [c1 c2 c3]] [h1 h2 h3].
have hr l' : all_px real_nonzero l' -> all_px real_index l' by apply: all_impl => z [].
have hp l' : all_px real_nonzero l' -> all_px (fun z => 0 < Re (1 * z ^+ 2)%R)%coqR l' by apply: all_impl => z; exact: real_pos.
apply: t_three_lossless => M e.
- split; first exact: (d_herm r3 c3 (hr _ h3) e).
  have [M' e' hM] := @d_def 1 true true lz r3 c3 nrm2_1 (hp _ h3) isT.
  by move: e; rewrite e' => -[<-]; exact: coercive_unit hM.
- exact: (d_herm r2 c2 (hr _ h2) e).
- exact: (d_herm r1 c1 (hr _ h1) e).
Qed.

Lemma by_line l c : layer_dim ny nx l -> layer_all real_nonzero l -> (components l).1.2 = (components l).2 ->
  y_invariant (components l).2 -> conv_by false l = Some c -> line_convs c.
Proof.
rewrite /layer_dim /layer_all /conv_by; case: (components l) => [[lx ly] lz] [[r1 r2 r3] [c1 c2 c3]] [h1 h2 h3] /= e0 hy.
rewrite /t_three_convs e0; case ez: (d true true lz) => [z|] //; case ey: (d true false lz) => [y|] //.
case: (d false true lx) => [x|] // [<-].
have := d_line r3 c3 hy ey; rewrite ez => -[<-].
have hp l' : all_px real_nonzero l' -> all_px (fun z => 0 < Re (1 * z ^+ 2)%R)%coqR l' by apply: all_impl => z0; exact: real_pos.
have [M' e' hM] := @d_def 1 true true lz r3 c3 nrm2_1 (hp _ h3) isT.
move: ez; rewrite e' => -[<-]; rewrite /line_convs /t_inv (coercive_unit hM).
exact: mulVmx (coercive_unit hM).
Qed.

Lemma by_defined up l : layer_dim ny nx l ->
  (let '(lx, ly, lz) := components l in [/\ half_plane_of ny nx (px lx), half_plane_of ny nx (px ly) & half_plane_of ny nx (px lz)]) ->
  exists c, conv_by up l = Some c.
Proof.
rewrite /layer_dim /conv_by; case: (components l) => [[lx ly] lz] [[r1 r2 r3] [c1 c2 c3]] [[u1 k1 h1] [u2 k2 h2] [u3 k3 h3]].
have [X -> _] := @d_def u1 false true lx r1 c1 k1 (fun i j hi hj => h1 i j (eq_ind _ (fun m => is_true (i < m)%N) hi _ r1) (eq_ind _ (fun m => is_true (j < m)%N) hj _ c1)) isT.
have [Y -> _] := @d_def u2 true false ly r2 c2 k2 (fun i j hi hj => h2 i j (eq_ind _ (fun m => is_true (i < m)%N) hi _ r2) (eq_ind _ (fun m => is_true (j < m)%N) hj _ c2)) isT.
have [Z -> _] := @d_def u3 true true lz r3 c3 k3 (fun i j hi hj => h3 i j (eq_ind _ (fun m => is_true (i < m)%N) hi _ r3) (eq_ind _ (fun m => is_true (j < m)%N) hj _ c3)) isT.
by eexists.
Qed.
End Raster.

Lemma t_cfs_line fx fy l M : (0 < rows l)%N -> (0 < cols l)%N -> y_invariant l ->
  t_cfs true false fx fy l = Some M -> t_cfs true true fx fy l = Some M.
Proof.
move=> hr hc h; rewrite /t_cfs.
have hl := y_inv_rows (y_inv_cols (y_inv_flip h)).
move: (compression_ok hr hc) hl; rewrite /=.
set x := ends _ _; set y := ends _ _ => -[cx cy _ _] hl.
have hy0 : (0 < size y)%N by case: (y) cy => // -[_ /=]; lra.
apply: four2d_line => //; try exact: cfs_in_range; try exact: cfs_reads.
  by apply: cfs_unital; case: cy => _ ->; lra.
move=> b a hb ha; rewrite /eps_of hl //; [move: hb | move: ha]; by rewrite /= /ends size_map.
Qed.

Lemma t_dfs_line e fx fy l M : (0 < rows l)%N -> (0 < cols l)%N -> y_invariant l ->
  t_dfs e true false fx fy l = Some M -> t_dfs e true true fx fy l = Some M.
Proof.
move=> hr hc h; have [h1 h2] := enlarge_size e fx fy hr hc.
have hl := y_inv_enlarge (e := e) (fto_x := fx) (fto_y := fy) h.
apply: four2d_line => //; try (by apply: fft_in_range; apply: dbl_lt); try exact: fft_reads.
- by apply: fft_unital; apply: dbl_lt.
- exact: leq_trans h1.
by move=> b a hb ha; rewrite /eps_of hl.
Qed.

(** ** Whole cells *)

(** The raster layers of a cell. *)
Definition raster_layers (c : tcell) : option (nat * nat * seq t_layer) :=
  match c with
  | TRaster3 ny nx layers => Some (ny, nx, map (layer3 ny nx) layers)
  | TRaster4 ny nx layers => Some (ny, nx, map (layer4 ny nx) layers)
  | _ => None
  end.

Lemma raster_convs o fx fy cs : o_mtype (t_attrs o) = Some false -> t_convs_of pinv o fx fy = Some cs ->
  exists ny nx ls, [/\ raster_layers (t_cell o) = Some (ny, nx, ls), (0 < ny)%N, (0 < nx)%N &
    let up := o_use_pinv (t_attrs o) in
    (conv_all (conv_by (fun cx cy => t_dfs (o_enhanced (t_attrs o)) cx cy fx fy) up) ls = Some cs) \/
    (conv_all (conv_by (fun cx cy => t_cfs cx cy fx fy) up) ls = Some cs)].
Proof.
move=> hm; rewrite /t_convs_of hm; case: (t_cell o) => [|ny nx ls|ny nx ls|ins|] //=;
  (case: eqP => // /eqP; rewrite -lt0n => ny0; case: eqP => // /eqP; rewrite -lt0n => nx0 /=;
   case: ifP => _; [|case: ifP => // _] => e; do 3 eexists; split; [reflexivity|exact ny0|exact nx0| |reflexivity|exact ny0|exact nx0| ];
   [by left|by right]).
Qed.

(** Vector layers *)
Lemma t_paint_px A (Q : A -> Prop) a b cell (objs : seq (rect * A)) cell' : (forall i j, Q (cell i j)) ->
  (forall o, List.In o objs -> Q o.2) -> t_paint_all a b cell objs = Some cell' -> forall i j, Q (cell' i j).
Proof.
elim: objs cell => [|o objs IH] cell h ho /=; first by case=> <-.
case e: (t_paint a b cell o) => [c1|] //; apply: IH; last by move=> o' h'; apply: ho; right.
move: e; rewrite /t_paint; case: (span a _ _) => [[rb re]|] //; case: (span b _ _) => [[cb ce]|] // [<-] i j.
by case: ifP => // _; apply: ho; left.
Qed.

Lemma In_zip (A B : Type) (s : seq A) (t : seq B) x : List.In x (zip s t) -> List.In x.2 t.
Proof. by elim: s t => [|a s IH] [|b t] //= [<-|/IH]; [left|right]. Qed.

Lemma t_vector_px (P : C -> Prop) px py b objs l x y : comp3 P (to_index_vector b) ->
  (forall o, List.In o objs -> comp3 P (to_index_vector o.2)) ->
  t_vector_layer px py b objs = Some (l, x, y) -> layer_all P l /\ layer_dim (size y) (size x) l.
Proof.
move=> hb ho e; have := t_layer3E px py b objs; rewrite e /t_layer3 /comps_of /layer_all /layer_dim /=.
case: (grid_lists _) => [[[p rl] cl] ds]; case ep: (t_paint_all _ _ _ _) => [c|] // e0.
move: e0; case: (components l) => [[lx ly] lz] [-> -> -> -> ->].
have h : forall i j, comp3 P (c i j).
  refine (@t_paint_px _ (comp3 P) _ _ _ _ _ _ _ ep) => // o /In_zip h; have [o' h' ->] := In_map h; exact: ho.
by split; [split=> i j _ _; case: (h i j)|].
Qed.

Lemma t_layers_in px py ins vs : t_vector_layers px py ins = Some vs -> forall v, List.In v vs ->
  exists b objs, List.In (b, objs) ins /\ t_vector_layer px py b (flatten (map t_draw objs)) = Some v.
Proof.
elim: ins vs => [|[b objs] ins IH] vs /=; first by case=> <-.
case e: (t_vector_layer _ _ _ _) => [v0|] //; case es: (t_vector_layers _ _ _) => [vs0|] // [<-] v [<-|h].
  by exists b, objs; split=> //; left.
by have [b' [o' [h1 h2]]] := IH _ es _ h; exists b', o'; split=> //; right.
Qed.

Lemma t_vector_lossless fx fy l x y c : hermitian_pinv pinv -> layer_dim (size y) (size x) l -> layer_all real_index l ->
  t_conv_vector pinv false fx fy (l, x, y) = Some c -> lossless_convs c.
Proof.
move=> hh; rewrite /layer_dim /layer_all /t_conv_vector; case: (components l) => [[lx ly] lz] [[r1 r2 r3] [c1 c2 c3]] [h1 h2 h3].
rewrite /t_three_convs; case ez: (cfs2d _ _ _ true true _ _) => [z|] //; case ey: (cfs2d _ _ _ true false _ _) => [yy|] //.
case ex: (cfs2d _ _ _ false true _ _) => [xx|] // [<-].
have hz : hermitian z by apply: (cfs2d_herm _ ez); rewrite -r3 -c3; exact: real_eps.
split; [apply: (cfs2d_herm _ ex); rewrite -r1 -c1; exact: real_eps|apply: (cfs2d_herm _ ey); rewrite -r2 -c2; exact: real_eps|].
by rewrite /t_inv; case: ifP => _; [exact: herm_inv|exact: hh].
Qed.

Lemma layers_cell P c ny nx ls l : raster_layers c = Some (ny, nx, ls) -> cell_all P c -> List.In l ls ->
  layer_dim ny nx l /\ layer_all P l.
Proof.
case: c => [|ny' nx' fs|ny' nx' fs|ins|] //= [<- <- <-] h hl; have [f hf ->] := In_map hl; split=> //; rewrite /layer_all /=.
- by split=> i j hi hj; apply: h.
- by split=> i j hi hj; have [] := h f hf i j hi hj.
Qed.

Lemma t_convs_lossless o fx fy cs : cell_all real_nonzero (t_cell o) -> o_use_pinv (t_attrs o) = false ->
  (o_mtype (t_attrs o) = Some true -> hermitian_pinv pinv) ->
  t_convs_of pinv o fx fy = Some cs -> forall c, List.In c cs -> lossless_convs c.
Proof.
move=> hr hu hv ec c hc; case em: (o_mtype (t_attrs o)) => [[]|]; last by move: ec; rewrite /t_convs_of em; case: (t_cell o).
- move: ec; rewrite /t_convs_of em hu; case: (t_cell o) hr => // ins hr.
  case: (period_of _) => [[px py]|] //; case ev: (t_vector_layers _ _ _) => [vs|] // ec.
  have [[[l x] y] hin hl] := conv_all_in ec hc.
  have [b [objs [h1 h2]]] := t_layers_in ev hin; have [h3 h4] := hr _ _ h1.
  have [|k1 k2] := t_vector_px (P := real_nonzero) h3 _ h2.
    move=> q hq; have [s hs h5] := In_flatten hq; have [ob h6 es] := In_map hs.
    by move: h5; rewrite es /t_draw => h7; have [r0 _ ->] := In_map h7; exact: (h4 _ h6).
  apply: (t_vector_lossless (hv em) k2 _ hl).
  move: k1; rewrite /layer_all; case: (components l) => [[lx ly] lz] [a1 a2 a3].
  by split; [move: a1|move: a2|move: a3]; apply: all_impl => z [].
- have [ny [nx [ls [el ny0 nx0 eo]]]] := raster_convs em ec; rewrite hu in eo.
  case: eo => eo; have [l hin hl] := conv_all_in eo hc; have [h1 h2] := layers_cell el hr hin; apply: (by_lossless _ _ h1 h2 hl).
  + by move=> u cx cy l0 e1 e2; apply: dfs_def; rewrite ?e1 ?e2.
  + by move=> cx cy l0 M e1 e2; apply: t_dfs_herm; rewrite ?e1 ?e2.
  + by move=> u cx cy l0 e1 e2; apply: cfs_def; rewrite ?e1 ?e2.
  + by move=> cx cy l0 M e1 e2; exact: t_cfs_herm.
Qed.

Lemma t_convs_line o fx fy cs : cell_all real_nonzero (t_cell o) -> o_use_pinv (t_attrs o) = false ->
  o_mtype (t_attrs o) = Some false -> t_rows (t_cell o) = 1%N -> isotropic (t_cell o) ->
  t_convs_of pinv o fx fy = Some cs -> forall c, List.In c cs -> line_convs c.
Proof.
move=> hr hu em h1 hi ec c hc; have [ny [nx [ls [el ny0 nx0 eo]]]] := raster_convs em ec; rewrite hu in eo.
have eny : ny = 1%N by move: el h1; case: (t_cell o) => //= ? ? ? [<- _ _].
rewrite {}eny {ny0} in el eo.
have key l : List.In l ls -> (components l).1.2 = (components l).2 /\ y_invariant (components l).2.
  move: el hi; case: (t_cell o) => [|ny' nx' fs|ny' nx' fs|ins|] //= [-> -> <-] hi hl; have [f hf ->] := In_map hl => /=.
    by split=> // -[|i].
  split; last by case.
  congr Raster; apply: functional_extensionality => i; apply: functional_extensionality => j; by have [_] := hi f hf i j.
case: eo => eo; have [l hin hl] := conv_all_in eo hc; have [k1 k2] := layers_cell el hr hin; have [k3 k4] := key l hin;
  apply: (by_line _ _ k1 k2 k3 k4 hl).
- by move=> u cx cy l0 e1 e2; apply: dfs_def; rewrite ?e1 ?e2.
- by move=> l0 M e1 e2; apply: t_dfs_line; rewrite ?e1 ?e2.
- by move=> u cx cy l0 e1 e2; apply: cfs_def; rewrite ?e1 ?e2.
- by move=> l0 M e1 e2; apply: t_cfs_line; rewrite ?e1 ?e2.
Qed.

(** ** Energy *)
Lemma same_report_all (P : forall n, diffraction n -> Prop) r r' :
  (forall n (a b : diffraction n), same_efficiencies a b -> P n b -> P n a) ->
  same_report r' r -> report_all P r -> report_all P r'.
Proof.
move=> hP [n a b c a' b' c' h1 h2 h3] [k1 k2 k3]; split=> d e.
- by move: h1; rewrite e /same_block; case: a' k1 => // x k1 h; apply: hP h (k1 _ erefl).
- by move: h2; rewrite e /same_block; case: b' k2 => // x k2 h; apply: hP h (k2 _ erefl).
- by move: h3; rewrite e /same_block; case: c' k3 => // x k3 h; apply: hP h (k3 _ erefl).
Qed.

(** The 1D solver sees an azimuth of zero and none at all alike. *)
Definition no_phi (s : setup) : setup :=
  Setup (n_top s) (n_bot s) (theta s) None (psi s) (pol s) (fto_x s) (fto_y s) (period_x s) (period_y s) (thickness s).
Lemma phi_zero s w convs up : phi s = None \/ phi s = Some 0 -> solve_1d pinv eig up s w convs = solve_1d pinv eig up (no_phi s) w convs.
Proof. by case: s convs => nt nb th ph ps pl fx fy px py ts convs /= [] ->. Qed.

Lemma grating_cases o fy g : t_grating o fy = Some g -> o_mtype (t_attrs o) <> None ->
  [/\ g = 0%N -> fy = 0%N /\ (o_phi (t_attrs o) = None \/ o_phi (t_attrs o) = Some 0),
      g = 1%N -> [/\ o_mtype (t_attrs o) = Some false, t_rows (t_cell o) = 1%N & t_is_aniso (t_cell o) = false]
    & g < 3].
Proof.
rewrite /t_grating /t_grating_of; case: (o_mtype (t_attrs o)) => [[]|] //; first by case=> <-.
case: eqP => [er|_]; last by case=> <-.
case: ifP => [/andP [/andP [_ hphi] /eqP ->] [<-]|_ ].
  split=> // _; split=> //; move: hphi; case: (o_phi _) => [z /eqP ->|_]; [by right|by left].
by case: ifP => // ha [<-].
Qed.

Lemma convs_mtype o fx fy cs : t_convs_of pinv o fx fy = Some cs -> o_mtype (t_attrs o) <> None.
Proof. by rewrite /t_convs_of => h e; move: h; rewrite e; case: (t_cell o). Qed.

Lemma plain_energy o m r : eigen_oracle eig -> let a := t_attrs o in physical_obj a -> cell_all real_nonzero (t_cell o) ->
  isotropic (t_cell o) \/ anisotropic (t_cell o) -> o_use_pinv a = false -> (o_mtype a = Some true -> hermitian_pinv pinv) ->
  plain_run pinv eig o m r -> report_all power_conserved r.
Proof.
move=> heig a hp hr hia hu hv [fx [fy [cs [g [th [p [[ef ec eg et ep] [ew hg es]]]]]]]].
have hl := t_convs_lossless hr hu hv ec.
have [g0 g1 _] := grating_cases eg (convs_mtype ec).
have hphys ts : physical (setup_of (numpy_twin CNone o) fx fy th p ts) by exact: (@physical_setup a).
have hpsi : is_real (- o_psi a) by case: hp => _ _ _ [q ->] _; exists (- q)%coqR; rewrite RtoC_opp.
move: es; rewrite /solve_with /= -/a hu; case: ifP => _; first by case=> _ <-; split.
case: (o_algo a) => //; case: (o_thickness a) => [|ts|] //.
case: g eg hg g0 g1 => [|[|[|g]]] // eg _ g0 g1.
- have [efy eph] := g0 erefl.
  case e1: (solve_1d _ _ _ _ _ _) => [[[d T1] infos]|] // [_ <-]; split=> // d' [<-].
  rewrite phi_zero in e1; last exact: eph.
  have h1 : physical (no_phi (setup_of (numpy_twin CNone o) fx fy th p ts)).
    by have [k1 k2 k3 k4 k5] := hphys ts; split.
  apply: (energy_solve_1d heig h1 _ _ e1) => //.
  move=> c hc; have [c0 h0 ->] := In_map (In_take hc); apply: crop3_lossless; last exact: hl.
  by rewrite efy mul1n.
- have [hm h1 ha] := g1 erefl.
  have hi : isotropic (t_cell o) by case: hia => // /aniso_true; rewrite ha.
  case e1: (solve_1d_conical _ _ _ _ _ _) => [[d infos]|] // [_ <-].
  have [|k1 k2 k3] := energy_solve_conical heig (hphys ts) hpsi _ e1.
    by move=> c hc; split; [exact: hl (In_take hc) | exact: (t_convs_line hr hu hm h1 hi ec (In_take hc))].
  by split=> d' [<-].
- case e1: (solve_2d _ _ _ _ _ _) => [[d infos]|] // [_ <-].
  have [|k1 k2 k3] := energy_solve_2d heig (hphys ts) hpsi _ e1.
    by move=> c hc; exact: hl (In_take hc).
  by split=> d' [<-].
Qed.

Lemma plain_nonneg o m r (b : R) : let a := t_attrs o in physical_obj a -> o_nbot a = RtoC b -> (0 < b)%coqR ->
  plain_run pinv eig o m r -> report_all nonneg_eff r.
Proof.
move=> a hp hb b0 [fx [fy [cs [g [th [p [[ef ec eg et ep] [ew hg es]]]]]]]].
have [g0 _ _] := grating_cases eg (convs_mtype ec).
have [[nt nt0 hnt] /(_ _ et) [t t0 ht] hph _ _] := hp.
have hpv ts : exists f : R, phi_val (setup_of (numpy_twin CNone o) fx fy th p ts) = RtoC f by apply: phi_real.
move: es; rewrite /solve_with /= -/a; case: ifP => _; first by case=> _ <-; split.
case: (o_algo a) => //; case: (o_thickness a) => [|ts|] //; have [f hf] := hpv ts.
case: g eg hg g0 => [|[|[|g]]] // eg _ g0.
- have [_ eph] := g0 erefl.
  case e1: (solve_1d _ _ _ _ _ _) => [[[d T1] infos]|] // [_ <-]; split=> // d' [<-].
  rewrite phi_zero in e1; last exact: eph.
  by have [] := c03_1d (s := no_phi (setup_of (numpy_twin CNone o) fx fy th p ts)) hnt nt0 ht t0 erefl hb b0 e1.
- case e1: (solve_1d_conical _ _ _ _ _ _) => [[d infos]|] // [_ <-].
  move: e1; rewrite /solve_1d_conical; case: ifP => // _; case: (layers_of _ _) => [ls|] // /rcwa_conical_inv h.
  have [[h1 _] [h2 _] [h3 _]] := c03_sp (s := setup_of (numpy_twin CNone o) fx fy th p ts) hnt nt0 ht t0 hf hb b0 h.
  by split=> d' [<-].
- case e1: (solve_2d _ _ _ _ _ _) => [[d infos]|] // [_ <-].
  move: e1; rewrite /solve_2d; case: (layers_of _ _) => [ls|] // /rcwa_2d_inv h.
  have [[h1 _] [h2 _] [h3 _]] := c03_sp (s := setup_of (numpy_twin CNone o) fx fy th p ts) hnt nt0 ht t0 hf hb b0 h.
  by split=> d' [<-].
Qed.

Lemma t_energy_obj o m r (b : R) : eigen_oracle eig -> let a := t_attrs o in physical_obj a -> o_nbot a = RtoC b -> (0 < b)%coqR ->
  cell_all real_nonzero (t_cell o) -> isotropic (t_cell o) \/ anisotropic (t_cell o) -> o_use_pinv a = false ->
  (o_mtype a = Some true -> hermitian_pinv pinv) ->
  plain_run pinv eig o m r -> no_flat_memo m ->
  exists o' r', [/\ t_conv_solve pinv eig o = (o', Solved r'), report_all power_conserved r' & report_all eff_in_unit r'].
Proof.
move=> heig a hp hb b0 hr hia hu hv hrun hf.
have hbr : is_real (o_nbot a) by exists b.
have hup : o_use_pinv a = true -> pinv_oracle pinv by rewrite hu.
have [o' [r' [e hs]]] := plain_same hp hbr hup hrun hf.
have h1 := same_report_all (P := power_conserved) (fun n a b => @same_power n a b) hs (plain_energy heig hp hr hia hu hv hrun).
have h2 := same_report_all (P := nonneg_eff) (fun n a b => @same_nonneg n a b) hs (plain_nonneg hp hb b0 hrun).
exists o', r'; split=> //; case: r' h1 h2 {e hs} => n x y z [e1 e2 e3] [k1 k2 k3]; split=> d ed.
- exact (unit_eff (e1 _ ed) (k1 _ ed)).
- exact (unit_eff (e2 _ ed) (k2 _ ed)).
- exact (unit_eff (e3 _ ed) (k3 _ ed)).
Qed.

(** ** The convolution matrices of dielectrics and metals exist *)
Lemma conv_all_some (A B : Type) (f : A -> option B) ls : (forall l, List.In l ls -> exists c, f l = Some c) ->
  exists cs, conv_all f ls = Some cs.
Proof.
elim: ls => [|l ls IH] h /=; first by eexists.
have [c ->] := h l (or_introl erefl); have [|cs ->] := IH; first by move=> l' h'; apply: h; right.
by eexists.
Qed.

Lemma half_layers c ny nx ls l : raster_layers c = Some (ny, nx, ls) -> half_plane_tcell c -> List.In l ls -> layer_dim ny nx l /\
  let '(lx, ly, lz) := components l in [/\ half_plane_of ny nx (px lx), half_plane_of ny nx (px ly) & half_plane_of ny nx (px lz)].
Proof.
case: c => [|ny' nx' fs|ny' nx' fs|ins|] //= [<- <- <-] h hl; have [f hf ->] := In_map hl; split=> //=.
- by have := h _ hf.
- exact: h.
Qed.

Lemma t_convs_defined o fx fy ny nx ls : let a := t_attrs o in
  o_mtype a = Some false -> raster_layers (t_cell o) = Some (ny, nx, ls) -> (0 < ny)%N -> (0 < nx)%N ->
  o_fourier_type a = 0%Z \/ o_fourier_type a = 1%Z -> half_plane_tcell (t_cell o) ->
  exists cs, t_convs_of pinv o fx fy = Some cs.
Proof.
move=> a em el ny0 nx0 hft hh; pose up := o_use_pinv a.
have hd : exists cs, conv_all (conv_by (fun cx cy => t_dfs (o_enhanced a) cx cy fx fy) up) ls = Some cs.
  apply: conv_all_some => l hl; have [h1 h2] := half_layers el hh hl.
  apply: (by_defined _ up h1 h2) => u cx cy l0 e1 e2; apply: dfs_def; by rewrite ?e1 ?e2.
have hc : exists cs, conv_all (conv_by (fun cx cy => t_cfs cx cy fx fy) up) ls = Some cs.
  apply: conv_all_some => l hl; have [h1 h2] := half_layers el hh hl.
  apply: (by_defined _ up h1 h2) => u cx cy l0 e1 e2; apply: cfs_def; by rewrite ?e1 ?e2.
have e0 : (ny == 0%N) || (nx == 0%N) = false by rewrite !eqn0Ngt ny0 nx0.
case: hd => cd hd; case: hc => cc hc.
rewrite /t_convs_of -/a em; move: el; case: (t_cell o) => [|ny' nx' fs|ny' nx' fs|ins|]; try discriminate.
- case=> e1 e2 e3; rewrite -e1 -e2 in e0; rewrite e0 e3; case: hft => eft; rewrite eft; [exists cd; exact hd|exists cc; exact hc].
- case=> e1 e2 e3; rewrite -e1 -e2 in e0; rewrite e0 e3; case: hft => eft; rewrite eft; [exists cd; exact hd|exists cc; exact hc].
Qed.

(** ** Histories *)
Lemma t_same_solve o1 o2 : same_tsettings o1 o2 ->
  (t_conv_solve pinv eig o1).2 = (t_conv_solve pinv eig o2).2 /\
  ((t_conv_solve pinv eig o1).2 <> Raised -> o_memo (t_attrs (t_conv_solve pinv eig o1).1) = o_memo (t_attrs (t_conv_solve pinv eig o2).1)).
Proof.
case: o1 o2 => [a c b] [a' c' b'] [[[h1 h2 h3 h4] [[h5 h6 h7 h8] [[h9 h10 h11 h12] [h13 h14 h15 h16]]]] /= hc]; rewrite hc.
have ef : fto_of a = fto_of a' by rewrite /fto_of h7.
have ep : period_of a = period_of a' by rewrite /period_of h8.
have ec fx fy : t_convs_of pinv (TObj a c' b) fx fy = t_convs_of pinv (TObj a' c' b') fx fy.
  by rewrite /t_convs_of /= h12 h14 h15 h16 ep.
rewrite /t_conv_solve /= ef; case: (fto_of a') => [[fx fy]|] //; rewrite ec; case ecs: (t_convs_of _ _ _ _) => [cs|] //.
have eg : t_grating (TObj a c' b) fy = t_grating (TObj a' c' b') fy.
  rewrite /t_grating /= h4 h6 -h14; have := convs_mtype ecs; rewrite /= -h14.
  by rewrite /t_grating_of; case: (o_mtype a) => [[]|].
rewrite eg h3 ep h9; case: (o_theta a') => [th|] //; case: (period_of a') => [p|] //; case: (reqb _ _) => //.
have -> : t_solve_with pinv eig a th p cs (t_grating (TObj a' c' b') fy) = t_solve_with pinv eig a' th p cs (t_grating (TObj a' c' b') fy).
  by rewrite /t_solve_with /setup_of h1 h2 h4 h5 h6 h9 h10 h11 h12.
by case: (t_solve_with _ _ _ _ _ _ _).
Qed.

Lemma t_kw kw o : (forall r, List.In r (t_run pinv eig kw o).2 -> r <> Raised) ->
  t_conv_solve_kw pinv eig kw o = t_conv_solve pinv eig (t_run pinv eig kw o).1.
Proof.
elim: kw o => [|a kw IH] o //= h; move: h.
case: (t_do_op pinv eig a o) => [o1 r]; case e: (t_run _ _ kw o1) => [o2 rs] /= h.
have -> : t_conv_solve pinv eig o2 = t_conv_solve_kw pinv eig kw o1.
  by rewrite IH e // => r' hr; apply: h; right.
by have := h r (or_introl erefl); case: r {h}.
Qed.

(** ** Line gratings *)
Lemma t_orders_2d : eigen_oracle eig ->
  forall s w (p nt nb : R) (convs : seq (conv3 (ff_x s))) (e : ff_x s = (ff_y s * ff_x s)%N), physical s ->
  n_top s = RtoC nt -> n_bot s = RtoC nb -> psi s = RtoC p ->
  (forall t, List.In t (thickness s) -> (0 <= t)%coqR) -> phi_val s = 0 -> fto_y s = 0%N ->
  forall r1 T1 infos1 r infos,
  solve_1d pinv eig false s w convs = Some (r1, T1, infos1) ->
  solve_2d pinv eig false (with_psi s (RtoC (- p))) w (map (cast_conv e) convs) = Some (r, infos) -> no_flat_mode infos ->
  exists r1' r', [/\ t_solve_1d pinv eig false s w convs = Some (r1', T1, infos1),
    t_solve_2d pinv eig false s w (map (cast_conv e) convs) = Some (r', infos) & same_eff_orders r1' (pure s r')].
Proof.
move=> heig s w p nt nb convs e hp ht hb hps hd hphi hfy r1 T1 infos1 r infos e1 e2 hf.
have hbr : is_real (n_bot s) by exists nb.
have hu : false = true -> pinv_oracle pinv by [].
have [r1' k1 [h1 _]] := torch_1d hp hbr e1.
have [r' k2 [[h2 h3 h4] _ _]] := torch_2d hu hp ht hb hps e2 hf.
exists r1', r'; split=> // i j eij.
have e1' : solve_1d pinv eig false (with_psi s (RtoC (- p))) w convs = Some (r1, T1, infos1) by exact e1.
have := @orders_2d pinv pinv eig eig heig heig (with_psi s (RtoC (- p))) w convs e hp hd hphi hfy _ _ _ _ _ e1' e2 i j eij.
have ht0 : tm_of (with_psi s (RtoC (- p))) = tm_of s by [].
rewrite /pure ht0; have [[a1 a2 a3] [a4 a5 a6]] := h1 i.
case: (tm_of s) => -[_ [b1 b2 [b3 b4] [b5 b6]]].
- have [[c1 c2 c3] [c4 c5 c6]] := h4 j.
  by rewrite c1 c2 c3 c4 c5 c6 a1 a2 a3 a4 a5 a6 b1 b2 b3 b4 b5 b6.
- have [[c1 c2 c3] [c4 c5 c6]] := h3 j.
  by rewrite c1 c2 c3 c4 c5 c6 a1 a2 a3 a4 a5 a6 b1 b2 b3 b4 b5 b6.
Qed.
End Solve.
