(** Fields of the three solvers, from the public attributes: boundary-value problem, continuity, sampled arrays. *)
From Coq Require Import Reals Lra Lia Psatz.
From mathcomp Require Import all_ssreflect ssralg matrix.
From Coquelicot Require Import Complex.
From Verif Require Import Cplx Mx Spec SpecSolve SpecField ModelTM ModelField ProofFlux ProofEnergy1D ProofEnergy2D ProofSetup ProofEnd
  ProofSubstrate ProofField ProofBVP ProofBVP2.

Set Implicit Arguments.
Unset Strict Implicit.
Unset Printing Implicit Defensive.
Local Open Scope ring_scope.
Import GRing.Theory.

(** ** Layers and media *)
Lemma layers_thick n (cs : seq (conv3 n)) ts ls : layers_of cs ts = Some ls -> map (@thick n) ls = ts.
Proof.
elim: ts cs ls => [|t ts IH] [|[[ex ey] ez] cs] ls //=; try by case=> <-.
by case e: (layers_of cs ts) => [l|] // [<-] /=; rewrite (IH _ _ e).
Qed.

Lemma layers_media_1d n tm kx (cs : seq (conv3 n)) ts ls : layers_of cs ts = Some ls ->
  media_1d tm kx cs ts = [seq medium_1d tm kx (conv_of l) (thick l) | l <- ls].
Proof.
elim: ts cs ls => [|t ts IH] [|[[ex ey] ez] cs] ls //=; try by case=> <-.
by case e: (layers_of cs ts) => [l|] // [<-] /=; rewrite (IH _ _ e).
Qed.

Lemma layers_media_sp n kx ky (cs : seq (conv3 n)) ts ls : layers_of cs ts = Some ls ->
  media_sp kx ky cs ts = media_of kx ky ls.
Proof.
elim: ts cs ls => [|t ts IH] [|[[ex ey] ez] cs] ls //=; try by case=> <-.
by case e: (layers_of cs ts) => [l|] // [<-] /=; rewrite (IH _ _ e).
Qed.

Lemma In_thick n (cs : seq (conv3 n)) ts ls l : layers_of cs ts = Some ls -> List.In l ls -> List.In (thick l) ts.
Proof. by move=> /layers_thick <- h; apply: List.in_map. Qed.

(** ** The unit vectors are determined *)
Lemma directions_unique n kx ky dc ds dc' ds' : directions n kx ky dc ds -> directions n kx ky dc' ds' ->
  forall i : 'I_n, dc i = dc' i /\ ds i = ds' i.
Proof.
move=> h h' i; have [h1 h2 [c ec] [s es] h5] := h i; have [h1' h2' [c' ec'] [s' es'] h5'] := h' i.
case: (kx i =P 0) h5 h5' => [e|/eqP k0].
  by move=> [-> hs] [-> hs']; split=> //; move: hs hs'; case: Rlt_dec => _ -> ->.
rewrite ec ec' !Re_RtoC => p p'.
have {}h2 : ds i = RtoC c * (ky i / kx i) by rewrite -ec mulrA h2 mulfK.
have {}h2' : ds' i = RtoC c' * (ky i / kx i) by rewrite -ec' mulrA h2' mulfK.
suff e : c = c' by rewrite h2 h2' e.
have a : RtoC c ^+ 2 * (1 + (ky i / kx i) ^+ 2) = 1 by rewrite mulrDr mulr1 -exprMn -h2 -ec.
have a' : RtoC c' ^+ 2 * (1 + (ky i / kx i) ^+ 2) = 1 by rewrite mulrDr mulr1 -exprMn -h2' -ec'.
have e : RtoC c ^+ 2 = RtoC c' ^+ 2.
  have m0 : 1 + (ky i / kx i) ^+ 2 != 0.
    by apply/eqP => m; move: a; rewrite m mulr0 => /esym/eqP; rewrite oner_eq0.
  by apply: (mulIf m0); rewrite a a'.
move: e; rewrite !expr2 -!RtoC_mul => -[]; nra.
Qed.

Lemma above_ext n nt th psi kx ky (dc ds dc' ds' : nat -> C) (Rs Rp : 'cV[C]_n) :
  (forall i : 'I_n, dc i = dc' i /\ ds i = ds' i) ->
  above_sp nt th psi kx ky dc ds Rs Rp = above_sp nt th psi kx ky dc' ds' Rs Rp.
Proof.
by move=> h; rewrite /above_sp /e_xy /h_xy; congr (col_mx _ _, col_mx _ _); apply/matrixP => i j; rewrite !mxE;
  have [-> ->] := h i.
Qed.
Lemma below_ext n nb kx ky (dc ds dc' ds' : nat -> C) (Ts Tp : 'cV[C]_n) :
  (forall i : 'I_n, dc i = dc' i /\ ds i = ds' i) ->
  below_sp nb kx ky dc ds Ts Tp = below_sp nb kx ky dc' ds' Ts Tp.
Proof.
by move=> h; rewrite /below_sp /e_xy /h_xy; congr (col_mx _ _, col_mx _ _); apply/matrixP => i j; rewrite !mxE;
  have [-> ->] := h i.
Qed.

Lemma solution_ext n k0 (ms : seq (medium (n + n))) nt nb th psi kx ky (dc ds dc' ds' : nat -> C) (d : diffraction n) fs :
  (forall i : 'I_n, dc i = dc' i /\ ds i = ds' i) ->
  solution_sp k0 ms nt nb th psi kx ky dc ds d fs -> solution_sp k0 ms nt nb th psi kx ky dc' ds' d fs.
Proof.
move=> h; have ea Rs Rp := above_ext nt th psi kx ky Rs Rp h; have eb Ts Tp := below_ext nb kx ky Ts Tp h.
rewrite /solution_sp /unique_sp /bvp_sp ea eb => -[h1 h2]; split=> // hd fs' Rs Rp Ts Tp.
by rewrite -ea -eb; exact: h2.
Qed.
Lemma flow_ext n ts nt nb th psi kx ky (dc ds dc' ds' : nat -> C) (d : diffraction n) fs :
  (forall i : 'I_n, dc i = dc' i /\ ds i = ds' i) ->
  flow_sp ts nt nb th psi kx ky dc ds d fs -> flow_sp ts nt nb th psi kx ky dc' ds' d fs.
Proof. by move=> h; rewrite /flow_sp (above_ext _ _ _ _ _ _ _ h) (below_ext _ _ _ _ _ h). Qed.

(** ** The solvers *)
Section Solve.
Variable pinv : forall n, 'M[C]_n -> 'M[C]_n.
Variable eig : forall n, 'M[C]_n -> 'rV[C]_n * 'M[C]_n.

Lemma flow_solve_1d s w (convs : seq (conv3 (ff_x s))) r T1 infos :
  solve_1d pinv eig false s w convs = Some (r, T1, infos) ->
  let tm := is_tm (pol s) in let kx := kx_vector s w in
  through (thickness s) (above_1d tm (n_top s) (theta s) kx (co_R tm r))
    (field_profiles_1d (pol s) (k0_of w) kx T1 infos) (below_1d tm (n_bot s) kx (co_T tm r)).
Proof.
move=> h tm kx; move: h; rewrite /solve_1d; case e: (layers_of _ _) => [ls|] // h.
by rewrite -(layers_thick e); exact: fields_1d h.
Qed.

Lemma flow_solve_2d s w (convs : seq (conv3 (ff_y s * ff_x s))) r infos : physical s ->
  solve_2d pinv eig false s w convs = Some (r, infos) ->
  let kx := kx_tiled s w in let ky := ky_tiled s w in
  forall dc ds, directions (ff_y s * ff_x s) kx ky dc ds ->
  flow3_sp (thickness s) (n_top s) (n_bot s) (theta s) (psi s) kx ky dc ds r
    (fun t => field_profiles_2d (k0_of w) kx ky t infos).
Proof.
move=> [[nt h0 h1] [th h2 h3] hp _ _] h kx ky dc ds hd; move: h; rewrite /solve_2d; case e: (layers_of _ _) => [ls|] // h.
have [f hf] := phi_real hp; have [rx ry _] := tiled_phys w h1 h3 h2 hf.
have hu := directions_unique (varphi_directions rx ry) hd.
have [k1 k2 k3] := fields_2d rx ry h.
by rewrite -(layers_thick e); split; [apply: flow_ext hu k1|apply: flow_ext hu k2|apply: flow_ext hu k3].
Qed.

Lemma flow_solve_conical s w (convs : seq (conv3 (ff_y s * ff_x s))) r infos : physical s ->
  solve_1d_conical pinv eig false s w convs = Some (r, infos) ->
  let kx := kx_tiled s w in let ky := ky_tiled s w in
  forall dc ds, directions (ff_y s * ff_x s) kx ky dc ds ->
  flow3_sp (thickness s) (n_top s) (n_bot s) (theta s) (psi s) kx ky dc ds r
    (fun t => field_profiles_conical (k0_of w) kx ky t infos).
Proof.
move=> [[nt h0 h1] [th h2 h3] hp _ _] h kx ky dc ds hd; move: h; rewrite /solve_1d_conical; case: eqP => // _.
case e: (layers_of _ _) => [ls|] // h.
have [f hf] := phi_real hp; have [rx ry _] := tiled_phys w h1 h3 h2 hf.
have hu := directions_unique (varphi_directions rx ry) hd.
have [k1 k2 k3] := fields_conical rx ry h.
by rewrite -(layers_thick e); split; [apply: flow_ext hu k1|apply: flow_ext hu k2|apply: flow_ext hu k3].
Qed.

Hypothesis heig : eigen_oracle eig.

Lemma bvp_solve_1d s w (convs : seq (conv3 (ff_x s))) r T1 infos :
  solve_1d pinv eig false s w convs = Some (r, T1, infos) ->
  let tm := is_tm (pol s) in let kx := kx_vector s w in
  let ms := media_1d tm kx convs (thickness s) in
  let bvp Rv fs Tv :=
    boundary_value_problem (k0_of w) ms (above_1d tm (n_top s) (theta s) kx Rv) fs (below_1d tm (n_bot s) kx Tv) in
  bvp (co_R tm r) (field_profiles_1d (pol s) (k0_of w) kx T1 infos) (co_T tm r) /\
  ((forall t, List.In t (thickness s) -> (0 <= t)%coqR) ->
   forall Rv fs Tv, bvp Rv fs Tv -> Rv = co_R tm r /\ Tv = co_T tm r).
Proof.
move=> h tm kx ms bvp; move: h; rewrite /solve_1d; case e: (layers_of _ _) => [ls|] // h.
have [h1 h2] := bvp_1d (eigen_eig_ok heig) h; rewrite /bvp /ms (layers_media_1d _ _ e); split=> // hd Rv fs Tv hb.
by apply: h2 hb => l hl; apply: hd; apply: In_thick e hl.
Qed.

Lemma bvp_solve_2d s w (convs : seq (conv3 (ff_y s * ff_x s))) r infos : physical s ->
  solve_2d pinv eig false s w convs = Some (r, infos) ->
  let kx := kx_tiled s w in let ky := ky_tiled s w in
  forall dc ds, directions (ff_y s * ff_x s) kx ky dc ds ->
  solution3_sp (k0_of w) (media_sp kx ky convs (thickness s)) (n_top s) (n_bot s) (theta s) (psi s) kx ky dc ds r
    (fun t => field_profiles_2d (k0_of w) kx ky t infos).
Proof.
move=> [[nt h0 h1] [th h2 h3] hp _ _] h kx ky dc ds hd; move: h; rewrite /solve_2d; case e: (layers_of _ _) => [ls|] // h.
have [f hf] := phi_real hp; have [rx ry _] := tiled_phys w h1 h3 h2 hf.
have hu := directions_unique (varphi_directions rx ry) hd.
have [k1 k2 k3] := bvp_2d rx ry (eigen_eig_ok heig) h.
by rewrite (layers_media_sp _ _ e); split; [apply: solution_ext hu k1|apply: solution_ext hu k2|apply: solution_ext hu k3].
Qed.

Lemma bvp_solve_conical s w (convs : seq (conv3 (ff_y s * ff_x s))) r infos : physical s ->
  (forall c, List.In c (used s convs) -> line_convs c) ->
  solve_1d_conical pinv eig false s w convs = Some (r, infos) ->
  let kx := kx_tiled s w in let ky := ky_tiled s w in
  forall dc ds, directions (ff_y s * ff_x s) kx ky dc ds ->
  solution3_sp (k0_of w) (media_sp kx ky convs (thickness s)) (n_top s) (n_bot s) (theta s) (psi s) kx ky dc ds r
    (fun t => field_profiles_conical (k0_of w) kx ky t infos).
Proof.
move=> [[nt h0 h1] [th h2 h3] hp _ _] hl h kx ky dc ds hd; move: h; rewrite /solve_1d_conical; case: eqP => // hy.
case e: (layers_of _ _) => [ls|] // h.
have [f hf] := phi_real hp; have [rx ry _] := tiled_phys w h1 h3 h2 hf.
have hu := directions_unique (varphi_directions rx ry) hd.
have hky i : (i < ff_y s * ff_x s)%N -> ky_tiled s w i = ky_vector s w 0%N.
  by rewrite /ky_tiled /tile_y {1}/ff_y hy mul1n => lt; rewrite divn_small.
have hyu l : List.In l ls -> y_uniform l by move=> /(layers_of_in e) /hl.
have [k1 k2 k3] := bvp_conical rx ry (eigen_eig_ok heig) hky hyu h.
by rewrite (layers_media_sp _ _ e); split; [apply: solution_ext hu k1|apply: solution_ext hu k2|apply: solution_ext hu k3].
Qed.

End Solve.

(** The unit vectors exist. *)
Lemma directions_exist s w : physical s ->
  exists dc ds, directions (ff_y s * ff_x s) (kx_tiled s w) (ky_tiled s w) dc ds.
Proof.
move=> [[nt h0 h1] [th h2 h3] hp _ _]; have [f hf] := phi_real hp; have [rx ry _] := tiled_phys w h1 h3 h2 hf.
by do 2 eexists; exact: varphi_directions rx ry.
Qed.

(** ** Sampled arrays *)
Lemma z_point_first res_z d : z_point res_z d 0 = 0%coqR.
Proof. by rewrite /z_point /linspace; case: ifP => _; rewrite /Rdiv ?INR_0 !Rmult_0_l. Qed.
Lemma z_point_last res_z d : (1 < res_z)%N -> z_point res_z d res_z.-1 = d.
Proof.
case: res_z => [|[|r]] // _; rewrite /z_point /linspace -[r.+2.-1]/(r.+1) [(r.+2 <= 1)%N](_ : _ = false) // (S_INR r.+1).
have : (0 < INR r.+1)%coqR by apply: lt_0_INR; lia.
move: (INR r.+1) => x p; have -> : (x + 1 - 1 = x)%coqR by lra.
by field; lra.
Qed.

Lemma through_next m (ds : seq R) top (fs : seq (profile_of m)) bottom : through ds top fs bottom ->
  forall k u v u' v' d, List.nth_error fs k = Some (u, v) -> List.nth_error fs k.+1 = Some (u', v') ->
  List.nth_error ds k = Some d -> u d = u' 0%coqR /\ v d = v' 0%coqR.
Proof.
elim: ds fs top => [|d0 ds IH] [|[u0 v0] fs] top //=.
case=> _ h [|k] u v u' v' d /=; last by move=> h1 h2 h3; apply: IH h _ _ _ _ _ _ h1 h2 h3.
case=> <- <- h2 [<-].
by case: fs h h2 {IH} => [|[u1 v1] fs] // h [<- <-]; case: ds h => [|d1 ds] //= [[-> ->] _].
Qed.

Lemma nth_error_map (A B : Type) (f : A -> B) xs k y : List.nth_error (map f xs) k = Some y ->
  exists2 x, List.nth_error xs k = Some x & y = f x.
Proof. by elim: xs k => [|x xs IH] [|k] //=; [case=> <-; exists x|exact: IH]. Qed.

Lemma descend_fst (L T : Type) (next : L -> T -> T) t ls : map fst (descend next t ls) = ls.
Proof. by elim: ls t => //= l ls IH t; rewrite IH. Qed.

Lemma nth_error_mapE (A B : Type) (f : A -> B) xs k x : List.nth_error xs k = Some x -> List.nth_error (map f xs) k = Some (f x).
Proof. by elim: xs k => [|y xs IH] [|k] //=; [case=> ->|exact: IH]. Qed.

Lemma sample_tang p n k0 kx x (M M' : 'cV[C]_n * 'cV[C]_n * 'cV[C]_n) : M.1 = M'.1 ->
  (sample_1d p k0 kx x M).1 = (sample_1d p k0 kx x M').1.
Proof. by case: M M' => [[a b] c] [[a' b'] c'] [-> ->]. Qed.
Lemma modes_tang p p' n k0 kx (l : info_1d n) t z : (modes_1d p k0 kx l t z).1 = (modes_1d p' k0 kx l t z).1.
Proof. by []. Qed.
Lemma pair_eq (A B : Type) (x y : A * B) : x.1 = y.1 -> x.2 = y.2 -> x = y.
Proof. by case: x y => [a b] [a' b'] /= -> ->. Qed.

Lemma sample_sp_tang n k0 kx ky x y (m m' : modes n) j : e_part m = e_part m' -> h_part m = h_part m' ->
  j \in [:: 0; 1; 3; 4]%N -> nth 0 (sample_sp k0 kx ky x y m) j = nth 0 (sample_sp k0 kx ky x y m') j.
Proof.
rewrite /sample_sp => /eq_col_mx [-> ->] /eq_col_mx [-> ->].
by rewrite !inE => /or4P[] /eqP ->.
Qed.

Section Stitch.
Variable pinv : forall n, 'M[C]_n -> 'M[C]_n.
Variable eig : forall n, 'M[C]_n -> 'rV[C]_n * 'M[C]_n.

Lemma stitch_1d s w (convs : seq (conv3 (ff_x s))) r T1 infos px p res_x res_z : (1 < res_z)%N ->
  solve_1d pinv eig false s w convs = Some (r, T1, infos) ->
  stitched_1d res_z (field_1d w (kx_vector s w) T1 infos px p res_x res_z).
Proof.
move=> hz; rewrite /solve_1d; case e: (layers_of _ _) => [ls|] // h.
have := fields_1d h; case: (rcwa_1d_parts h) => F [G [T [hs h4]]] /= hth.
have [_ hd] := stack_chain_1d hs.
move=> k a b ha hb ix; have [x hx ->] := nth_error_map ha; have [y hy ->] := nth_error_map hb.
have hxd : List.nth_error (map (@thick _) ls) k = Some (i1_d x.1).
  by rewrite -hd -(descend_fst (next_1d (k0_of w)) T1 (rev infos)) -map_comp; exact: nth_error_mapE hx.
have [e1 e2] := through_next hth (nth_error_mapE _ hx) (nth_error_mapE _ hy) hxd.
rewrite z_point_last // z_point_first; apply: sample_tang.
rewrite (modes_tang p (pol s)) (modes_tang p (pol s) _ _ y.1).
exact: pair_eq e1 e2.
Qed.

Lemma stitch_2d n kx ky k0 psi th nt nb (ls : seq (layer n)) r infos (T1 : 'cV[C]_(n + n)) w px py rx ry res_z :
  k0 = k0_of w -> (1 < res_z)%N -> real_vec n kx -> real_vec n ky ->
  rcwa_2d pinv eig false kx ky k0 psi th nt nb ls = Some (r, infos) ->
  List.In T1 [:: T1_res r; T1_te r; T1_tm r] ->
  stitched_sp res_z (field_2d w kx ky T1 infos px py rx ry res_z).
Proof.
move=> hk hz hx' hy' h hT; rewrite hk in h.
have hth : exists top bottom, through (map (@is_d _ _) (rev infos)) top (field_profiles_2d (k0_of w) kx ky T1 infos) bottom.
  have [k1 k2 k3] := fields_2d hx' hy' h.
  move: h; rewrite /rcwa_2d /transfer_sp_1; case: ifP => // _.
  case hs: (stack_with _ _ _) => [[[[F G] T] is']|] //; have [hc hd] := stack_chain_2d hs.
  case h4: (transfer_sp_4 _ _ _ _ _ _ _ _ _ _ _) => [r4|] // [er ei].
  rewrite -ei hd ei; case: hT => [<-|[<-|[<-|//]]]; do 2 eexists; [exact: k1|exact: k2|exact: k3].
have [top [bottom {}hth]] := hth.
move=> k a b ha hb iy ix j hj; have [x hx ->] := nth_error_map ha; have [y hy ->] := nth_error_map hb.
have hxd : List.nth_error (map (@is_d _ _) (rev infos)) k = Some (is_d x.1).
  by rewrite -{1}(descend_fst (next_2d (k0_of w)) T1 (rev infos)) -map_comp; exact: nth_error_mapE hx.
have [e1 e2] := through_next hth (nth_error_mapE _ hx) (nth_error_mapE _ hy) hxd.
rewrite (z_point_last _ hz) z_point_first.
exact (sample_sp_tang _ _ _ _ _ e1 e2 hj).
Qed.

Lemma stitch_conical n kx ky k0 psi th nt nb (ls : seq (layer n)) r infos (T1 : 'cV[C]_(n + n)) w px py rx ry res_z :
  k0 = k0_of w -> (1 < res_z)%N -> real_vec n kx -> real_vec n ky ->
  rcwa_conical pinv eig false kx ky k0 psi th nt nb ls = Some (r, infos) ->
  List.In T1 [:: T1_res r; T1_te r; T1_tm r] ->
  stitched_sp res_z (field_conical w kx ky T1 infos px py rx ry res_z).
Proof.
move=> hk hz hx' hy' h hT; rewrite hk in h.
have hth : exists top bottom, through (map (@is_d _ _) (rev infos)) top (field_profiles_conical (k0_of w) kx ky T1 infos) bottom.
  have [k1 k2 k3] := fields_conical hx' hy' h.
  move: h; rewrite /rcwa_conical /transfer_sp_1; case: ifP => // _.
  case hs: (stack_with _ _ _) => [[[[F G] T] is']|] //; have [hc hd] := stack_chain_conical hs.
  case h4: (transfer_sp_4 _ _ _ _ _ _ _ _ _ _ _) => [r4|] // [er ei].
  rewrite -ei hd ei; case: hT => [<-|[<-|[<-|//]]]; do 2 eexists; [exact: k1|exact: k2|exact: k3].
have [top [bottom {}hth]] := hth.
move=> k a b ha hb iy ix j hj; have [x hx ->] := nth_error_map ha; have [y hy ->] := nth_error_map hb.
have hxd : List.nth_error (map (@is_d _ _) (rev infos)) k = Some (is_d x.1).
  by rewrite -{1}(descend_fst (next_conical (k0_of w)) T1 (rev infos)) -map_comp; exact: nth_error_mapE hx.
have [e1 e2] := through_next hth (nth_error_mapE _ hx) (nth_error_mapE _ hy) hxd.
rewrite (z_point_last _ hz) z_point_first.
exact (sample_sp_tang _ _ _ _ _ e1 e2 hj).
Qed.

Lemma stitch_solve_2d s w (convs : seq (conv3 (ff_y s * ff_x s))) r infos T1 px py rx ry res_z : physical s -> (1 < res_z)%N ->
  solve_2d pinv eig false s w convs = Some (r, infos) -> List.In T1 [:: T1_res r; T1_te r; T1_tm r] ->
  stitched_sp res_z (field_2d w (kx_tiled s w) (ky_tiled s w) T1 infos px py rx ry res_z).
Proof.
move=> [[nt h0 h1] [th h2 h3] hp _ _] hz; rewrite /solve_2d; case e: (layers_of _ _) => [ls|] // h.
have [f hf] := phi_real hp; have [rx' ry' _] := tiled_phys w h1 h3 h2 hf.
move=> hT; exact (stitch_2d (w := w) (px := px) (py := py) (rx := rx) (ry := ry) erefl hz rx' ry' h hT).
Qed.
Lemma stitch_solve_conical s w (convs : seq (conv3 (ff_y s * ff_x s))) r infos T1 px py rx ry res_z : physical s -> (1 < res_z)%N ->
  solve_1d_conical pinv eig false s w convs = Some (r, infos) -> List.In T1 [:: T1_res r; T1_te r; T1_tm r] ->
  stitched_sp res_z (field_conical w (kx_tiled s w) (ky_tiled s w) T1 infos px py rx ry res_z).
Proof.
move=> [[nt h0 h1] [th h2 h3] hp _ _] hz; rewrite /solve_1d_conical; case: eqP => // _; case e: (layers_of _ _) => [ls|] // h.
have [f hf] := phi_real hp; have [rx' ry' _] := tiled_phys w h1 h3 h2 hf.
move=> hT; exact (stitch_conical (w := w) (px := px) (py := py) (rx := rx) (ry := ry) erefl hz rx' ry' h hT).
Qed.

End Stitch.
