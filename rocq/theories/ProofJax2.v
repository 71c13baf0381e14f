(** The JAX object: solves, construction, histories; clamped layer indices; the combined method. *)
From Coq Require Import Reals ZArith Lra.
From mathcomp Require Import all_ssreflect ssralg matrix mxalgebra.
From Coquelicot Require Import Complex.
From Verif Require Import Cplx Mx Spec SpecSolve SpecLayer ModelTM ModelFourier ModelVec ModelField ModelState ModelTree ModelJax
  SpecState SpecJax ProofJax ProofEnd2 ProofObjEx.

Set Implicit Arguments.
Unset Strict Implicit.
Unset Printing Implicit Defensive.
Local Open Scope ring_scope.
Import GRing.Theory.

Section J.
Variable pinv : forall n, 'M[C]_n -> 'M[C]_n.
Variable eig : forall n, 'M[C]_n -> 'rV[C]_n * 'M[C]_n.
Variable broken : forall n, 'M[C]_n -> 'M[C]_n.

Lemma solve_1d_j up s w cs r : solve_1d pinv eig up s w cs = Some r -> j_solve_1d pinv eig broken up w cs = Some r.
Proof.
rewrite /solve_1d /j_solve_1d; case e: (layers_of _ _) => [ls|] //; rewrite (layers_ofE e).
by move=> h; rewrite (rcwa_1d_j broken h).
Qed.

Lemma solve_conical_j up s w cs r :
  solve_1d_conical pinv eig up s w cs = Some r -> j_solve_1d_conical pinv eig broken up w cs = Some r.
Proof.
rewrite /solve_1d_conical /j_solve_1d_conical; case: ifP => // _; case e: (layers_of _ _) => [ls|] //; rewrite (layers_ofE e).
exact: rcwa_conical_j.
Qed.

Lemma solve_2d_j up s w cs r : solve_2d pinv eig up s w cs = Some r -> j_solve_2d pinv eig broken up w cs = Some r.
Proof.
rewrite /solve_2d /j_solve_2d; case e: (layers_of _ _) => [ls|] //; rewrite (layers_ofE e).
exact: rcwa_2d_j.
Qed.

Lemma solve_with_j o fx fy th p (cs : seq (conv3 (fy.*2.+1 * fx.*2.+1))) g m r :
  solve_with pinv eig o th p cs g = (m, Solved r) -> j_solve_with pinv eig broken o th p cs g = (m, Solved r).
Proof.
rewrite /solve_with /j_solve_with; case: ifP => // _.
case: (o_algo o) => //; case: (o_thickness o) => // ts.
have two : (if solve_2d pinv eig (o_use_pinv o) (setup_of o fx fy th p ts) (o_wavelength o) cs is Some (r, infos)
          then (M2d r infos, Solved (Report (Some (res r)) (Some (res_te_inc r)) (Some (res_tm_inc r)))) else (MNone, Raised))
     = (m, Solved r) ->
   (if j_solve_2d pinv eig broken (o_use_pinv o) (s := setup_of o fx fy th p ts) (o_wavelength o) cs is Some (r, infos)
          then (M2d r infos, Solved (Report (Some (res r)) (Some (res_te_inc r)) (Some (res_tm_inc r)))) else (MNone, Raised))
     = (m, Solved r).
  by case e: (solve_2d _ _ _ _ _ _) => [[r' infos]|] //; rewrite (solve_2d_j e).
case: g => [[|[|g]]|] //.
- by case e: (solve_1d _ _ _ _ _ _) => [[[r' T1] infos]|] //; rewrite (solve_1d_j e).
- by case e: (solve_1d_conical _ _ _ _ _ _) => [[r' infos]|] //; rewrite (solve_conical_j e).
Qed.

Lemma conv_solve_j o o' r : same_inverses pinv o ->
  conv_solve pinv eig o = (o', Solved r) -> j_conv_solve pinv eig broken o = (o', Solved r).
Proof.
move=> hs; rewrite /conv_solve /j_conv_solve.
case: (fto_of o) => [[fx fy]|] //; case e: (convs_of _ _ _ _) => [cs|] //; rewrite (convs_ofE broken hs e).
case: (o_theta o) => // th; case: (period_of o) => // p; case: (reqb _ _) => //.
case es: (solve_with _ _ _ _ _ _ _) => [m out] [<- eo]; move: es; rewrite eo => es.
by rewrite (solve_with_j es).
Qed.

(** ** Setters and histories *)
Lemma clamp_in c : in_unit c -> clamp_pol c = c.
Proof.
rewrite /in_unit /clamp_pol /clt /cle.
have -> : Re 1 = 1%coqR by []. have -> : Im 1 = 0%coqR by [].
have -> : Re 0 = 0%coqR by []. have -> : Im 0 = 0%coqR by [].
rewrite /rltb /rleb /reqb; case: c => a b /=.
case: (Rlt_dec 0 a) => h1; case: (Rlt_dec a 1) => h2; case: (Rlt_dec 1 a) => h3; case: (Rlt_dec a 0) => h4 //=;
 try (exfalso; lra);
 case: (Req_EM_T 1 a) => h5; case: (Req_EM_T a 0) => h6; case: (Req_EM_T a 1) => h7; case: (Req_EM_T 0 a) => h8 //=;
 try (exfalso; lra);
 case: (Rlt_dec 0 b) => h9; case: (Rlt_dec b 0) => h10; case: (Rle_dec 0 b) => h11; case: (Rle_dec b 0) => h12 //=;
 rewrite ?andbF ?orbF //; exfalso; lra.
Qed.

Lemma assign_pol_j v o o' : assign_pol v o = (o', false) -> assign_pol_jax v o = (o', false).
Proof.
rewrite /assign_pol; case ea: (pol_accepts v) => //; move: ea; rewrite /pol_accepts /assign_pol_jax.
case: v => [|[z|r|c]|x|xs|x|[|x [|y xs]]|dt ny nx l|ins|b|] //= e; by rewrite (clamp_in e) e.
Qed.

Lemma assign_ucell_j v o o' : assign_ucell v o = (o', false) -> assign_ucell_jax v o = (o', false).
Proof. by case: v => // -[]. Qed.

Lemma step_j a o : quiet pinv (do_op pinv eig) a o -> j_do_op pinv eig broken a o = do_op pinv eig a o.
Proof.
case: a => //= [v|v|].
- rewrite /quiet /= /assigned; case e: (assign_pol v o) => [o' []] [h _] //=; by rewrite (assign_pol_j e).
- rewrite /quiet /= /assigned; case e: (assign_ucell v o) => [o' []] [h _] //=; by rewrite (assign_ucell_j e).
case=> h /(_ erefl) hs; case e: (conv_solve pinv eig o) => [o' out]; move: h; rewrite /= e /=.
have hout : out = Raised \/ exists r, out = Solved r.
  move: e; rewrite /conv_solve.
  case: (fto_of o) => [[fx fy]|]; last by case=> _ <-; left.
  case: (convs_of _ _ _ _) => [cs|]; last by case=> _ <-; left.
  case: (o_theta o) => [th|]; last by case=> _ <-; left.
  case: (period_of o) => [p|]; last by case=> _ <-; left.
  case: (reqb _ _); first by case=> _ <-; left.
  case es: (solve_with _ _ _ _ _ _ _) => [m out'] [_ <-].
  move: es; rewrite /solve_with; case: ifP => _; first by case=> _ <-; right; eexists.
  case: (o_algo o) => //; try by case=> _ <-; left.
  case: (o_thickness o) => [x|ts|]; try by case=> _ <-; left.
  case: (grating_of o fy) => [[|[|g]]|];
   [case: (solve_1d _ _ _ _ _ _) => [[[r' T1] infos]|] | case: (solve_1d_conical _ _ _ _ _ _) => [[r' infos]|]
   | case: (solve_2d _ _ _ _ _ _) => [[r' infos]|] | case: (solve_2d _ _ _ _ _ _) => [[r' infos]|]];
   case=> _ <-; by [left | right; eexists].
case: hout => [-> //|[r er]] _; subst out.
by rewrite (conv_solve_j hs e).
Qed.

Lemma run_j h o : along (do_op pinv eig) (quiet pinv (do_op pinv eig)) h o ->
  run (j_do_op pinv eig broken) h o = run (do_op pinv eig) h o.
Proof.
elim: h o => [|a h IH] o //= [hq ha]; rewrite (step_j hq).
by move: ha; case: (do_op pinv eig a o) => [o1 r] /= ha; rewrite (IH _ ha).
Qed.

Definition junk (x : obj) := set_cell CJunk (o_mtype x) x.

Ltac blunt := intros; repeat (simpl; match goal with
  | |- context [match ?t with _ => _ end] => destruct t
  end); try discriminate; try reflexivity.

Lemma construct_j a o : construct a = Some o -> construct_jax a = Some o.
Proof.
rewrite /construct /construct_jax; case: (ctor_precision _) => [b|] //.
set o1 := Obj _ _ _ _ _ _ _ _ _ _ _ _ _ _ CNone _ _ _ _ _; set o2 := Obj _ _ _ _ _ _ _ _ _ _ _ _ _ _ CJunk _ _ _ _ _.
have -> : o2 = junk o1 by [].
have comm (f f' : obj -> obj * bool) (fs fs' : seq (obj -> obj * bool)) :
   (forall x y, f x = (y, false) -> f' (junk x) = (junk y, false)) ->
   (forall x, assign_all fs x = Some o -> assign_all fs' (junk x) = Some o) ->
   forall x, assign_all (f :: fs) x = Some o -> assign_all (f' :: fs') (junk x) = Some o.
  by move=> h1 h2 x /=; case e: (f x) => [y []] //; rewrite (h1 _ _ e) => /h2.
have plain (f : obj -> obj * bool) : (forall x, f (junk x) = (junk (f x).1, (f x).2)) ->
   forall x y, f x = (y, false) -> f (junk x) = (junk y, false).
  by move=> h x y e; rewrite h e.
apply: (comm); first by apply: (plain) => x; rewrite /assign_theta; blunt.
apply: (comm); first by apply: (plain) => x; rewrite /assign_phi; blunt.
apply: (comm).
  move=> x y e; apply: assign_pol_j; move: e; rewrite /assign_pol; case: (pol_accepts _) => //.
  by case: (scalar _) => // z [<-].
apply: (comm); first by apply: (plain) => x; rewrite /assign_psi; blunt.
apply: (comm); first by apply: (plain) => x; rewrite /assign_fto; blunt.
apply: (comm); first by apply: (plain) => x; rewrite /assign_period; blunt.
apply: (comm); first by apply: (plain) => x; rewrite /assign_thickness; blunt.
move=> x /=; case: (a_ucell a) => //=; by case.
Qed.

(** ** Layer indices *)
Lemma conv_all_repeat (A B : Type) (f : A -> option B) k (ls : seq A) :
  conv_all f (repeat_last k ls) = omap (@repeat_last B k) (conv_all f ls).
Proof.
have cat (s t : seq A) : conv_all f (s ++ t) =
   if conv_all f s is Some cs then (if conv_all f t is Some ct then Some (cs ++ ct) else None) else None.
  elim: s => [|x s IH] /=; first by case: (conv_all f t).
  rewrite IH; case: (f x) => // c; case: (conv_all f s) => // cs; by case: (conv_all f t).
have sz (s : seq A) cs : conv_all f s = Some cs -> size cs = size s.
  elim: s cs => [|x s IH] cs /=; first by case=> <-.
  by case: (f x) => // c; case e: (conv_all f s) => [cs'|] // [<-] /=; rewrite (IH _ e).
have lst (s : seq A) cs x c : f x = Some c -> conv_all f s = Some cs -> f (last x s) = Some (last c cs).
  elim: s cs x c => [|y s IH] cs x c e /=; first by case=> <-.
  by case e1: (f y) => [cy|] //; case e2: (conv_all f s) => [cs'|] // [<-] /=; exact: IH.
case: ls => [|x s] //=.
case ex: (f x) => [c|] //=.
case es: (conv_all f s) => [cs|] /=; last by rewrite cat es.
by rewrite cat es (conv_all_nseq _ (lst _ _ _ _ ex es)) /= (sz _ _ es).
Qed.

Lemma vector_layers_all px py ins : vector_layers px py ins =
  conv_all (fun i : instruction => vector_layer px py i.1 (flatten (map draw_object i.2))) ins.
Proof. by elim: ins => [|[b objs] ins IH] //=; rewrite IH. Qed.

Lemma j_layers_repeat n (cs : seq (conv3 n)) ts : j_layers_of (repeat_last (size ts) cs) ts = j_layers_of cs ts.
Proof.
case: ts => [|t ts] //; case: cs => [|c0 cs] //; rewrite /j_layers_of.
have -> : repeat_last (size (t :: ts)) (c0 :: cs) = c0 :: (cs ++ nseq (size (t :: ts) - (size cs).+1) (last c0 cs)) by [].
congr Some; apply: (@eq_from_nth _ (Layer 0 0 0 0%coqR)); rewrite !size_mkseq // => i hi.
rewrite !nth_mkseq //.
set big := _ :: (_ ++ _); have eb : big = (c0 :: cs) ++ nseq (size (t :: ts) - (size cs).+1) (last c0 cs) by [].
have sb : size big = maxn (size (c0 :: cs)) (size (t :: ts)) by rewrite eb size_cat size_nseq -maxnE.
have -> : minn i (size big).-1 = i.
  have hb : (i < size big)%N by rewrite sb leq_max hi orbT.
  by apply/minn_idPl; move: hb; rewrite sb; case: (maxn _ _).
have -> // : nth c0 big i = nth c0 (c0 :: cs) (minn i (size (c0 :: cs)).-1).
rewrite eb nth_cat; case: (ltnP i (size (c0 :: cs))) => h.
  by have -> : minn i (size (c0 :: cs)).-1 = i by apply/minn_idPl.
have -> : minn i (size (c0 :: cs)).-1 = (size (c0 :: cs)).-1 by apply/minn_idPr; exact: leq_trans (leq_pred _) h.
have hlt : (i - size (c0 :: cs) < size (t :: ts) - (size cs).+1)%N.
  by apply: ltn_sub2r; [exact: leq_ltn_trans h hi | exact: hi].
rewrite nth_nseq hlt -[(size (c0 :: cs)).-1]/(size cs) -[last c0 cs]/(last c0 (c0 :: cs)) -nth_last.
by [].
Qed.

Lemma map_repeat (A B : Type) (f : A -> B) k s : map f (repeat_last k s) = repeat_last k (map f s).
Proof. by case: s => [|x s] //=; rewrite map_cat map_nseq size_map last_map. Qed.

Lemma j_convs_pad k o fx fy : j_convs_of pinv broken (pad_layers k o) fx fy =
  omap (@repeat_last _ k) (j_convs_of pinv broken o fx fy).
Proof.
rewrite /j_convs_of /=; case: (o_mtype o) => [[]|] //.
  case ec: (o_cell o) => [|ny nx ls|ins|] //=.
  have -> : period_of (pad_layers k o) = period_of o by [].
  case: (period_of o) => [[px py]|] //; rewrite !vector_layers_all conv_all_repeat.
  by case: (conv_all _ ins) => [vs|] //=; rewrite conv_all_repeat.
case ec: (o_cell o) => [|ny nx ls|ins|] //=.
case: ifP => // _; case: ifP => [_|_]; first by rewrite map_repeat conv_all_repeat.
by case: ifP => // _; rewrite map_repeat conv_all_repeat.
Qed.

Lemma grating_pad k o fy : grating_of (pad_layers k o) fy = grating_of o fy.
Proof. by rewrite /grating_of /=; case: (o_mtype o) => [[]|] //; case: (o_cell o). Qed.

Lemma solve_with_pad k o fx fy th p (cs : seq (conv3 (fy.*2.+1 * fx.*2.+1))) g ts : o_thickness o = A1 ts -> k = size ts ->
  j_solve_with pinv eig broken (pad_layers k o) th p (repeat_last k cs) g = j_solve_with pinv eig broken o th p cs g.
Proof.
move=> et ->; rewrite /j_solve_with [o_thickness _]/= [o_algo _]/= et; case: ifP => // _; case: (o_algo o) => //.
set S := setup_of o fx fy th p ts.
have e1 : j_solve_1d pinv eig broken (o_use_pinv o) (s := S) (o_wavelength o) [seq crop3 fx.*2.+1 c | c <- repeat_last (size ts) cs]
        = j_solve_1d pinv eig broken (o_use_pinv o) (s := S) (o_wavelength o) [seq crop3 fx.*2.+1 c | c <- cs].
  by rewrite /j_solve_1d map_repeat (j_layers_repeat _ (thickness S)).
have e2 : j_solve_1d_conical pinv eig broken (o_use_pinv o) (s := S) (o_wavelength o) (repeat_last (size ts) cs)
        = j_solve_1d_conical pinv eig broken (o_use_pinv o) (s := S) (o_wavelength o) cs.
  by rewrite /j_solve_1d_conical (j_layers_repeat _ (thickness S)).
have e3 : j_solve_2d pinv eig broken (o_use_pinv o) (s := S) (o_wavelength o) (repeat_last (size ts) cs)
        = j_solve_2d pinv eig broken (o_use_pinv o) (s := S) (o_wavelength o) cs.
  by rewrite /j_solve_2d (j_layers_repeat _ (thickness S)).
pose k1 (x : option (diffraction (ff_x S) * 'cV[C]_(ff_x S) * seq (info_1d (ff_x S)))) :=
  if x is Some (r, T1, infos) then (M1d T1 infos, Solved (Report (Some r) None None)) else (MNone, Raised).
pose N := (ff_y S * ff_x S)%N.
pose k2 (x : option (sp_result N * seq (info_sp 'M[C]_(N, N + N) N))) :=
  if x is Some (r, infos) then (MCon r infos, Solved (Report (Some (res r)) (Some (res_te_inc r)) (Some (res_tm_inc r))))
  else (MNone, Raised).
pose k3 (x : option (sp_result N * seq (info_sp 'M[C]_(N + N) N))) :=
  if x is Some (r, infos) then (M2d r infos, Solved (Report (Some (res r)) (Some (res_te_inc r)) (Some (res_tm_inc r))))
  else (MNone, Raised).
case: g => [[|[|g]]|].
- exact (congr1 k1 e1).
- exact (congr1 k2 e2).
- exact (congr1 k3 e3).
- exact (congr1 k3 e3).
Qed.

Lemma conv_solve_pad o ts : o_thickness o = A1 ts ->
  (j_conv_solve pinv eig broken (pad_layers (size ts) o)).2 = (j_conv_solve pinv eig broken o).2 /\
  o_memo (j_conv_solve pinv eig broken (pad_layers (size ts) o)).1 = o_memo (j_conv_solve pinv eig broken o).1.
Proof.
move=> et; rewrite /j_conv_solve.
have -> : fto_of (pad_layers (size ts) o) = fto_of o by [].
case: (fto_of o) => [[fx fy]|] //; rewrite j_convs_pad.
case: (j_convs_of _ _ _ _ _) => [cs|] //=; rewrite grating_pad.
have -> : period_of (pad_layers (size ts) o) = period_of o by [].
case: (o_theta o) => // th; case: (period_of o) => // p; case: (reqb _ _) => //.
rewrite (solve_with_pad _ _ _ _ et erefl).
by case: (j_solve_with _ _ _ _ _ _ _).
Qed.

(** ** The combined method *)
Lemma field_after_solve o o' r rx ry rz sel : o_algo o = TMM -> conv_solve pinv eig o = (o', Solved r) ->
  exists f, calculate_field o' rx ry rz sel = FieldOf f.
Proof.
move=> ha; rewrite /conv_solve; case ef: (fto_of o) => [[fx fy]|] //; case: (convs_of _ _ _ _) => [cs|] //.
case et: (o_theta o) => [th|] //; case ep: (period_of o) => [p|] //; case ew: (reqb _ _) => //.
case es: (solve_with _ _ _ _ _ _ _) => [m out] [<- eo]; move: es; rewrite eo /solve_with ha andbF.
case: (o_thickness o) => // ts.
set o2 := set_memo _ _ _.
have e1 : fto_of o2 = Some (fx, fy) := ef.
have e2 : o_theta o2 = Some th := et.
have e3 : period_of o2 = Some p := ep.
have e4 : reqb (o_wavelength o2) 0 = false := ew.
rewrite /calculate_field e1 e2 e3 e4 {e1 e2 e3 e4}; case: p ep @o2 => px py _ /=.
case: (grating_of o fy) => [[|[|g]]|].
- case: (solve_1d _ _ _ _ _ _) => [[[r' T1] infos]|] // [<- _]; rewrite eqxx; by eexists.
- case: (solve_1d_conical _ _ _ _ _ _) => [[r' infos]|] // [<- _]; rewrite eqxx; by eexists.
- case: (solve_2d _ _ _ _ _ _) => [[r' infos]|] // [<- _]; rewrite eqxx; by eexists.
- case: (solve_2d _ _ _ _ _ _) => [[r' infos]|] // [<- _]; rewrite eqxx; by eexists.
Qed.
End J.
