(** Lemmas about the optimisers. *)
From Coq Require Import Reals Lra FunctionalExtensionality.
From mathcomp Require Import all_ssreflect ssralg.
From Coquelicot Require Import Complex Hierarchy Derive Derive_2d AutoDerive.
From Verif Require Import Cplx ModelOpt SpecOpt.

Set Implicit Arguments.
Unset Strict Implicit.
Unset Printing Implicit Defensive.
Local Open Scope ring_scope.
Import GRing.Theory.

Section Names.
Variable A : eqType.
Implicit Types (pois : seq A) (o : tobj A) (p : values A).

(** ** Gradients *)
Lemma slope_of L p a k dx dy (g : C) : partials L p a k dx dy -> slope_against L p a k g (- (dx * Re g + dy * Im g))%coqR.
Proof.
move=> h; rewrite /slope_against.
have h1 : derivable_pt_lim (fun t => Re (p a k) - t * Re g)%coqR 0 (- Re g)%coqR.
  by apply/is_derive_Reals; auto_derive => //; ring.
have h2 : derivable_pt_lim (fun t => Im (p a k) - t * Im g)%coqR 0 (- Im g)%coqR.
  by apply/is_derive_Reals; auto_derive => //; ring.
have h0 : differentiable_pt_lim (fun x y => L (put p a k (x, y))) (Re (p a k) - 0 * Re g)%coqR (Im (p a k) - 0 * Im g)%coqR dx dy.
  by rewrite !Rmult_0_l !Rminus_0_r.
have := @derivable_pt_lim_comp_2d (fun x y => L (put p a k (x, y))) (fun t => Re (p a k) - t * Re g)%coqR (fun t => Im (p a k) - t * Im g)%coqR 0%coqR _ _ _ _ h0 h1 h2.
rewrite (_ : (dx * - Re g + dy * - Im g)%coqR = (- (dx * Re g + dy * Im g))%coqR); last by ring.
apply: derivable_pt_lim_ext => t; congr (L (put p a k _)).
case: (p a k) g {h1 h2 h h0} => x y [u v]; rewrite /= /Re /Im /=; congr pair; rewrite /GRing.add /GRing.opp /=; ring.
Qed.

Lemma descent (f : R -> R) l : derivable_pt_lim f 0 l -> (l < 0)%coqR ->
  exists2 t0, (0 < t0)%coqR & forall t, (0 < t < t0)%coqR -> (f t < f 0%coqR)%coqR.
Proof.
move=> h hl; have [d hd] := h (- l)%coqR (Ropp_0_gt_lt_contravar _ hl).
exists d => [|t [t1 t2]]; first exact (cond_pos d).
have ht : t <> 0%coqR by lra.
have := hd t ht; rewrite Rabs_pos_eq; last lra.
move=> /(_ t2); rewrite Rplus_0_l => /Rabs_def2 [h1 _].
have h3 : ((f t - f 0%coqR) / t < 0)%coqR by lra.
have h4 : (f t - f 0%coqR = ((f t - f 0%coqR) / t) * t)%coqR by field.
have h5 : ((f t - f 0%coqR) / t * t < 0)%coqR by have := Rmult_lt_compat_r t _ _ t1 h3; rewrite Rmult_0_l.
by lra.
Qed.
Lemma sum_sq_neg (dom : seq (A * nat)) (g d : A -> nat -> C) : (forall e, e \in dom -> d e.1 e.2 = - g e.1 e.2) ->
  (exists2 e, e \in dom & g e.1 e.2 <> 0) ->
  (foldr Rplus 0%coqR [seq (Re (g e.1 e.2) * Re (d e.1 e.2) + Im (g e.1 e.2) * Im (d e.1 e.2))%coqR | e <- dom] < 0)%coqR.
Proof.
have one z w : w = - z -> (Re z * Re w + Im z * Im w <= 0)%coqR /\ (z <> 0 -> (Re z * Re w + Im z * Im w < 0)%coqR).
  move=> ->; case: z => x y; rewrite /Re /Im /=.
  have u := Rle_0_sqr x; have v := Rle_0_sqr y; rewrite /Rsqr in u v.
  rewrite (_ : x * - x + y * - y = - (x * x + y * y))%coqR; last by ring.
  split=> [|hxy]; first lra.
  case: (Req_dec x 0) => hx; last by have := Rsqr_pos_lt _ hx; rewrite /Rsqr; lra.
  case: (Req_dec y 0) => hy; last by have := Rsqr_pos_lt _ hy; rewrite /Rsqr; lra.
  by case: hxy; rewrite hx hy.
move=> h hn; pose F e := (Re (g e.1 e.2) * Re (d e.1 e.2) + Im (g e.1 e.2) * Im (d e.1 e.2))%coqR.
have hF e : e \in dom -> (F e <= 0)%coqR by move=> he; have [] := one _ _ (h e he).
have [e0 he0 h0] : exists2 e, e \in dom & (F e < 0)%coqR.
  by case: hn => e he hne; exists e => //; exact ((one _ _ (h e he)).2 hne).
change (foldr Rplus 0%coqR [seq F e | e <- dom] < 0)%coqR.
move: F hF he0 h0 {h hn one} => F; elim: dom => [|e l IH] hF; first by rewrite in_nil.
have le0 (m : seq (A * nat)) : (forall e, e \in m -> (F e <= 0)%coqR) -> (foldr Rplus 0%coqR [seq F e | e <- m] <= 0)%coqR.
  elim: m => [|e' m IHm] h /=; first lra.
  have := h e' (mem_head _ _); have := IHm (fun e2 he => h e2 (mem_behead (s := e' :: m) he)); lra.
have hl : forall e', e' \in l -> (F e' <= 0)%coqR by move=> e' he; apply: hF; rewrite in_cons he orbT.
have h1 := hF e (mem_head _ _); have h2 := le0 l hl.
rewrite in_cons => /orP [/eqP ->|he] h0 /=; first lra.
by have := IH hl he h0; lra.
Qed.
(** One step of plain gradient descent on the arrays of [pois] lowers the loss for every small learning rate. *)
Lemma sgd_descends (L : values A -> R) pois dom p (g : values A) : directional L p dom g ->
  (forall e, e \in dom -> e.1 \in pois) -> (forall a k, a \in pois -> (a, k) \notin dom -> g a k = 0) ->
  (exists2 e, e \in dom & g e.1 e.2 <> 0) ->
  exists2 t0, (0 < t0)%coqR & forall lr, (0 < lr < t0)%coqR -> (L (override pois (sgd lr tt p g).2 p) < L p)%coqR.
Proof.
move=> hL hd hz hn.
pose d := fun a k => if (a, k) \in dom then - g a k else 0.
have h1 : forall a k, (a, k) \notin dom -> d a k = 0 by move=> a k h; rewrite /d (negbTE h).
have h2 : forall e, e \in dom -> d e.1 e.2 = - g e.1 e.2 by move=> [a k] h; rewrite /d /= h.
have [t0 ht h] := descent (hL d h1) (sum_sq_neg h2 hn).
exists t0 => // lr hlr; move: (h lr hlr).
rewrite (_ : (fun a k => p a k + RtoC 0 * d a k) = p); last first.
  by apply: functional_extensionality => a; apply: functional_extensionality => k; rewrite [RtoC 0](_ : _ = 0) // mul0r addr0.
rewrite (_ : (fun a k => p a k + RtoC lr * d a k) = override pois (sgd lr tt p g).2 p) //.
apply: functional_extensionality => a; apply: functional_extensionality => k; rewrite /override /d /=.
case ha: (a \in pois); case: ifP => hk; rewrite ?mulrN ?mulr0 ?addr0 //.
  by rewrite hz ?hk // mulr0 subr0.
by have := hd _ hk; rewrite /= ha.
Qed.

Lemma gradient_method_add (S : Type) (M : S -> values A -> values A -> S * values A) (G : values A -> values A) pois k l s p :
  gradient_method M G pois (k + l) s p = (let sp := gradient_method M G pois l s p in gradient_method M G pois k sp.1 sp.2).
Proof. by elim: k => [|k IH] /=; [case: (gradient_method _ _ _ _ _ _)|rewrite IH]. Qed.

(** ** PyTorch *)
Section Torch.
Variable ag : values A -> values A.

Lemma t_grad_val pois o : t_val (t_grad ag pois o).1 = t_val o. Proof. by []. Qed.

Lemma t_grad_buf pois o a : a \in pois -> (t_grad ag pois o).2 a = Some (add_to (t_buf o a) (ag (t_val o) a)).
Proof. by move=> h; rewrite /t_grad /= h. Qed.
Lemma t_grad_kept pois o a : a \in pois -> t_buf (t_grad ag pois o).1 a = Some (add_to (t_buf o a) (ag (t_val o) a)).
Proof. by move=> h; rewrite /t_grad /= h. Qed.

(** After [r] earlier calls the buffer holds r times the gradient. *)
Lemma t_grad_iter pois o r a : a \in pois -> t_buf o a = None ->
  let o' := iter r (fun x => (t_grad ag pois x).1) o in
  t_val o' = t_val o /\ (t_grad ag pois o').2 a = Some (fun k => r.+1%:R * ag (t_val o) a k).
Proof.
move=> h h0 o'; have [h1 h2] : t_val o' = t_val o /\ forall b, t_buf o' a = b ->
    add_to b (ag (t_val o) a) = (fun k => r.+1%:R * ag (t_val o) a k).
  rewrite /o' {o'}; elim: r => [|r [IH1 IH2]].
    by split=> // b; rewrite /= h0 => <-; apply: functional_extensionality => k /=; rewrite mul1r.
  split=> [|b]; first by rewrite iterS t_grad_val.
  rewrite iterS (t_grad_kept _ h) IH1 (IH2 _ erefl) => <-; apply: functional_extensionality => k /=.
  by rewrite [in RHS]mulrSr [in RHS]mulrDl mul1r.
by split=> //; rewrite (t_grad_buf _ h) h1 (h2 _ erefl).
Qed.

(** Calls for other parameters in between add to the buffer as well: the flag stays. *)
Lemma t_grad_calls pois calls o a : a \in pois -> t_buf o a = None ->
  let o' := foldl (fun x q => (t_grad ag q x).1) (t_grad ag pois o).1 calls in
  t_val o' = t_val o /\ (t_grad ag pois o').2 a = Some (fun k => (size calls).+2%:R * ag (t_val o) a k).
Proof.
move=> h h0 o'; have [h1 h2] : t_val o' = t_val o /\ t_buf o' a = Some (fun k => (size calls).+1%:R * ag (t_val o) a k).
  have [v r b] : [/\ t_val (t_grad ag pois o).1 = t_val o, t_req (t_grad ag pois o).1 a
      & t_buf (t_grad ag pois o).1 a = Some (fun k => 1%:R * ag (t_val o) a k)].
    by split=> //; rewrite /= ?h // h0; congr Some; apply: functional_extensionality => k; rewrite mul1r.
  rewrite /o' {o'} -[(size calls).+1]add1n; move: {h0} (t_grad ag pois o).1 1%N v r b => o1 m.
  elim: calls o1 m => [|q l IH] o1 m v r b; first by rewrite addn0.
  rewrite [size _]/= -addSnnS; apply: IH => //; first by rewrite /= r orbT.
  rewrite /= r orbT b v; congr Some; apply: functional_extensionality => k /=.
  by rewrite [in RHS]mulrSr [in RHS]mulrDl mul1r.
split=> //; rewrite (t_grad_buf _ h) h2 h1; congr Some; apply: functional_extensionality => k /=.
by rewrite [in RHS]mulrSr [in RHS]mulrDl mul1r.
Qed.

Variables (S : Type) (step : S -> values A -> (A -> option tensor) -> S * values A).
(** The user's optimiser as a method on gradients. *)
Definition method_of pois (s : S) p (g : values A) : S * values A := step s p (fun a => if a \in pois then Some (g a) else None).

Lemma t_round_step pois s o : (forall a, a \in pois -> t_req o a) ->
  let so := opt_step step pois s (backward ag (zero_grad pois o)) in
  [/\ (so.1, t_val so.2) = (let (s', q) := method_of pois s (t_val o) (ag (t_val o)) in (s', override pois q (t_val o))),
      forall a, a \in pois -> t_req so.2 a & forall a, a \in pois -> t_buf so.2 a = Some (ag (t_val o) a)].
Proof.
move=> h; rewrite /opt_step /=.
rewrite (_ : (fun a => if a \in pois then _ else None) = (fun a => if a \in pois then Some (ag (t_val o) a) else None)); last first.
  by apply: functional_extensionality => a; case e: (a \in pois); rewrite // h.
rewrite /method_of; case: (step _ _ _) => s' q /=; split=> // a ha; by rewrite h // ha.
Qed.

Lemma t_rounds_req pois k so : (forall a, a \in pois -> t_req so.2 a) -> forall a, a \in pois -> t_req (t_rounds ag step pois k so).2 a.
Proof. by elim: k so => //= k IH so h; apply: IH; have [] := t_round_step so.1 h. Qed.
Lemma t_roundsS pois k so : t_rounds ag step pois k.+1 so =
  let so' := t_rounds ag step pois k so in opt_step step pois so'.1 (backward ag (zero_grad pois so'.2)).
Proof. by elim: k so => [//|k IH] so; exact (IH _). Qed.

Lemma t_roundsE pois k s o : (forall a, a \in pois -> t_req o a) ->
  let so := t_rounds ag step pois k (s, o) in
  (so.1, t_val so.2) = gradient_method (method_of pois) ag pois k s (t_val o).
Proof.
move=> h; elim: k => [//|k IH]; rewrite t_roundsS /= -IH.
set so := t_rounds _ _ _ _ _ in IH *.
have hr : forall a, a \in pois -> t_req so.2 a by apply: t_rounds_req.
by have [e _ _] := t_round_step so.1 hr; rewrite /= in e; rewrite e.
Qed.
Lemma t_fitE pois s k o : t_val (t_fit ag step pois s k o).1 = (gradient_method (method_of pois) ag pois k s (t_val o)).2 /\
  forall a, (t_fit ag step pois s k o).2 a = if a \in pois then Some ((gradient_method (method_of pois) ag pois k s (t_val o)).2 a) else None.
Proof.
have h a : a \in pois -> t_req (require pois o) a by move=> ha; rewrite /= ha.
have := t_roundsE k s h; rewrite [t_val (require _ _)]/= => <-; split=> //.
Qed.
(** Buffers after at least one round: the gradient before the last step. *)
Lemma t_fit_buf pois s k o a : a \in pois -> t_buf (t_fit ag step pois s k.+1 o).1 a =
  Some (ag (gradient_method (method_of pois) ag pois k s (t_val o)).2 a).
Proof.
move=> ha; have h b : b \in pois -> t_req (require pois o) b by move=> hb; rewrite /= hb.
change (t_buf (t_rounds ag step pois k.+1 (s, require pois o)).2 a = Some (ag (gradient_method (method_of pois) ag pois k s (t_val o)).2 a)).
rewrite t_roundsS /=.
have e := t_roundsE k s h; rewrite [t_val (require _ _)]/= in e; rewrite -e.
set so := t_rounds _ _ _ _ _ in e *.
have hr : forall b, b \in pois -> t_req so.2 b by apply: t_rounds_req.
by have [_ _ ->] := t_round_step so.1 hr.
Qed.
End Torch.

(** ** JAX *)
Section Jax.
Variables (vg : values A -> option (values A)) (tracer : values A) (store : A -> tensor -> option tensor).

Lemma set_allE pois params (o : values A) : (forall a, a \in pois -> store a (params a) = Some (params a)) ->
  set_all store pois params o = (override pois params o, true).
Proof.
elim: pois o => [|a l IH] o' h; first by congr pair; apply: functional_extensionality.
rewrite /= h ?mem_head // IH; last by move=> b hb; rewrite h // in_cons hb orbT.
congr pair; apply: functional_extensionality => b; rewrite /override in_cons.
by case: eqP => [->|_] /=; case: (_ \in _).
Qed.
Lemma override_id pois (o : values A) : override pois o o = o.
Proof. by apply: functional_extensionality => a; rewrite /override; case: ifP. Qed.
Lemma override_over pois (p q o : values A) : override pois p (override pois q o) = override pois p o.
Proof. by apply: functional_extensionality => a; rewrite /override; case: (a \in pois). Qed.

Lemma j_gradE pois (o : values A) g : (forall a, a \in pois -> store a (o a) = Some (o a)) -> vg o = Some g ->
  j_grad vg tracer store pois o = (o, Some (fun a => if a \in pois then Some (g a) else None)).
Proof.
move=> h e; rewrite /j_grad /j_raw override_id e set_allE // override_over override_id //.
Qed.

Variables (S : Type) (update : S -> values A -> values A -> S * values A).
Variable G : values A -> values A.
Hypothesis hG : forall p, exists2 g, vg p = Some g & forall a k, G p a k = conj (g a k).

Lemma j_roundsE pois k s p (o : values A) : override pois p o = p ->
  j_rounds vg tracer update pois k s p o = Some (gradient_method update G pois k s p).
Proof.
move=> ho.
have step1 s' q : override pois q o = q ->
    j_step vg tracer update pois s' q o = Some (let (s2, u) := update s' q (G q) in (s2, override pois u q)).
  move=> hq; rewrite /j_step /j_raw /= hq; have [g -> e] := hG q.
  rewrite (_ : (fun a k0 => conj (g a k0)) = G q); last by apply: functional_extensionality => a; apply: functional_extensionality => i; rewrite e.
  by case: (update _ _ _).
have keep r s' q : override pois q o = q -> override pois (gradient_method update G pois r s' q).2 o = (gradient_method update G pois r s' q).2.
  elim: r => [//|r IH] hq /=; case e: (gradient_method _ _ _ _ _ _) (IH hq) => [s2 q2] /= h2; case: (update _ _ _) => s3 u /=.
  by rewrite -{2}h2; apply: functional_extensionality => a; rewrite /override; case: (a \in pois).
have front r s' q : gradient_method update G pois r.+1 s' q =
    (let (s2, u) := (let (s2, u) := update s' q (G q) in (s2, override pois u q)) in gradient_method update G pois r s2 u).
  elim: r => [|r IH]; first by rewrite /=; case: (update _ _ _).
  rewrite [LHS]/= -/(gradient_method update G pois r.+1 s' q) IH; by case: (update _ _ _).
elim: k s p ho => [//|k IH] s p ho; rewrite front [LHS]/= step1 //.
case e: (update s p (G p)) => [s2 u]; apply: IH.
by rewrite -{2}ho; apply: functional_extensionality => a; rewrite /override; case: (a \in pois).
Qed.

Lemma j_fitE pois s k (o : values A) : let p := (gradient_method update G pois k s o).2 in
  (forall a, a \in pois -> store a (p a) = Some (p a)) ->
  j_fit vg tracer store update pois s k o = (p, Some (fun a => if a \in pois then Some (p a) else None)).
Proof.
move=> p h; rewrite /j_fit (j_roundsE k s (override_id pois o)).
have out a : a \notin pois -> p a = o a.
  rewrite /p; elim: k {p h} => [//|k IH] ha /=; move: (IH ha); case: (gradient_method _ _ _ _ _ _) => s2 q2 /=.
  by case: (update _ _ _) => s3 u /=; rewrite (negbTE ha).
rewrite -/p (_ : gradient_method update G pois k s o = ((gradient_method update G pois k s o).1, p)); last by rewrite /p; case: (gradient_method _ _ _ _ _ _).
rewrite set_allE //; congr pair; apply: functional_extensionality => a.
rewrite /override; case e: (a \in pois) => //; rewrite out ?e //.
by case: k {p h out} => //; rewrite /override e.
Qed.
End Jax.
End Names.

(** ** A quadratic loss for the examples *)
Definition quad (al be : R) (p : values [eqType of unit]) : R := (al * (Re (p tt 0%N) * Re (p tt 0%N)) + be * (Im (p tt 0%N) * Im (p tt 0%N)))%coqR.
Definition quad_grad (al be : R) (p : values [eqType of unit]) : values [eqType of unit] :=
  fun _ k => if k is 0%N then (2 * al * Re (p tt 0%N), 2 * be * Im (p tt 0%N))%coqR else (0, 0)%coqR.

Lemma quad_partials al be p k : partials (quad al be) p tt k (Re (quad_grad al be p tt k)) (Im (quad_grad al be p tt k)).
Proof.
case: k => [|k]; last first.
  move=> e; exists (mkposreal 1 Rlt_0_1) => u v _ _; rewrite /quad /put /= /Re /Im /=.
  rewrite [X in Rabs X](_ : _ = 0%coqR); last by ring.
  rewrite Rabs_R0; apply: Rmult_le_pos; [exact (Rlt_le _ _ (cond_pos e))|exact (Rle_trans _ _ _ (Rabs_pos _) (Rmax_l _ _))].
rewrite /partials /quad_grad /=; case: (p tt 0%N) => x y; rewrite /Re /Im /= => e.
have hc : (0 < Rabs al + Rabs be + 1)%coqR by have := Rabs_pos al; have := Rabs_pos be; lra.
have hd : (0 < e / (Rabs al + Rabs be + 1))%coqR by apply: Rdiv_lt_0_compat => //; exact (cond_pos e).
exists (mkposreal _ hd) => u v /= hu hv; rewrite /quad /put /= /Re /Im /=.
rewrite [X in Rabs X](_ : _ = (al * ((u - x) * (u - x)) + be * ((v - y) * (v - y)))%coqR); last by ring.
set m := Rmax _ _.
have hm : (m <= e / (Rabs al + Rabs be + 1))%coqR by apply: Rmax_lub; apply: Rlt_le.
have m1 : (Rabs (u - x) <= m)%coqR by apply: Rmax_l.
have m2 : (Rabs (v - y) <= m)%coqR by apply: Rmax_r.
have m0 : (0 <= m)%coqR by apply: Rle_trans (Rabs_pos _) m1.
apply: Rle_trans (Rabs_triang _ _) _; rewrite !Rabs_mult.
have s1 : (Rabs (u - x) * Rabs (u - x) <= m * m)%coqR by apply: Rmult_le_compat => //; apply: Rabs_pos.
have s2 : (Rabs (v - y) * Rabs (v - y) <= m * m)%coqR by apply: Rmult_le_compat => //; apply: Rabs_pos.
have a1 := Rmult_le_compat_l _ _ _ (Rabs_pos al) s1; have a2 := Rmult_le_compat_l _ _ _ (Rabs_pos be) s2.
have b1 : ((Rabs al + Rabs be + 1) * m <= e)%coqR.
  have := Rmult_le_compat_l _ _ _ (Rlt_le _ _ hc) hm; rewrite (_ : _ * (e / _) = e)%coqR //; field; lra.
have b2 := Rmult_le_compat_r _ _ _ m0 b1.
have b3 : (0 <= m * m)%coqR by apply: Rmult_le_pos.
by lra.
Qed.
Lemma quad_torch al be p a : is_torch_gradient (quad al be) p a (quad_grad al be p a).
Proof. by case: a => k; apply: quad_partials. Qed.

Lemma quad_directional al be p : directional (quad al be) p [:: (tt, 0%N)] (quad_grad al be p).
Proof.
move=> d _; rewrite /= /quad /quad_grad /=; case: (p tt 0%N) => x y; case: (d tt 0%N) => u v.
apply/is_derive_Reals.
apply: (is_derive_ext (fun t => al * ((x + t * u) * (x + t * u)) + be * ((y + t * v) * (y + t * v)))%coqR).
  by move=> t; rewrite /GRing.add /GRing.mul /= /Re /Im /=; ring.
by auto_derive => //; rewrite /Re /Im /=; ring.
Qed.
