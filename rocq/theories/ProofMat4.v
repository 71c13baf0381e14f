(** Lemmas about material lookup: passivity of the fitted materials. *)
From Coq Require Import Reals ZArith Lra Lia.
From Coquelicot Require Import Coquelicot.
From mathcomp Require Import all_ssreflect ssralg.
From Verif Require Import Cplx ModelVec ModelMat SpecMat ProofMat ProofMat2 ProofMat3.

Set Implicit Arguments.
Unset Strict Implicit.
Unset Printing Implicit Defensive.
Local Open Scope ring_scope.
Import GRing.Theory.

Section BB.
Variable w : C -> C.
Hypothesis hw : faddeeva w.

Definition chis (scale omega : R) (os : seq osc) : seq C :=
  [seq (let: (f, g, c, s) := o in oscillator w omega (f * scale)%coqR g c s) | o <- os].

Lemma osc_evE omega plasma eps os : (forall o, List.In o os -> passive_osc o) ->
  osc_ev w omega plasma eps (coefs_ev os) = Some (eps + \sum_(x <- chis (plasma * plasma) omega os) x).
Proof.
elim: os eps => [|[[[f g] c] s] os ih] eps h; first by rewrite /= big_nil addr0.
rewrite [coefs_ev _]/= [osc_ev _ _ _ _ _]/=; have [_ [_ hs]] := h _ (or_introl erefl).
case: Req_EM_T => e; first lra.
rewrite ih; last by move=> o ho; apply: h; right.
by rewrite /= big_cons addrA.
Qed.
Lemma osc_cmE omega eps os : (forall o, List.In o os -> passive_osc o) ->
  osc_cm w omega eps (coefs_cm os) = Some (eps + \sum_(x <- chis 1 omega os) x).
Proof.
elim: os eps => [|[[[f g] c] s] os ih] eps h; first by rewrite /= big_nil addr0.
rewrite [coefs_cm _]/= [osc_cm _ _ _ _]/=; have [_ [_ hs]] := h _ (or_introl erefl).
case: Req_EM_T => e; first lra.
rewrite ih; last by move=> o ho; apply: h; right.
by rewrite /= big_cons addrA Rmult_1_r.
Qed.

Lemma chis_im scale omega os : (0 <= scale)%coqR -> (0 < omega)%coqR -> (forall o, List.In o os -> passive_osc o) ->
  (0 <= Im (\sum_(x <- chis scale omega os) x))%coqR.
Proof.
move=> h0 ho; elim: os => [|[[[f g] c] s] os ih] h; first by rewrite big_nil /Im /=; lra.
rewrite /= big_cons ImD; have [hf [hg hs]] := h _ (or_introl erefl).
have := ih (fun o hi => h o (or_intror hi)).
have h1 : (0 <= f * scale)%coqR by exact: Rmult_le_pos.
by set x := Im (\sum_(_ <- _) _); have := osc_im hw c ho hg hs h1; set y := Im _; lra.
Qed.

Lemma chis_broad scale omega os : (0 < omega)%coqR -> (forall o, List.In o os -> passive_osc o) ->
  List.Forall2 (fun (o : osc) chi => let: (f, g, c, s) := o in broadened omega (f * scale) g c s chi) os (chis scale omega os).
Proof.
move=> ho; elim: os => [|[[[f g] c] s] os ih] h /=; first exact: List.Forall2_nil.
have [hf [hg hs]] := h _ (or_introl erefl); apply: List.Forall2_cons; first exact: osc_limit.
by apply: ih => o hi; apply: h; right.
Qed.

Lemma drudeE st p g omega : (0 < omega)%coqR ->
  1 - RtoC (st * (p * p)) / (RtoC omega * (RtoC omega + ci * RtoC g)) = drude st p g omega.
Proof.
move=> ho; rewrite /drude; congr (_ - _ / _); rewrite !RtoC_mul.
by set x := RtoC omega; set y := RtoC g; cring.
Qed.
Lemma drude_im st p g omega : (0 <= st)%coqR -> (0 <= g)%coqR -> (0 < omega)%coqR -> (0 <= Im (drude st p g omega))%coqR.
Proof.
move=> h1 h2 ho; rewrite /drude.
set k := (st * (p * p))%coqR; have k0 : (0 <= k)%coqR by apply: Rmult_le_pos => //; exact: Rle_0_sqr.
set a := (omega * omega)%coqR; have a0 : (0 < a)%coqR by exact: Rmult_lt_0_compat.
set b := (g * omega)%coqR; have b0 : (0 <= b)%coqR by apply: Rmult_le_pos; lra.
have n0 : RtoC a + ci * RtoC b != 0 by apply/eqP => e; have := f_equal Re e; rewrite /Re /=; lra.
have hp := sq_pos b a0.
rewrite (CinvE n0).
have -> : Im (1 - RtoC k * (/ (RtoC a + ci * RtoC b)%R)%C) = (k * b / (a * a + b * b))%coqR.
  by rewrite /Im /Cinv /=; field; lra.
apply: Rmult_le_pos; first exact: Rmult_le_pos.
by left; apply: Rinv_0_lt_compat; lra.
Qed.

Lemma conj_sqrt_absorbing z : (0 <= Im z)%coqR -> absorbing (conj (csqrt z)).
Proof. by move=> h; rewrite /absorbing Re_conj Im_conj; have := csqrt_up h; have := csqrt_Re_ge0 z; lra. Qed.
Lemma conj_sqrt_sqr z : conj (conj (csqrt z) * conj (csqrt z)) = z.
Proof. by rewrite -conjM conjK csqrt_sqr. Qed.

Lemma find_fit quad m table sp wl z : resolve m table = Some (Fit sp, false) -> evaluate w quad sp wl = Some z ->
  exists b, find_nk_index w quad m table wl = Some (b, conj z).
Proof.
move=> e ev; rewrite /find_nk_index e /warns [range_of _]/=; case: (s_range sp) => lo hi.
by rewrite [index_of _ _ _ _ _]/= ev; eexists.
Qed.

Lemma bb_ev quad m table sp p st g os wl : resolve m table = Some (Fit sp, false) ->
  s_formula sp = FName bb_ev_name -> s_coefs sp = p :: st :: g :: coefs_ev os ->
  (0 < wl)%coqR -> (0 <= st)%coqR -> (0 <= g)%coqR -> (forall o, List.In o os -> passive_osc o) ->
  exists b z cs, [/\ find_nk_index w quad m table wl = Some (b, z),
    conj (z * z) = drude st p g (omega_ev wl) + \sum_(x <- cs) x,
    List.Forall2 (fun (o : osc) chi => let: (f, g, c, s) := o in broadened (omega_ev wl) (f * (p * p)) g c s chi) os cs
   & absorbing z].
Proof.
move=> er ef ec hl h1 h2 ho.
have hom : (0 < omega_ev wl)%coqR.
  by rewrite /omega_ev /Rdiv; apply: Rmult_lt_0_compat; [apply: Rmult_lt_0_compat; [lra|exact: Rinv_0_lt_compat]|lra].
set e := drude st p g (omega_ev wl) + \sum_(x <- chis (p * p) (omega_ev wl) os) x.
have ev : evaluate w quad sp wl = Some (csqrt e).
  rewrite /evaluate ef eqxx ec /model_brendel_bormann_ev; case: Req_EM_T => e0; first lra.
  by rewrite [is_left _]/=; cbv zeta; rewrite -/(omega_ev wl) drudeE // osc_evE.
have [b hb] := find_fit er ev.
exists b, (conj (csqrt e)), (chis (p * p) (omega_ev wl) os); split=> //.
- by rewrite conj_sqrt_sqr.
- exact: chis_broad.
- apply: conj_sqrt_absorbing; rewrite /e ImD.
  have := drude_im p h1 h2 hom; have := chis_im (Rle_0_sqr p) hom ho; rewrite /Rsqr; set x := Im _; set y := Im _; lra.
Qed.

Lemma bb_cm quad m table sp e0 os wl : resolve m table = Some (Fit sp, false) ->
  s_formula sp = FName bb_cm_name -> s_coefs sp = e0 :: coefs_cm os -> os <> [::] ->
  (0 < wl)%coqR -> (forall o, List.In o os -> passive_osc o) ->
  exists b z cs, [/\ find_nk_index w quad m table wl = Some (b, z),
    conj (z * z) = RtoC e0 + \sum_(x <- cs) x,
    List.Forall2 (fun (o : osc) chi => let: (f, g, c, s) := o in broadened (1 / 100 / wl) f g c s chi) os cs
   & absorbing z].
Proof.
move=> er ef ec hne hl ho.
have hom : (0 < 1 / 100 / wl)%coqR.
  by rewrite /Rdiv; apply: Rmult_lt_0_compat; [lra|exact: Rinv_0_lt_compat].
set e := RtoC e0 + \sum_(x <- chis 1 (1 / 100 / wl) os) x.
have ev : evaluate w quad sp wl = Some (csqrt e).
  rewrite /evaluate ef ec (_ : (_ == bb_ev_name) = false) // eqxx /model_brendel_bormann_cm.
  have E := @osc_cmE (1 / 100 / wl)%coqR (RtoC e0) os ho.
  have hc : coefs_cm os <> [::] by case: (os) hne => [|[[[f g] c] s] os'].
  case: (coefs_cm os) E hc => [|x l] // E _; case: Req_EM_T => h0; first lra.
  by rewrite [is_left _]/= E.
have [b hb] := find_fit er ev.
exists b, (conj (csqrt e)), (chis 1 (1 / 100 / wl) os); split=> //.
- by rewrite conj_sqrt_sqr.
- have := chis_broad 1 hom ho; elim=> [|[[[f g] c] s] chi os' cs' h _ ih]; constructor=> //.
  by rewrite Rmult_1_r in h.
- apply: conj_sqrt_absorbing; rewrite /e ImD.
  have h1 : (0 <= 1)%coqR by lra.
  have -> : Im (RtoC e0) = 0%coqR by [].
  by have := chis_im h1 hom ho; set x := Im _; lra.
Qed.
End BB.

(** ** Graphene *)
Lemma tanh_pos x : (0 < x)%coqR -> (0 < tanh x)%coqR.
Proof.
move=> h; rewrite /tanh; apply: Rmult_lt_0_compat.
  by rewrite /sinh; have : (exp (- x) < exp x)%coqR by [apply: exp_increasing; lra]; lra.
by apply: Rinv_0_lt_compat; rewrite /cosh; have := exp_pos x; have := exp_pos (- x); lra.
Qed.

Lemma occupation_pos f t e : (0 < t)%coqR -> (0 < e)%coqR -> (0 < occupation f t e)%coqR.
Proof.
move=> ht he; rewrite /occupation; apply: Rmult_lt_0_compat.
  by apply: tanh_pos; apply: Rmult_lt_0_compat => //; exact: Rinv_0_lt_compat.
by apply: Rinv_0_lt_compat; rewrite /cosh_ratio; set x := exp _; have : (0 < x)%coqR by [exact: exp_pos]; lra.
Qed.

Lemma logaddexp_pos a : (0 < logaddexp a (- a))%coqR.
Proof.
rewrite /logaddexp -ln_1; apply: ln_increasing; first lra.
have h1 := exp_pos a; have h2 := exp_pos (- a).
case: (Rle_lt_dec 0 a) => h.
  by have : (1 <= exp a)%coqR by [case: h => [h|<-]; [left; rewrite -exp_0; exact: exp_increasing|rewrite exp_0; lra]]; lra.
by have : (1 < exp (- a))%coqR by [rewrite -exp_0; apply: exp_increasing; lra]; lra.
Qed.

Lemma intra_re (q t p h e s l : R) : (0 < p)%coqR -> (0 < h)%coqR -> (0 < e)%coqR ->
  Re ((RtoC 2 * ci * RtoC q * RtoC t) / (RtoC p * RtoC h * (RtoC e + ci * RtoC s)) * RtoC l)
  = (2 * q * t * l * s / (p * h * (e * e + s * s)))%coqR.
Proof.
move=> hp hh he.
have hs := sq_pos s he.
have n0 : RtoC p * RtoC h * (RtoC e + ci * RtoC s) != 0.
  rewrite !mulf_neq0 //; try (by apply: RtoC_neq0; lra).
  by apply/eqP => E; have := f_equal Re E; rewrite /Re /=; lra.
rewrite !invfM (CinvE (x := RtoC e + ci * RtoC s)); last first.
  by apply/eqP => E; have := f_equal Re E; rewrite /Re /=; lra.
rewrite -!RtoC_inv; try lra.
rewrite /Re /Cinv /=; field; split; [lra|split; lra].
Qed.

Section Graphene.
Variables (w : C -> C) (quad : (R -> R) -> R -> R -> R -> R).

Lemma conductivity_re f t s e : (0 < t)%coqR -> (0 < e)%coqR -> (0 <= s)%coqR -> (0 < Re (conductivity quad f t s e))%coqR.
Proof.
move=> ht he hs; rewrite /conductivity.
set half := occupation _ _ _; have h0 : (0 < half)%coqR by apply: occupation_pos; lra.
set ib := quad _ _ _ _; set l := logaddexp _ _; have l0 : (0 < l)%coqR by exact: logaddexp_pos.
have hq : (0 < ELEMENTARY_CHARGE)%coqR by rewrite /ELEMENTARY_CHARGE; lra.
have hh : (0 < HBAR)%coqR by rewrite /HBAR; lra.
have hp := PI_RGT_0.
rewrite ReD intra_re //.
set q2 := (ELEMENTARY_CHARGE * ELEMENTARY_CHARGE)%coqR; have q20 : (0 < q2)%coqR by exact: Rmult_lt_0_compat.
have -> : Re (RtoC (q2 / (4 * HBAR)) * (RtoC half + RtoC 4 * ci * RtoC e / RtoC PI * RtoC ib)) = (q2 / (4 * HBAR) * half)%coqR.
  by rewrite -RtoC_inv; [rewrite /Re /=; field; lra|lra].
have a1 : (0 <= 2 * q2 * t * l * s / (PI * HBAR * (e * e + s * s)))%coqR.
  apply: Rmult_le_pos; first by repeat apply: Rmult_le_pos; lra.
  left; apply: Rinv_0_lt_compat; apply: Rmult_lt_0_compat; first by apply: Rmult_lt_0_compat; lra.
  by have := sq_pos s he; lra.
have a2 : (0 < q2 / (4 * HBAR) * half)%coqR.
  by apply: Rmult_lt_0_compat => //; apply: Rmult_lt_0_compat => //; apply: Rinv_0_lt_compat; lra.
by lra.
Qed.

Lemma graphene f mob temp th wl sp : graphene_spec f mob temp th = Some sp -> (0 < wl)%coqR ->
  exists z, find_nk_index w quad (BySpec sp) [::] wl = Some (false, z) /\ (0 < Re z)%coqR /\ (Im z < 0)%coqR.
Proof.
rewrite /graphene_spec; case: ifP => // /and4P[/rltbP hf /rltbP hm /rltbP ht /rltbP hth] [<-] hl.
rewrite /find_nk_index /resolve /warns /range_of [s_range _]/=.
have -> : rltb wl 0%coqR = false by apply/rltbP; lra.
rewrite /index_of /evaluate [s_formula _]/= [s_coefs _]/=; cbv iota.
rewrite (_ : (_ == bb_ev_name) = false) // (_ : (_ == bb_cm_name) = false) // eqxx.
rewrite /model_graphene_falkovsky; case: rlebP => hl2; first lra.
have hpos : (0 < f * mob * temp * th)%coqR by repeat apply: Rmult_lt_0_compat.
case: Req_EM_T => e0; first lra.
rewrite [is_left _]/=; cbv zeta.
set sg := Rabs _; set e := (HBAR * _ / _)%coqR; set t := (temp * _ / _)%coqR.
have hq : (0 < ELEMENTARY_CHARGE)%coqR by rewrite /ELEMENTARY_CHARGE; lra.
have hh : (0 < HBAR)%coqR by rewrite /HBAR; lra.
have hb : (0 < BOLTZMANN)%coqR by rewrite /BOLTZMANN; lra.
have hv : (0 < VACUUM_PERMITTIVITY)%coqR by rewrite /VACUUM_PERMITTIVITY; lra.
have hc : (0 < LIGHT_SPEED)%coqR by rewrite /LIGHT_SPEED; lra.
have hp := PI_RGT_0.
have t0 : (0 < t)%coqR.
  by apply: Rmult_lt_0_compat; [exact: Rmult_lt_0_compat|exact: Rinv_0_lt_compat].
have ee0 : (0 < e)%coqR.
  apply: Rmult_lt_0_compat; last exact: Rinv_0_lt_compat.
  apply: Rmult_lt_0_compat => //; apply: Rmult_lt_0_compat; last exact: Rinv_0_lt_compat.
  by apply: Rmult_lt_0_compat => //; lra.
have hr := @conductivity_re f t sg e t0 ee0 (Rabs_pos _).
set sig := conductivity _ _ _ _ _ in hr *; set c := (_ * th * _)%coqR.
have c0 : (0 < c)%coqR.
  apply: Rmult_lt_0_compat => //; apply: Rmult_lt_0_compat => //; apply: Rmult_lt_0_compat; last exact: Rinv_0_lt_compat.
  exact: Rmult_lt_0_compat.
set eps := 1 + _.
have hi : (0 < Im eps)%coqR.
  have -> : Im eps = (Re sig / c)%coqR.
    by rewrite /eps -RtoC_inv; [case: (sig) => x y; rewrite /Im /Re /=; field; lra|lra].
  by apply: Rmult_lt_0_compat => //; exact: Rinv_0_lt_compat.
have [h1 h2] := csqrt_up_strict hi.
by exists (conj (csqrt eps)); rewrite Re_conj Im_conj; split=> //; split=> //; lra.
Qed.

Lemma graphene_accepts f mob temp th :
  (exists sp, graphene_spec f mob temp th = Some sp) <-> [/\ (0 < f)%coqR, (0 < mob)%coqR, (0 < temp)%coqR & (0 < th)%coqR].
Proof.
rewrite /graphene_spec; split.
  by case=> sp; case: ifP => // /and4P[/rltbP h1 /rltbP h2 /rltbP h3 /rltbP h4].
by move=> [/rltbP -> /rltbP -> /rltbP -> /rltbP ->]; eexists.
Qed.
End Graphene.
