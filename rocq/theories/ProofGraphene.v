(** Lemmas about the graphene model. *)
From Coq Require Import Reals ZArith Lra Lia Psatz.
From Coquelicot Require Import Coquelicot.
From mathcomp Require Import all_ssreflect ssralg.
From Verif Require Import Cplx ModelVec ModelMat SpecMat SpecGraphene ProofMat ProofMat2 ProofMat3 ProofMat4.

Set Implicit Arguments.
Unset Strict Implicit.
Unset Printing Implicit Defensive.
Local Open Scope ring_scope.
Import GRing.Theory.

Lemma cosh_gt0 x : (0 < cosh x)%coqR.
Proof. by rewrite /cosh; have := exp_pos x; have := exp_pos (- x); lra. Qed.

Lemma logaddexp_cosh a : logaddexp a (- a) = ln (2 * cosh a).
Proof. by rewrite /logaddexp /cosh; congr ln; field. Qed.

(** The clipped ratio. *)
Lemma cosh_ratioE a b : cosh_ratio a b = exp (Rmin (Rmax (ln (cosh a / cosh b)) (-745)) 709)%coqR.
Proof.
have ha := cosh_gt0 a; have hb := cosh_gt0 b.
have h2 : (0 < 2)%coqR by lra.
have -> : ln (cosh a / cosh b) = (ln (cosh a) - ln (cosh b))%coqR.
  by rewrite /Rdiv (ln_mult _ _ ha (Rinv_0_lt_compat _ hb)) ln_Rinv.
rewrite /cosh_ratio !logaddexp_cosh (ln_mult _ _ h2 ha) (ln_mult _ _ h2 hb).
by congr (exp (Rmin (Rmax _ _) _)); ring.
Qed.

Lemma expM a b : exp (a - b) = (exp a / exp b)%coqR.
Proof. by rewrite /Rminus exp_plus exp_Ropp. Qed.

Lemma blockedE mu t e : t <> 0%coqR -> blocked mu t e = (tanh (e / 2 / t) / (cosh (mu / t) / cosh (e / 2 / t) + 1))%coqR.
Proof.
move=> ht; rewrite /blocked /fermi_dirac /tanh.
have -> : ((- e / 2 - mu) / t = - (e / 2 / t) - mu / t)%coqR by field.
have -> : ((e / 2 - mu) / t = e / 2 / t - mu / t)%coqR by field.
rewrite !expM /sinh /cosh !exp_Ropp; move: (exp_pos (e / 2 / t)) (exp_pos (mu / t)).
move: (exp _) (exp _) => x m hx hm; field.
have xm := Rmult_lt_0_compat _ _ hx hm; have xx := Rmult_lt_0_compat _ _ hx hx; have mm := Rmult_lt_0_compat _ _ hm hm.
have mxx := Rmult_lt_0_compat _ _ hm xx; have mmx := Rmult_lt_0_compat _ _ mm hx.
repeat split; nra.
Qed.

Lemma clip_close r : (0 < r)%coqR -> let r' := exp (Rmin (Rmax (ln r) (-745)) 709)%coqR in
  (Rabs (/ (r' + 1) - / (r + 1)) <= exp (-709))%coqR.
Proof.
move=> hr r'.
have e1 : (exp (-745) <= exp (-709))%coqR by apply: Rlt_le; apply: exp_increasing; lra.
have p9 := exp_pos (-709); have p5 := exp_pos (-745).
have hd (a b : R) : (0 < a)%coqR -> (0 < b)%coqR -> (/ (a + 1) - / (b + 1) = (b - a) * / ((a + 1) * (b + 1)))%coqR.
  by move=> ha hb; field; lra.
rewrite /r' {r'}; case: (Rle_dec (ln r) (-745)) => h1.
  rewrite Rmax_right // Rmin_left; last lra.
  have l1 : (r <= exp (-745))%coqR by rewrite -(exp_ln r hr); case: h1 => [h1|->]; [left; exact: exp_increasing|right].
  rewrite hd // Rabs_left1; last first.
    have i : (0 < / ((exp (-745) + 1) * (r + 1)))%coqR by apply: Rinv_0_lt_compat; nra.
    by nra.
  have i : (0 < / ((exp (-745) + 1) * (r + 1)))%coqR by apply: Rinv_0_lt_compat; nra.
  have i1 : (/ ((exp (-745) + 1) * (r + 1)) <= 1)%coqR by have := Rinv_le_contravar 1 ((exp (-745) + 1) * (r + 1)) Rlt_0_1; rewrite Rinv_1; apply; nra.
  by nra.
rewrite Rmax_left; last lra.
case: (Rle_dec (ln r) 709) => h2.
  by rewrite Rmin_left // exp_ln // Rminus_diag_eq // Rabs_R0; lra.
rewrite Rmin_right; last lra.
have l1 : (exp 709 < r)%coqR by rewrite -(exp_ln r hr); apply: exp_increasing; lra.
have q := exp_pos 709.
have -> : exp (-709) = (/ exp 709)%coqR by rewrite -exp_Ropp; congr exp; lra.
have a1 : (/ (exp 709 + 1) <= / exp 709)%coqR by apply: Rinv_le_contravar; lra.
have a2 : (/ (r + 1) <= / (exp 709 + 1))%coqR by apply: Rinv_le_contravar; lra.
have a3 : (0 < / (r + 1))%coqR by apply: Rinv_0_lt_compat; lra.
by rewrite Rabs_pos_eq; lra.
Qed.

Lemma tanh_abs x : (Rabs (tanh x) <= 1)%coqR.
Proof.
rewrite /tanh /sinh /cosh; have a := exp_pos x; have b := exp_pos (- x).
have i : (0 < / ((exp x + exp (- x)) / 2))%coqR by apply: Rinv_0_lt_compat; lra.
have e : ((exp x + exp (- x)) / 2 * / ((exp x + exp (- x)) / 2) = 1)%coqR by apply: Rinv_r; lra.
by apply: Rabs_le; rewrite /Rdiv in e i *; nra.
Qed.

Lemma occupation_close mu t e : t <> 0%coqR -> (Rabs (occupation mu t (e / 2) - blocked mu t e) <= exp (-709))%coqR.
Proof.
move=> ht; rewrite blockedE // /occupation cosh_ratioE.
have r0 : (0 < cosh (mu / t) / cosh (e / 2 / t))%coqR by apply: Rdiv_lt_0_compat; exact: cosh_gt0.
have hc := clip_close r0; have hT := tanh_abs (e / 2 / t); cbv zeta in hc.
rewrite /Rdiv -Rmult_minus_distr_l Rabs_mult.
apply: Rle_trans hc; rewrite -[X in (_ <= X)%coqR]Rmult_1_l.
exact: (Rmult_le_compat_r _ _ _ (Rabs_pos _) hT).
Qed.

Section Graphene.
Variables (w : C -> C) (quad : (R -> R) -> R -> R -> R -> R).

Lemma conductivity_kubo f t s e : (0 < t)%coqR -> (0 < e)%coqR -> 
  (Rabs (Re (conductivity quad f t s e) - kubo_re ELEMENTARY_CHARGE HBAR f t s e) <= ELEMENTARY_CHARGE ^ 2 / (4 * HBAR) * exp (-709))%coqR.
Proof.
move=> ht he; rewrite /conductivity.
have hc := occupation_close f e (Rgt_not_eq _ _ ht).
set half := occupation _ _ _ in hc *; set ib := quad _ _ _ _.
have hq : (0 < ELEMENTARY_CHARGE)%coqR by rewrite /ELEMENTARY_CHARGE; lra.
have hh : (0 < HBAR)%coqR by rewrite /HBAR; lra.
have hp := PI_RGT_0.
rewrite ReD intra_re // logaddexp_cosh.
set q2 := (ELEMENTARY_CHARGE * ELEMENTARY_CHARGE)%coqR; have q20 : (0 < q2)%coqR by exact: Rmult_lt_0_compat.
have -> : Re (RtoC (q2 / (4 * HBAR)) * (RtoC half + RtoC 4 * ci * RtoC e / RtoC PI * RtoC ib)) = (q2 / (4 * HBAR) * half)%coqR.
  by rewrite -RtoC_inv; [rewrite /Re /=; field; lra|lra].
rewrite /kubo_re; have -> : (ELEMENTARY_CHARGE ^ 2)%coqR = q2 by rewrite /q2 /= Rmult_1_r.
have hs := sq_pos s he.
set L := ln _; set B := blocked _ _ _ in hc *.
have -> : (2 * q2 * t * L * s / (PI * HBAR * (e * e + s * s)) + q2 / (4 * HBAR) * half -
  (q2 / (4 * HBAR) * B + 2 * q2 * t * L / (PI * HBAR) * (s / (e ^ 2 + s ^ 2))) = q2 / (4 * HBAR) * (half - B))%coqR.
  by field; repeat split; try lra; rewrite /= ?Rmult_1_r; lra.
have k0 : (0 < q2 / (4 * HBAR))%coqR by apply: Rdiv_lt_0_compat; lra.
rewrite Rabs_mult (Rabs_pos_eq _ (Rlt_le _ _ k0)); apply: Rmult_le_compat_l => //; lra.
Qed.

Lemma graphene_kubo f mob temp th wl sp b z : graphene_spec f mob temp th = Some sp -> (0 < wl)%coqR ->
  find_nk_index w quad (BySpec sp) [::] wl = Some (b, z) ->
  let omega := (2 * PI * LIGHT_SPEED / wl)%coqR in
  let g := (HBAR * FERMI_VELOCITY ^ 2 / (mob / 10000 * ELEMENTARY_CHARGE * f))%coqR in
  let t := (temp * BOLTZMANN / ELEMENTARY_CHARGE)%coqR in
  (Rabs (- Im (z * z)%R * (omega * th * VACUUM_PERMITTIVITY)
    - kubo_re ELEMENTARY_CHARGE HBAR f t g (HBAR * omega / ELEMENTARY_CHARGE)) <= ELEMENTARY_CHARGE ^ 2 / (4 * HBAR) * exp (-709))%coqR.
Proof.
rewrite /graphene_spec; case: ifP => // /and4P[/rltbP hf /rltbP hm /rltbP ht /rltbP hth] [<-] hl.
rewrite /find_nk_index /resolve /warns /range_of [s_range _]/=.
have -> : rltb wl 0%coqR = false by apply/rltbP; lra.
rewrite /index_of /evaluate [s_formula _]/= [s_coefs _]/=; cbv iota.
rewrite (_ : (_ == bb_ev_name) = false) // (_ : (_ == bb_cm_name) = false) // eqxx.
rewrite /model_graphene_falkovsky; case: rlebP => hl2; first lra.
have hpos : (0 < f * mob * temp * th)%coqR by repeat apply: Rmult_lt_0_compat.
case: Req_EM_T => e0; first lra.
rewrite [is_left _]/=; cbv zeta.
have hq : (0 < ELEMENTARY_CHARGE)%coqR by rewrite /ELEMENTARY_CHARGE; lra.
have hh : (0 < HBAR)%coqR by rewrite /HBAR; lra.
have hb : (0 < BOLTZMANN)%coqR by rewrite /BOLTZMANN; lra.
have hv : (0 < VACUUM_PERMITTIVITY)%coqR by rewrite /VACUUM_PERMITTIVITY; lra.
have hc : (0 < LIGHT_SPEED)%coqR by rewrite /LIGHT_SPEED; lra.
have hfv : (0 < FERMI_VELOCITY)%coqR by rewrite /FERMI_VELOCITY; lra.
have hp := PI_RGT_0.
set omega := (2 * PI * LIGHT_SPEED / wl)%coqR.
have o0 : (0 < omega)%coqR by apply: (Rdiv_lt_0_compat _ _ (Rmult_lt_0_compat _ _ (Rmult_lt_0_compat _ _ Rlt_0_2 hp) hc) hl).
set g := (HBAR * FERMI_VELOCITY ^ 2 / _)%coqR.
have eg : (Rabs (HBAR * (FERMI_VELOCITY * FERMI_VELOCITY) / (mob * (1 / 10000) * ELEMENTARY_CHARGE * f)) = g)%coqR.
  have -> : (HBAR * (FERMI_VELOCITY * FERMI_VELOCITY) / (mob * (1 / 10000) * ELEMENTARY_CHARGE * f) = g)%coqR.
    by rewrite /g; field; repeat split; lra.
  apply: Rabs_pos_eq; apply: Rlt_le; apply: Rdiv_lt_0_compat.
    exact (Rmult_lt_0_compat _ _ hh (pow_lt _ 2 hfv)).
  have m0 : (0 < mob / 10000)%coqR by lra.
  exact (Rmult_lt_0_compat _ _ (Rmult_lt_0_compat _ _ m0 hq) hf).
rewrite eg; set e := (HBAR * omega / _)%coqR; set t := (temp * _ / _)%coqR.
have t0 : (0 < t)%coqR by apply: Rdiv_lt_0_compat => //; exact: Rmult_lt_0_compat.
have ee0 : (0 < e)%coqR by apply: Rdiv_lt_0_compat => //; exact: Rmult_lt_0_compat.
have -> : (ELEMENTARY_CHARGE * e / HBAR = omega)%coqR by rewrite /e; field; lra.
set sig := conductivity _ _ _ _ _; set c := (omega * th * _)%coqR.
have c0 : (0 < c)%coqR by exact (Rmult_lt_0_compat _ _ (Rmult_lt_0_compat _ _ o0 hth) hv).
move=> [_ <-].
have -> : (- Im (conj (csqrt (1 + ci * sig / RtoC c)) * conj (csqrt (1 + ci * sig / RtoC c)))%R * c = Re sig)%coqR.
  have -> : forall y : C, Im (conj y * conj y) = (- Im (y * y)%R)%coqR by move=> [u v]; rewrite /Im /=; ring.
  rewrite csqrt_sqr -RtoC_inv; last lra.
  by case: (sig) => x y; rewrite /Im /Re /=; field; lra.
exact: conductivity_kubo.
Qed.
End Graphene.
