(** Reciprocity of transmission: solvers and objects. *)
From Coq Require Import Reals Lra.
From mathcomp Require Import all_ssreflect ssralg ssrint matrix.
From Coquelicot Require Import Complex.
From Verif Require Import Cplx Mx Spec SpecSolve SpecField SpecLayer SpecState SpecSym SpecRecip SpecRecipT ModelTM ModelField ModelFourier ModelVec ModelState
  ProofSetup ProofEff ProofInvert ProofEnergy1D ProofEnergy2D ProofField ProofFieldSolve ProofState2 ProofEnd ProofPassive ProofPassive2
  ProofSym2 ProofSym3 ProofSym4 ProofSym5 ProofSym6 ProofSym7 ProofRecip ProofRecip2 ProofRecip3 ProofRecipT.

Set Implicit Arguments.
Unset Strict Implicit.
Unset Printing Implicit Defensive.
Local Open Scope ring_scope.
Import GRing.Theory.

Lemma kz_along nn t (x y : C) : (0 < nn)%coqR -> (- (PI / 2) < t < PI / 2)%coqR -> x ^+ 2 + y ^+ 2 = RtoC (nn * sin t) ^+ 2 ->
  kz_of (RtoC nn) x y = RtoC (nn * cos t).
Proof.
move=> n0 ht e; case: (Rle_dec 0 t) => h; first by apply: kz2_center => //; lra.
rewrite -(cos_neg t); apply: kz2_center => //; first by lra.
by rewrite sin_neg e Ropp_mult_distr_r_reverse RtoC_opp sqrrN.
Qed.
Lemma nrm2_ratio a b (x x' : C) : a <> 0%coqR -> b <> 0%coqR -> RtoC a * x' = RtoC b * x ->
  (nrm2 x' * (a / b) = nrm2 x * (b / a))%coqR.
Proof.
move=> ha hb e; have e2 : (nrm2 (RtoC a) * nrm2 x' = nrm2 (RtoC b) * nrm2 x)%coqR by rewrite -!nrm2M e.
have r (c : R) : nrm2 (RtoC c) = (c * c)%coqR by rewrite /nrm2 Re_RtoC Im_RtoC; ring.
rewrite !r in e2; apply: (Rmult_eq_reg_l (a * b)); last by apply: Rmult_integral_contrapositive.
rewrite (_ : (a * b * (nrm2 x' * (a / b)))%coqR = (a * a * nrm2 x')%coqR); last by field.
by rewrite e2; field.
Qed.

(** ** Three polarisations against three *)
Section Three.
Variables (n : nat) (sg : 'I_n -> 'I_n) (z : 'I_n -> C) (kx kx' ky ky' dc ds dc' ds' : nat -> C) (nt th nb th' : R).
Hypothesis hsg : involutive sg.
Hypothesis hz : forall i, z i * z i = 1.
Hypothesis hkx : forall i : 'I_n, kx' (sg i) = - kx i.
Hypothesis hky : forall i : 'I_n, ky' (sg i) = - ky i.
Hypothesis hdc : forall i : 'I_n, dc' (sg i) = z i * dc i.
Hypothesis hds : forall i : 'I_n, ds' (sg i) = z i * ds i.
Hypothesis hd1 : forall i : 'I_n, dc i ^+ 2 + ds i ^+ 2 = 1.
Hypothesis hc : forall i : 'I_n, (sg i == (n %/ 2)%N :> nat) = (i == (n %/ 2)%N :> nat).
Hypotheses (n0 : (0 < nt)%coqR) (t01 : (0 <= th < PI / 2)%coqR) (b0 : (0 < nb)%coqR) (t01' : (- (PI / 2) < th' < PI / 2)%coqR).
Hypothesis hkt : forall i : 'I_n, i = (n %/ 2)%N :> nat -> kz_of (RtoC nt) (kx i) (ky i) = RtoC (nt * cos th).
Hypothesis hkb : forall i : 'I_n, i = (n %/ 2)%N :> nat -> kz_of (RtoC nb) (kx i) (ky i) = RtoC (nb * cos th').
Variables (k0 : R) (cs : seq (conv3 n)) (ts : seq R).
Hypotheses (hts : forall t, List.In t ts -> (0 <= t)%coqR) (hsz : size ts = size cs) (hr : all2p (reversed3 sg) cs cs).

Let cos0 : cos th <> 0%coqR.
Proof. by have := cos_gt_0 th; have := PI_RGT_0; lra. Qed.
Let cos0' : cos th' <> 0%coqR.
Proof. by have := cos_gt_0 th'; lra. Qed.

Lemma thru_one ps ps' (d d' : diffraction n) fs fs' :
  solution_sp k0 (media_sp kx ky cs ts) (RtoC nt) (RtoC nb) (RtoC th) ps kx ky dc ds d fs ->
  solution_sp k0 (media_sp kx' ky' (rev cs) (rev ts)) (RtoC nb) (RtoC nt) (RtoC th') ps' kx' ky' dc' ds' d' fs' ->
  reciprocal_through (RtoC nt) (RtoC th) (RtoC nb) (RtoC th') ps ps' d d'.
Proof.
move=> [h _] [h' _] i hi.
have hnt : RtoC nt != 0 by apply/eqP => -[]; lra.
have hnb : RtoC nb != 0 by apply/eqP => -[]; lra.
have k1 : kz_of (RtoC nt) (kx i) (ky i) = RtoC nt * ccos (RtoC th) by rewrite hkt // ccos_real RtoC_mul.
have k2 : kz_of (RtoC nb) (kx i) (ky i) = RtoC nb * ccos (RtoC th') by rewrite hkb // ccos_real RtoC_mul.
exact (through_sp hsg hz hkx hky hdc hds hd1 hc hts hsz hr hi k1 k2 hnt hnb h h').
Qed.

Lemma thru_three ps ps' (r r' : sp_result n) fs fs' :
  solution3_sp k0 (media_sp kx ky cs ts) (RtoC nt) (RtoC nb) (RtoC th) ps kx ky dc ds r fs ->
  solution3_sp k0 (media_sp kx' ky' (rev cs) (rev ts)) (RtoC nb) (RtoC nt) (RtoC th') ps' kx' ky' dc' ds' r' fs' ->
  (forall d : diffraction n, d = res_te_inc r \/ d = res_tm_inc r ->
    extracted d (kz_2d (RtoC nt) kx ky) (kz_2d (RtoC nb) kx ky) (RtoC th) (RtoC nt) (RtoC nb)) ->
  (forall d : diffraction n, d = res_te_inc r' \/ d = res_tm_inc r' ->
    extracted d (kz_2d (RtoC nb) kx' ky') (kz_2d (RtoC nt) kx' ky') (RtoC th') (RtoC nb) (RtoC nt)) ->
  reciprocal_through_reports (RtoC nt) (RtoC th) (RtoC nb) (RtoC th') ps ps'
    (Report (Some (res r)) (Some (res_te_inc r)) (Some (res_tm_inc r)))
    (Report (Some (res r')) (Some (res_te_inc r')) (Some (res_tm_inc r'))).
Proof.
move=> [s1 s2 s3] [s1' s2' s3'] x x'.
have ee := thru_one s2 s2'; have mm := thru_one s3 s3'; have em := thru_one s2 s3'; have me := thru_one s3 s2'.
constructor; [exact: thru_one s1 s1'|by split|move=> i hi].
have si : sg i = i by apply: val_inj; rewrite /= hi; apply/eqP; rewrite hc hi.
have rule (d : diffraction n) (a b : nat -> C) (na ta nc tc : R) : (0 < na)%coqR -> (0 < nc)%coqR -> cos ta <> 0%coqR ->
    kz_of (RtoC nc) (a i) (b i) = RtoC (nc * cos tc) ->
    extracted d (kz_2d (RtoC na) a b) (kz_2d (RtoC nc) a b) (RtoC ta) (RtoC na) (RtoC nc) ->
    de_ti_s d i = (nrm2 (T_s d i ord0) * (nc * cos tc / (na * cos ta)))%coqR /\
    de_ti_p d i = (nrm2 (- ci * T_p d i ord0 / RtoC nc)%R * (nc * cos tc / (na * cos ta)))%coqR.
  move=> ha hcc hca hk /extracted_rule /(_ i) [_ [-> -> _]]; rewrite /kz_2d -[conj _]/(kz_of _ _ _) hk ccos_real -RtoC_mul.
  have k00 : (na * cos ta)%coqR <> 0%coqR by apply: Rmult_integral_contrapositive; split; [lra|].
  have nt0 : nc <> 0%coqR by lra.
  have nn0 : (nc * nc)%coqR <> 0%coqR by apply: Rmult_integral_contrapositive.
  rewrite expr2 -RtoC_mul -(RtoC_inv k00) -(RtoC_inv nn0) -(RtoC_inv nt0) -!RtoC_mul !Re_RtoC.
  split=> //.
  rewrite !nrm2M; have -> : nrm2 (- ci) = 1%coqR by rewrite /nrm2 /Re /Im /=; ring.
  have -> : nrm2 (RtoC (/ nc)) = (/ nc * / nc)%coqR by rewrite /nrm2 Re_RtoC Im_RtoC; ring.
  by field; repeat split=> //; lra.
have hkt' : kz_of (RtoC nt) (kx' i) (ky' i) = RtoC (nt * cos th).
  by rewrite -si hkx hky /kz_of !sqrrN; exact: hkt.
have [p1 p2] := rule _ _ _ _ _ _ _ n0 b0 cos0 (hkb hi) (x _ (or_introl erefl)).
have [p3 p4] := rule _ _ _ _ _ _ _ n0 b0 cos0 (hkb hi) (x _ (or_intror erefl)).
have [q1 q2] := rule _ _ _ _ _ _ _ b0 n0 cos0' hkt' (x' _ (or_introl erefl)).
have [q3 q4] := rule _ _ _ _ _ _ _ b0 n0 cos0' hkt' (x' _ (or_intror erefl)).
rewrite p1 p2 p3 p4 q1 q2 q3 q4.
have sn : csin (RtoC (PI / 2)) = 1 by rewrite csin_real sin_PI2.
have cn : ccos (RtoC (PI / 2)) = 0 by rewrite ccos_real cos_PI2.
have s0 : csin 0 = 0 by rewrite -[0]/(RtoC 0) csin_real sin_0.
have c0 : ccos 0 = 1 by rewrite -[0 in LHS]/(RtoC 0) ccos_real cos_0.
have a0 : (nt * cos th)%coqR <> 0%coqR by apply: Rmult_integral_contrapositive; split; [lra|exact cos0].
have a0' : (nb * cos th')%coqR <> 0%coqR by apply: Rmult_integral_contrapositive; split; [lra|exact cos0'].
move: (ee i hi) (mm i hi) (em i hi) (me i hi); rewrite /through_along sn cn s0 c0 !ccos_real -!RtoC_mul.
rewrite !mul1r !mul0r !add0r !addr0 => g1 g2 g3 g4.
by split; apply: nrm2_ratio.
Qed.
End Three.

Section Solvers.
Variable pinv : forall n, 'M[C]_n -> 'M[C]_n.
Variable eig : forall n, 'M[C]_n -> 'rV[C]_n * 'M[C]_n.
Hypothesis heig : eigen_oracle eig.

Definition below_setup th' ph' ps' po (s : setup) : setup :=
  Setup (n_bot s) (n_top s) th' ph' ps' po (fto_x s) (fto_y s) (period_x s) (period_y s) (rev (thickness s)).

Lemma through_solve_1d s (nb t' : R) ps' w (convs : seq (conv3 (ff_x s))) r T1 infos r' T1' infos' (sg : 'I_(ff_x s) -> 'I_(ff_x s)) :
  let s' := below_setup (RtoC t') (phi s) ps' (pol s) s in
  physical s -> phi s = None -> n_bot s = RtoC nb -> (0 < nb)%coqR -> (- (PI / 2) < t' < PI / 2)%coqR ->
  (n_bot s * csin (RtoC t')) ^+ 2 = (n_top s * csin (theta s)) ^+ 2 ->
  involutive sg -> (forall i : 'I_(ff_x s), kx_vector s' w (sg i) = - kx_vector s w i) ->
  (forall i, (sg i == fto_x s :> nat) = (i == fto_x s :> nat)) ->
  (forall t, List.In t (thickness s) -> (0 <= t)%coqR) -> size (thickness s) = size convs -> all2p (reversed3 sg) convs convs ->
  solve_1d pinv eig false s w convs = Some (r, T1, infos) ->
  solve_1d pinv eig false s' w (rev convs) = Some (r', T1', infos') ->
  same_through (n_top s) (theta s) (n_bot s) (RtoC t') r r'.
Proof.
move=> s' hp hf enb b0 ht' snell hsg hk hc ht hsz hm e1 e2 i hi.
have [b1 _] := bvp_solve_1d heig e1; have [b2 _] := bvp_solve_1d heig e2.
have hn : (ff_x s %/ 2)%N = fto_x s by rewrite /ff_x half_ff.
have hc' j : (sg j == (ff_x s %/ 2)%N :> nat) = (j == (ff_x s %/ 2)%N :> nat) by rewrite hn.
have [[nt n0 ent_] [th [t0 t1] eth] _ _ _] := hp.
have cos0 : cos th <> 0%coqR by have := cos_gt_0 th; have := PI_RGT_0; lra.
have cos0' : cos t' <> 0%coqR by have := cos_gt_0 t'; lra.
have hkt : kz_of (RtoC nt) (kx_vector s w i) 0 = RtoC (nt * cos th).
  by rewrite hi (kz_mid w ent_ n0 eth (Logic.conj t0 t1) hf).
have hkb : kz_of (RtoC nb) (kx_vector s w i) 0 = RtoC (nb * cos t').
  apply: kz_along => //; rewrite expr0n addr0 hi /ff_x half_ff.
  have [kxE _] := kx_phys (f := 0) w ent_ eth (Logic.conj t0 t1) (congr1 (fun o => if o is Some p then p else 0) hf).
  move: snell; rewrite kxE order_mid Rmult_0_l Rplus_0_r cos_0 Rmult_1_r enb ent_ eth !csin_real -!RtoC_mul => ->.
  by [].
have hkt1 : kz_of (n_top s) (kx_vector s w i) 0 = n_top s * ccos (theta s) by rewrite ent_ eth hkt ccos_real RtoC_mul.
have hkb1 : kz_of (n_bot s) (kx_vector s w i) 0 = n_bot s * ccos (RtoC t') by rewrite enb hkb ccos_real RtoC_mul.
have key := through_1d hsg hk hc' ht hsz hm hi hkt1 hkb1 b1 b2.
have [F [G [T x1]]] : exists F G T, transfer_1d_4 pinv false (pol s) F G T (kz_1d (n_top s) (kx_vector s w)) (kz_1d (n_bot s) (kx_vector s w))
    (theta s) (n_top s) (n_bot s) = Some (r, T1).
  by move: e1; rewrite /solve_1d; case: (layers_of _ _) => [ls|] // /rcwa_1d_inv.
have [F' [G' [T' x2]]] : exists F G T, transfer_1d_4 pinv false (pol s) F G T (kz_1d (n_bot s) (kx_vector s' w)) (kz_1d (n_top s) (kx_vector s' w))
    (RtoC t') (n_bot s) (n_top s) = Some (r', T1').
  by move: e2; rewrite /solve_1d; case: (layers_of _ _) => [ls|] // /rcwa_1d_inv.
have [z1 z2] := zero_1d x1; have [z1' z2'] := zero_1d x2.
have nt0 : nt <> 0%coqR by lra.
have nb0 : nb <> 0%coqR by lra.
have wE nn c : nn <> 0%coqR -> weigh true (RtoC nn) (RtoC nn * RtoC c) = RtoC c / RtoC nn.
  move=> h; rewrite /weigh expr2 invfM; have h' : RtoC nn != 0 by apply/eqP => -[].
  by rewrite mulrA [RtoC nn * _]mulrC mulfK.
have [a1 a2] : n_top s * ccos (theta s) * T_s r' i ord0 = n_bot s * ccos (RtoC t') * T_s r i ord0 /\
    ccos (theta s) / n_top s * T_p r' i ord0 = ccos (RtoC t') / n_bot s * T_p r i ord0.
  move: key z2 z2'; rewrite /co_T /cross_T; change (pol s') with (pol s).
  case: (is_tm _) => key -> ->; rewrite ![(0 : 'cV__) _ _]mxE !mulr0; split=> //.
  by move: key; rewrite ent_ enb eth !ccos_real !wE.
have si : sg i = i by apply: val_inj; rewrite /= hi; apply/eqP; rewrite hc' hi.
have q1 := rule_1d x1; have q2 := rule_1d x2.
have [_ [c1 c2 c3]] := q1 i; have [_ [d1 d2 d3]] := q2 i.
have kE nn : kz_1d nn (kx_vector s' w) i = kz_1d nn (kx_vector s w) i by rewrite /kz_1d -{1}si hk sqrrN.
have kE1 nn : kz_1d nn (kx_vector s w) i = kz_of nn (kx_vector s w i) 0 by rewrite /kz_1d /kz_of expr0n subr0.
have g1 : de_ti_s r' i = de_ti_s r i.
  rewrite c1 d1 kE !kE1 hkt1 hkb1; move: a1; rewrite ent_ enb eth !ccos_real -!RtoC_mul => a1.
  have w1 : (nt * cos th)%coqR <> 0%coqR by apply: Rmult_integral_contrapositive.
  have w2 : (nb * cos t')%coqR <> 0%coqR by apply: Rmult_integral_contrapositive.
  by rewrite -(RtoC_inv w1) -(RtoC_inv w2) -!RtoC_mul !Re_RtoC; exact: nrm2_ratio.
have g2 : de_ti_p r' i = de_ti_p r i.
  rewrite c2 d2 kE !kE1 hkt1 hkb1; move: a2; rewrite ent_ enb eth !ccos_real !expr2 -!RtoC_mul.
  have v1 : (nt * nt)%coqR <> 0%coqR by apply: Rmult_integral_contrapositive.
  have v2 : (nb * nb)%coqR <> 0%coqR by apply: Rmult_integral_contrapositive.
  have u1 : (cos th * / nt)%coqR <> 0%coqR by apply: Rmult_integral_contrapositive; split=> //; exact: Rinv_neq_0_compat.
  have u2 : (cos t' * / nb)%coqR <> 0%coqR by apply: Rmult_integral_contrapositive; split=> //; exact: Rinv_neq_0_compat.
  rewrite -!(RtoC_inv v1) -!(RtoC_inv v2) -!(RtoC_inv nt0) -!(RtoC_inv nb0) -!RtoC_mul -(RtoC_inv u1) -(RtoC_inv u2) -!RtoC_mul !Re_RtoC => a2.
  rewrite (_ : (nt * cos th * / (nt * nt))%coqR = (cos th * / nt)%coqR); last by field.
  rewrite (_ : (nb * cos t' * / (nb * nb))%coqR = (cos t' * / nb)%coqR); last by field.
  exact: nrm2_ratio.
by split=> //; split=> //; rewrite d3 c3 g1 g2.
Qed.

Section Turned.
Variables (s : setup) (nb t' : R) (w : R) (ph' : option C) (ps' : C) (po : R) (convs : seq (conv3 (ff_y s * ff_x s))).
Let s' := below_setup (RtoC t') ph' ps' po s.
Hypothesis hp : physical s.
Hypothesis hph' : ph' = turned_phi Reverse Reverse (phi s).
Hypotheses (enb : n_bot s = RtoC nb) (b0 : (0 < nb)%coqR) (ht' : (- (PI / 2) < t' < PI / 2)%coqR).
Hypothesis snell : n_bot s * csin (RtoC t') = n_top s * csin (theta s).
Hypothesis hts : forall t, List.In t (thickness s) -> (0 <= t)%coqR.
Hypothesis hsz : size (thickness s) = size convs.
Hypothesis hr : all2p (reversed3 (@sgr (fto_x s) (fto_y s))) convs convs.
Let n := (ff_y s * ff_x s)%N.
Let kx := kx_tiled s w.
Let ky := ky_tiled s w.

Lemma t'_pos : (0 <= t' < PI / 2)%coqR.
Proof.
have [[nt n0 ent_] [th [t0 t1] eth] _ _ _] := hp.
move: snell; rewrite enb ent_ eth !csin_real -!RtoC_mul => -[e].
case: (Rle_dec 0 t') => h; first by lra.
have h1 : (0 < sin (- t'))%coqR by apply: sin_gt_0; have := PI_RGT_0; lra.
have h2 : (0 <= sin th)%coqR by apply: sin_ge_0; have := PI_RGT_0; lra.
have h3 : (0 < nb * sin (- t'))%coqR by apply: Rmult_lt_0_compat.
have h4 : (0 <= nt * sin th)%coqR by apply: Rmult_le_pos; lra.
by rewrite sin_neg in h3; lra.
Qed.
Lemma below_phys : physical s'.
Proof.
have [h1 h2 h3 h4 h5] := sp_phys ps' hp hph'; split=> //.
- by exists nb => //; rewrite /= enb.
- by exists t' => //; exact: t'_pos.
Qed.
Lemma below_sin : n_top s' * sin_theta s' = n_top s * sin_theta s.
Proof.
have [_ [th h2 h3] _ _ _] := hp; rewrite (sin_theta_phys (s := s') erefl t'_pos) (sin_theta_phys h3 h2).
by move: snell; rewrite h3 !csin_real.
Qed.
Lemma below_kx (i : 'I_n) : kx_tiled s' w (@sgr (fto_x s) (fto_y s) i) = -1 * kx i /\
  ky_tiled s' w (@sgr (fto_x s) (fto_y s) i) = -1 * ky i.
Proof.
have [<- <-] := sp_kx w ps' hp hph' i.
rewrite /kx_tiled /ky_tiled /tile_x /tile_y /kx_vector /ky_vector below_sin.
by split.
Qed.

Lemma thru_solutions (r r' : sp_result n) fs fs' :
  (forall dc ds, directions n kx ky dc ds ->
    solution3_sp (k0_of w) (media_sp kx ky convs (thickness s)) (n_top s) (n_bot s) (theta s) (psi s) kx ky dc ds r fs) ->
  (forall dc ds, directions n (kx_tiled s' w) (ky_tiled s' w) dc ds ->
    solution3_sp (k0_of w) (media_sp (kx_tiled s' w) (ky_tiled s' w) (rev convs) (rev (thickness s))) (n_bot s) (n_top s) (RtoC t') ps'
      (kx_tiled s' w) (ky_tiled s' w) dc ds r' fs') ->
  (forall d : diffraction n, d = res_te_inc r \/ d = res_tm_inc r ->
    extracted d (kz_2d (n_top s) kx ky) (kz_2d (n_bot s) kx ky) (theta s) (n_top s) (n_bot s)) ->
  (forall d : diffraction n, d = res_te_inc r' \/ d = res_tm_inc r' ->
    extracted d (kz_2d (n_bot s) (kx_tiled s' w) (ky_tiled s' w)) (kz_2d (n_top s) (kx_tiled s' w) (ky_tiled s' w)) (RtoC t') (n_bot s) (n_top s)) ->
  reciprocal_through_reports (n_top s) (theta s) (n_bot s) (RtoC t') (psi s) ps'
        (Report (Some (res r)) (Some (res_te_inc r)) (Some (res_tm_inc r)))
        (Report (Some (res r')) (Some (res_te_inc r')) (Some (res_tm_inc r'))).
Proof.
move=> k1 k2 x1 x2; have [dc [ds hd]] := directions_exist w hp.
have hsg := @sp_inv Reverse Reverse s; have hm1 : sign (-1) by right.
have hkx (i : 'I_n) : kx_tiled s' w (@sgr (fto_x s) (fto_y s) i) = -1 * kx i := proj1 (below_kx i).
have hky (i : 'I_n) : ky_tiled s' w (@sgr (fto_x s) (fto_y s) i) = -1 * ky i := proj2 (below_kx i).
have hd' := dir_ok hsg hm1 hm1 hkx hky (fun i => (tiled_real w hp i).2) hd.
pose z (i : 'I_n) := eta_of (-1) (-1) (kx i) (ky i) * -1.
have hz i : z i * z i = 1.
  have e := sign_sq (eta_sign (kx i) (ky i) hm1 hm1).
  by rewrite /z mulrACA e mul1r mulrNN mul1r.
have D1 (i : 'I_n) := dirE (-1) (-1) kx ky hsg (-1) dc i.
have D2 (i : 'I_n) := dirE (-1) (-1) kx ky hsg (-1) ds i.
have hd1 (i : 'I_n) : dc i ^+ 2 + ds i ^+ 2 = 1 by case: (hd i).
have [[nt n0 ent_] [th t01 eth] hphi _ _] := hp.
have [f hf] := phi_real hphi; have [_ _ hmid] := tiled_phys w ent_ eth t01 hf.
have hkt (i : 'I_n) : i = (n %/ 2)%N :> nat -> kz_of (RtoC nt) (kx i) (ky i) = RtoC (nt * cos th).
  by move=> hi; apply: kz2_center => //; rewrite hi; exact: hmid.
have hkb (i : 'I_n) : i = (n %/ 2)%N :> nat -> kz_of (RtoC nb) (kx i) (ky i) = RtoC (nb * cos t').
  move=> hi; apply: kz_along => //; rewrite hi; have sn := snell; move: sn; rewrite enb ent_ eth !csin_real -!RtoC_mul => ->.
  exact: hmid.
have hkx' (i : 'I_n) : kx_tiled s' w (@sgr (fto_x s) (fto_y s) i) = - kx i by rewrite hkx mulN1r.
have hky' (i : 'I_n) : ky_tiled s' w (@sgr (fto_x s) (fto_y s) i) = - ky i by rewrite hky mulN1r.
have K1 := k1 _ _ hd; have K2 := k2 _ _ hd'; rewrite ent_ eth enb in K1 K2 x1 x2 *.
exact (thru_three (sg := @sgr (fto_x s) (fto_y s)) hsg hz hkx' hky' D1 D2 hd1 (sp_centre Reverse Reverse (s := s)) n0 t01 b0 ht'
  hkt hkb hts hsz hr K1 K2 x1 x2).
Qed.

Lemma thru_solve_2d r infos r' infos' : solve_2d pinv eig false s w convs = Some (r, infos) ->
  solve_2d pinv eig false s' w (rev convs) = Some (r', infos') ->
  reciprocal_through_reports (n_top s) (theta s) (n_bot s) (RtoC t') (psi s) ps'
        (Report (Some (res r)) (Some (res_te_inc r)) (Some (res_tm_inc r)))
        (Report (Some (res r')) (Some (res_te_inc r')) (Some (res_tm_inc r'))).
Proof.
move=> e1 e2.
refine (thru_solutions (bvp_solve_2d heig hp e1) (bvp_solve_2d heig below_phys e2) _ _).
- by move: e1; rewrite /solve_2d; case: (layers_of _ _) => [ls|] // /rcwa_2d_inv [_ h1 h2] d [->|->].
by move: e2; rewrite /solve_2d; case: (layers_of _ _) => [ls|] // /rcwa_2d_inv [_ h1 h2] d [->|->].
Qed.
Lemma thru_solve_conical r infos r' infos' : (forall c, List.In c convs -> line_convs c) ->
  solve_1d_conical pinv eig false s w convs = Some (r, infos) -> solve_1d_conical pinv eig false s' w (rev convs) = Some (r', infos') ->
  reciprocal_through_reports (n_top s) (theta s) (n_bot s) (RtoC t') (psi s) ps'
        (Report (Some (res r)) (Some (res_te_inc r)) (Some (res_tm_inc r)))
        (Report (Some (res r')) (Some (res_te_inc r')) (Some (res_tm_inc r'))).
Proof.
move=> hl e1 e2.
have l1 c : List.In c (used s convs) -> line_convs c by move=> h; apply: hl; exact: In_take h.
have l2 c : List.In c (used s' (rev convs)) -> line_convs c.
  move=> h0; have h := In_take h0; apply: hl; move: h; elim: (convs) => [|a l IH] //=; rewrite rev_cons -cats1 => h.
  by case: (List.in_app_or _ _ _ h) => [/IH h1|[->|[]]]; [right|left].
refine (thru_solutions (bvp_solve_conical heig hp l1 e1) (bvp_solve_conical heig below_phys l2 e2) _ _).
- by move: e1; rewrite /solve_1d_conical; case: ifP => // _; case: (layers_of _ _) => [ls|] // /rcwa_conical_inv [_ h1 h2] d [->|->].
by move: e2; rewrite /solve_1d_conical; case: ifP => // _; case: (layers_of _ _) => [ls|] // /rcwa_conical_inv [_ h1 h2] d [->|->].
Qed.
End Turned.

(** ** Objects *)
Lemma conv_all_rev (A B : Type) (f : A -> option B) ls cs : conv_all f ls = Some cs ->
  conv_all f (rev ls) = Some (rev cs) /\ size cs = size ls.
Proof.
have rc ls' cs' l c : conv_all f ls' = Some cs' -> f l = Some c -> conv_all f (rcons ls' l) = Some (rcons cs' c).
  by elim: ls' cs' => [|a ls' IH] cs' /=; [case=> <- ->|case: (f a) => [b|] //; case e: (conv_all f ls') => [bs|] // [<-] h; rewrite (IH _ e h)].
elim: ls cs => [|l ls IH] cs /=; first by case=> <-.
case el: (f l) => [c|] //; case e: (conv_all f ls) => [cs'|] // [<-]; have [h1 h2] := IH _ e.
by rewrite !rev_cons /= h2; split=> //; exact: rc.
Qed.
Lemma vector_layers_all px py ins : vector_layers px py ins =
  conv_all (fun i : instruction => vector_layer px py i.1 (flatten (map draw_object i.2))) ins.
Proof. by elim: ins => [|[b objs] ins IH] //=; rewrite IH. Qed.

Lemma convs_below o th ph fx fy cs : convs_of pinv o fx fy = Some cs ->
  convs_of pinv (from_below th ph o) fx fy = Some (rev cs) /\ size cs = layer_count (o_cell o).
Proof.
rewrite /convs_of /=; change (period_of (from_below th ph o)) with (period_of o).
case: (o_mtype o) => [[]|] //; case: (o_cell o) => //=.
  move=> ins; case: (period_of o) => [[px py]|] //; rewrite !vector_layers_all.
  case e: (conv_all _ ins) => [vs|] // h; have [e1 e2] := conv_all_rev e; have [h1 h2] := conv_all_rev h.
  by rewrite e1 h1 h2 e2.
move=> ny nx ls; case: ifP => // _; rewrite map_rev; case: ifP => _; last case: ifP => // _.
- by move=> h; have [h1 h2] := conv_all_rev h; rewrite h1 h2 size_map.
- by move=> h; have [h1 h2] := conv_all_rev h; rewrite h1 h2 size_map.
Qed.

Lemma thru_classical_obj th' o th o1 o2 r r' : physical_obj o -> thick_enough o -> one_thickness_per_layer o ->
  o_use_pinv o = false -> promised o 0 -> leaves_along (-1) o th' -> o_theta o = Some th ->
  conv_solve pinv eig o = (o1, Solved r) -> conv_solve pinv eig (sent_back th' o) = (o2, Solved r') ->
  reports (fun n => same_through (n := n) (o_ntop o) th (o_nbot o) th') r r'.
Proof.
move=> hp ht hsz hu hpr [[nb b0 enb] [t' ht' et'] snell] eth e e'; set o' := sent_back th' o in e'.
have [fx [fy [cs [g [th1 [p [[ef ec eg pg et] [ep _ hg es]]]]]]]] := conv_solveE e.
have [fx' [fy' [cs' [g' [th1' [p' [[ef' ec' eg' pg' et1'] [ep' _ hg' es']]]]]]]] := conv_solveE e'.
have hf' : fto_of o' = fto_of o by [].
have hpe' : period_of o' = period_of o by [].
have hth' : o_theta o' = Some th' by [].
rewrite hf' in ef'; rewrite hpe' in ep'; rewrite hth' in et1'.
move: eth; rewrite et => -[eth]; rewrite {}eth in et es.
move: ef' et1' ep' cs' ec' eg' es' pg'; rewrite ef ep => -[<- <-] [<-] [<-] cs' ec' eg' es' pg'.
have [ec2 esz] := convs_below th' (o_phi o) ec.
have ecs : cs' = rev cs by move: ec'; rewrite ec2 => -[].
rewrite {}ecs {ec'} in es'.
have [hmt [nx [ls hc]] hpol hphi [f hff _]] : [/\ o_mtype o = Some false, (exists nx ls, o_cell o = CRaster 1 nx ls),
    o_pol o = 0 \/ o_pol o = 1, o_phi o = None & exists2 f, fto_of o = Some (f, 0%N) & True].
  by inversion hpr as [nx ls h1 h2 h3 h4 h5| | |]; split=> //; exists nx, ls.
have fy0 : fy = 0%N by move: ef; rewrite hff => -[].
have gg : grating_of o fy = Some 0%N.
  by rewrite /grating_of hmt hc hphi fy0 /=; case: hpol => ->; rewrite eqxx ?orbT.
have gg' : grating_of o' fy = Some 0%N by rewrite -gg /grating_of /= hmt hc.
have g0 : g = 0%N by move: eg; rewrite gg => -[].
have g0' : g' = g by move: eg'; rewrite gg' g0 => -[].
rewrite {}g0' {eg' hg' pg'} in es'.
have hrv := convs_rev hu ec.
move: es es'; rewrite /solve_with; change (o_use_pinv o') with (o_use_pinv o); rewrite hu.
change (o_algo o') with (o_algo o); change (o_wavelength o') with (o_wavelength o).
case: ifP => _; first by case=> _ <- [_ <-]; do 2 constructor.
case: (o_algo o) => //; rewrite {3}/o' /=; case ethk: (o_thickness o) => [|ts|] //; rewrite g0.
pose s := setup_of o fx fy th p ts.
have hts : forall t, List.In t (thickness s) -> (0 <= t)%coqR by exact: ht.
have hphys : physical s by exact: physical_setup.
rewrite map_rev.
case e1: (solve_1d _ _ _ _ _ _) => [[[d T1] infos]|] // [_ <-].
case e2: (solve_1d _ _ _ _ _ _) => [[[d' T1'] infos']|] // [_ <-].
constructor; constructor.
pose sg : 'I_(ff_x s) -> 'I_(ff_x s) := lift_n (order_place Reverse (ff_x s)).
have hinv : involutive sg := @cl_inv Reverse s.
have clE' (i : 'I_(ff_x s)) : sg i = order_place Reverse (ff_x s) i :> nat := @clE Reverse s i.
have sn : n_bot s * csin (RtoC t') = - (n_top s * csin th).
  by have := snell _ et; rewrite et' mulN1r.
rewrite et' in e2 *.
apply: (@through_solve_1d s nb t' (o_psi o) (o_wavelength o) (map (crop3 (ff_x s)) cs) d T1 infos d' T1' infos' sg hphys hphi enb b0 ht' _ hinv _ _ hts _ _ e1 e2).
- by rewrite sn sqrrN.
- move=> i; rewrite clE'.
  have [t [tl tr] eth'] : angle_below_90 th by case: hp => _ h2 _ _ _; exact: h2.
  rewrite -[RHS]mulN1r -(@kx_place Reverse s (turn (- th) (phi s) (psi s) s) (o_wavelength o) i) //.
    rewrite /kx_vector; congr (conj (_ + _)); congr (_ * _); rewrite /sin_theta /=.
    have := pi32_gt; have p0 := PI_RGT_0 => hpi; rewrite eth' -RtoC_opp !Re_RtoC.
    case: (Rle_dec pi32 t') => h3; first by exfalso; lra.
    case: (Rle_dec pi32 (- t)) => h4; first by exfalso; lra.
    by move: sn; rewrite RtoC_opp csinN mulrN -eth'.
  rewrite /phi_val /= /sin_theta /= mulN1r -mulNr; congr (_ * _).
  have := pi32_gt; have p0 := PI_RGT_0 => hpi; rewrite eth' -RtoC_opp !Re_RtoC.
  case: (Rle_dec pi32 t) => h3; first by exfalso; lra.
  case: (Rle_dec pi32 (- t)) => h4; first by exfalso; lra.
  by rewrite RtoC_opp csinN.
- move=> i; apply/eqP/eqP => h; last exact: (@cl_mid Reverse s).
  by rewrite -(hinv i); exact: (@cl_mid Reverse s).
- by rewrite size_map esz; exact: hsz.
apply: all2p_map hrv => c c'; apply: crop_rev; first by rewrite fy0 mul1n.
move=> i i' ei; have hi : (i < ff_x s)%N by rewrite ei.
rewrite clE' /sgr sg2E; try (by move=> j; exact: order_place_lt).
have hz : order_place Reverse fy.*2.+1 0 = 0%N by rewrite fy0.
by rewrite /tau2 (divn_small hi) (modn_small hi) hz -ei.
Qed.

Lemma thru_sp_obj th' ps po o th o1 o2 r r' : physical_obj o -> thick_enough o -> one_thickness_per_layer o ->
  o_use_pinv o = false -> ~ promised o 0 -> leaves_along 1 o th' -> o_theta o = Some th ->
  conv_solve pinv eig o = (o1, Solved r) -> conv_solve pinv eig (sent_back_sp th' ps po o) = (o2, Solved r') ->
  reciprocal_through_reports (o_ntop o) th (o_nbot o) th' (o_psi o) ps r r'.
Proof.
move=> hp ht hsz hu hnp [[nb b0 enb] [t' ht' et'] snell] eth e e'; set o' := sent_back_sp th' ps po o in e'.
have [fx [fy [cs [g [th1 [p [[ef ec eg pg et] [ep _ hg es]]]]]]]] := conv_solveE e.
have [fx' [fy' [cs' [g' [th1' [p' [[ef' ec' eg' pg' et1'] [ep' _ hg' es']]]]]]]] := conv_solveE e'.
have hf' : fto_of o' = fto_of o by [].
have hpe' : period_of o' = period_of o by [].
have hth' : o_theta o' = Some th' by [].
rewrite hf' in ef'; rewrite hpe' in ep'; rewrite hth' in et1'.
move: eth; rewrite et => -[eth]; rewrite {}eth in et es.
move: ef' et1' ep' cs' ec' eg' es' pg'; rewrite ef ep => -[<- <-] [<-] [<-] cs' ec' eg' es' pg'.
have [ec2 esz] := convs_below th' (o_phi o') ec.
have ecs : cs' = rev cs by move: ec'; rewrite (_ : convs_of pinv o' fx fy = convs_of pinv (from_below th' (o_phi o') o) fx fy) // ec2 => -[].
rewrite {}ecs {ec'} in es'.
have g0 : g <> 0%N by move=> g0; apply: hnp; rewrite -g0.
have gE : g' = g.
  have : Some g' = Some g; last by case.
  rewrite -eg' -eg /grating_of /=; have h0 : Some g <> Some 0%N by case.
  move: h0 (eg); rewrite /grating_of; case: (o_mtype o) => [[]|] //; case: (o_cell o) => // ny nx ls h0 /=.
  by rewrite andbF; case: ifP => // _; case: ifP => // _ e0; case: h0; rewrite -e0.
rewrite {}gE {eg' hg' pg'} in es'.
have hrv := convs_rev hu ec.
have hphys ts : physical (setup_of o fx fy th p ts) by exact: physical_setup.
move: es es'; rewrite /solve_with; change (o_use_pinv o') with (o_use_pinv o); rewrite hu.
change (o_algo o') with (o_algo o); change (o_wavelength o') with (o_wavelength o).
case: ifP => _; first by case=> _ <- [_ <-]; exact: Through0.
case: (o_algo o) => //; rewrite {3}/o' /=; case ethk: (o_thickness o) => [|ts|] //.
have hts : forall t, List.In t (thickness (setup_of o fx fy th p ts)) -> (0 <= t)%coqR by exact: ht.
have hsz' : size (thickness (setup_of o fx fy th p ts)) = size cs by rewrite esz; exact: hsz.
have sn : n_bot (setup_of o fx fy th p ts) * csin (RtoC t') = n_top (setup_of o fx fy th p ts) * csin (theta (setup_of o fx fy th p ts)).
  by have := snell _ et; rewrite et' mul1r.
rewrite et'.
case: g g0 eg pg hg => [|[|[|g]]] // g0 eg pg _.
- case e1: (solve_1d_conical _ _ _ _ _ _) => [[d infos]|] // [_ <-].
  case e2: (solve_1d_conical _ _ _ _ _ _) => [[d' infos']|] // [_ <-].
  have l1 c : List.In c cs -> line_convs c.
    inversion pg as [|nx ls hmt hc _| |] => h; exact: (convs_line hmt hc hu ec h).
  exact (@thru_solve_conical (setup_of o fx fy th p ts) nb t' (o_wavelength o) _ ps (Re po) cs (hphys ts) erefl enb b0 ht' sn hts hsz' hrv d infos d' infos' l1 e1 e2).
case e1: (solve_2d _ _ _ _ _ _) => [[d infos]|] // [_ <-].
case e2: (solve_2d _ _ _ _ _ _) => [[d' infos']|] // [_ <-].
exact (@thru_solve_2d (setup_of o fx fy th p ts) nb t' (o_wavelength o) _ ps (Re po) cs (hphys ts) erefl enb b0 ht' sn hts hsz' hrv d infos d' infos' e1 e2).
Qed.
End Solvers.
