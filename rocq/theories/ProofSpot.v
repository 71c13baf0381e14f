(** One absorbing pixel makes the convolution matrices of a layer without gain absorb every field. *)
From Coq Require Import Reals Lra Psatz Classical ClassicalEpsilon FunctionalExtensionality.
From mathcomp Require Import all_ssreflect ssralg poly matrix.
From Coquelicot Require Import Complex Rcomplements Hierarchy Continuity Derive RInt RInt_analysis.
From Verif Require Import Cplx Mx Spec SpecFourier SpecField ModelTM ModelFourier ProofFourier ProofConv ProofField ProofRules ProofWell ProofInvert ProofPassive
  ProofPassive3.

Set Implicit Arguments.
Unset Strict Implicit.
Unset Printing Implicit Defensive.
Local Open Scope ring_scope.
Import GRing.Theory.

(** ** Strict sign *)
Definition nz n (P : 'I_n -> C) : Prop := exists i, P i <> 0.
Definition strict n (u : C) (A : 'M[C]_n) : Prop := forall P, nz P -> (0 < Re (u * form A P)%R)%coqR.
Definition keeps_strict (t : transform) (n ff : nat) (sp : nat -> Prop) : Prop :=
  forall N m (k : 'I_N -> nat) (g : 'I_N -> 'I_m) (Y : nat -> 'M[C]_m) u, (forall i, (k i < ff)%N) ->
  (forall i j, k i = k j -> g i = g j -> i = j) -> (forall a, (a < n)%N -> semi u (Y a)) ->
  (forall a, sp a -> strict u (Y a)) ->
  strict u (gather t k g Y).

(** ** Trigonometric polynomials *)
Lemma ph_pow th k : ph th k = ph th 1 ^+ k.
Proof.
rewrite /ph -cexpX; congr cexp; rewrite (_ : INR 1 = 1%coqR) // Rmult_1_r RtoC_mul; by rewrite mulrA.
Qed.
Lemma Re_cexp_i a : Re (cexp (- ci * RtoC a)) = cos a.
Proof.
rewrite /cexp !(ReM, ImM, ReN, ImN, Re_RtoC, Im_RtoC) /ci /Re /Im /=.
rewrite (_ : (_ - _)%coqR = 0%coqR) ?exp_0; last by ring.
by rewrite Rmult_1_l (_ : (_ + _)%coqR = (- a)%coqR) ?cos_neg //; ring.
Qed.
Lemma ph_inj a b : (0 <= a < 2 * PI)%coqR -> (0 <= b < 2 * PI)%coqR -> ph a 1 = ph b 1 -> a = b.
Proof.
have main x y : (0 <= x)%coqR -> (x < y)%coqR -> (y < 2 * PI)%coqR -> ph x 1 <> ph y 1.
  move=> h0 hxy hy.
  rewrite /ph (_ : INR 1 = 1%coqR) // !Rmult_1_r => e.
  have e1 : cexp (- ci * RtoC y) * conj (cexp (- ci * RtoC y)) = 1.
    rewrite -cexp_conj -cexpD conjM conjN conjI conjR opprK mulNr addrC subrr; exact: cexp0.
  have e2 : cexp (- ci * RtoC (y - x)%coqR) = 1.
    rewrite -e1 -{2}e -cexp_conj -cexpD conjM conjN conjI conjR opprK; congr cexp.
    by rewrite RtoC_sub mulrBr !mulNr opprK.
  have h := congr1 Re e2; rewrite Re_cexp_i (_ : Re 1 = 1%coqR) // in h.
  have hs : (0 < sin ((y - x) / 2))%coqR by apply: sin_gt_0; lra.
  have := cos_2a_sin ((y - x) / 2); rewrite (_ : 2 * ((y - x) / 2) = y - x)%coqR; last by field.
  by rewrite h => h'; nra.
move=> [a0 a1] [b0 b1] e; case: (Rtotal_order a b) => [h|[//|h]]; first by case: (main a b a0 h b1).
by case: (main b a b0 h a1).
Qed.

Section Trig.
Variables (N m : nat) (k : 'I_N -> nat) (g : 'I_N -> 'I_m) (v : 'I_N -> C) (ff : nat) (p : R).
Hypotheses (hk : forall i, (k i < ff)%N) (inj : forall i j, k i = k j -> g i = g j -> i = j) (p0 : (0 < p)%coqR).
Definition wave (t : R) (r : 'I_m) : C := \sum_(i | g i == r) v i * ph (2 * PI * t / p) (k i).

(** Zeros in [ff] places: no amplitude. *)
Lemma wave_zero (pt : nat -> R) : (forall i, (i < ff)%N -> (0 <= pt i < p)%coqR) ->
  (forall i j, (i < j < ff)%N -> (pt i < pt j)%coqR) ->
  (forall i r, (i < ff)%N -> wave (pt i) r = 0) -> forall i, v i = 0.
Proof.
move=> hr hlt hz i0.
pose q : {poly C} := \poly_(e < ff) \sum_(i | (g i == g i0) && (k i == e)) v i.
have qE t : q.[ph (2 * PI * t / p) 1] = wave t (g i0).
  rewrite /q horner_poly /wave.
  rewrite (partition_big (fun i => Ordinal (hk i)) xpredT) //=; apply: eq_bigr => e _.
  rewrite mulr_suml; apply: eq_big => [i|i /andP [_ /eqP h]].
    by congr (_ && _); apply/eqP/eqP => [->|<-] //; exact: val_inj.
  by rewrite -ph_pow h.
have q0 : q = 0.
  apply/eqP/negPn/negP => hq.
  pose rs := map (fun i => ph (2 * PI * pt i / p) 1) (seq.iota 0 ff).
  have h1 : all (root q) rs.
    apply/allP => z /mapP [i]; rewrite mem_iota add0n => /= hi ->.
    by rewrite /root qE hz.
  have h2 : uniq rs.
    rewrite map_inj_in_uniq ?iota_uniq // => i j; rewrite !mem_iota !add0n /= => hi hj e.
    have [i0' i1] := hr i hi; have [j0 j1] := hr j hj; have pi0 := PI_RGT_0.
    have ang t : (0 <= t < p)%coqR -> (0 <= 2 * PI * t / p < 2 * PI)%coqR.
      move=> [t0 t1]; split; first by apply: Rdiv_le_0_compat => //; nra.
      apply: (Rmult_lt_reg_r p) => //; rewrite /Rdiv Rmult_assoc Rinv_l; [nra|lra].
    have e' : (2 * PI * pt i / p = 2 * PI * pt j / p)%coqR by apply: ph_inj => //; apply: ang.
    have {}e' : pt i = pt j.
      apply: (Rmult_eq_reg_l (2 * PI / p)%coqR); last by apply: Rgt_not_eq; apply: Rdiv_lt_0_compat; lra.
      by move: e'; rewrite /Rdiv => e'; nra.
    case: (ltngtP i j) => // h.
      by have := hlt i j; rewrite h hj => /(_ isT); lra.
    by have := hlt j i; rewrite h hi => /(_ isT); lra.
  have := max_poly_roots hq h1 h2; rewrite size_map size_iota ltnNge => /negP; apply; exact: size_poly.
have := congr1 (fun z : {poly C} => z`_(k i0)) q0; rewrite /q coef_poly hk coef0 (bigD1 i0) ?eqxx //= big1 ?addr0 // => i /andP [/andP [/eqP h1 /eqP h2] /eqP []].
exact: inj.
Qed.
End Trig.

Lemma ccont_Re f z : ccont f z -> continuous (fun t => Re (f t)) z. Proof. by case. Qed.
Lemma ccont_bigcond n (Q : pred 'I_n) (f : 'I_n -> R -> C) z :
  (forall j, ccont (f j) z) -> ccont (fun t => \sum_(j | Q j) f j t) z.
Proof.
move=> h; apply: (@ccont_ext (fun t => \sum_j (if Q j then f j t else 0))).
  by move=> t; rewrite [RHS]big_mkcond.
by apply: ccont_sum => j; case: (Q j) => //; exact: ccont_const.
Qed.
Lemma ccont_ph p k z : ccont (fun t => ph (2 * PI * t / p) k) z.
Proof.
apply: (@ccont_ext (fun t => cexp (- ci * RtoC (2 * PI / p * INR k * t + 0)%coqR))).
  by move=> t; rewrite /ph; congr cexp; congr (_ * RtoC _); rewrite /Rdiv; ring.
exact: cderiv_ccont (cderiv_exp _ _ _ _).
Qed.
Lemma ccont_wave N m (k : 'I_N -> nat) (g : 'I_N -> 'I_m) v p r z : ccont (fun t => wave k g v p t r) z.
Proof. by apply: ccont_bigcond => j; apply: ccont_scale; exact: ccont_ph. Qed.
Lemma ccont_form m (Y : 'M[C]_m) (P : R -> 'I_m -> C) z : (forall r, ccont (fun t => P t r) z) -> ccont (fun t => form Y (P t)) z.
Proof.
move=> h; apply: ccont_sum => i; apply: ccont_sum => j; apply: ccont_mul => //; apply: ccont_mul; last exact: ccont_const.
exact: ccont_conj.
Qed.

(** The matrix as an integral. *)
Lemma gather_int x p fto N m (k : 'I_N -> nat) (g : 'I_N -> 'I_m) (Y : nat -> 'M[C]_m) u v : covers x p -> (forall i, (k i < fto.*2.+1)%N) ->
  cintegral (fun t => u * form (Y (find (rlt t) x)) (wave k g v p t)) 0 p (u * (RtoC p * form (gather (cfs_transform x fto) k g Y) v)).
Proof.
move=> hx hk.
have lx : last 0%coqR x = p by case: hx.
have p0 : (0 < p)%coqR by case: hx.
pose th (t : R) := (2 * PI * t / p)%coqR.
pose Yt t := Y (find (rlt t) x).
apply: cint_scal.
apply: (cint_ext (f := fun t => \sum_i \sum_j (conj (v i) * v j) * (Yt t (g i) (g j) * cexp (- ci * RtoC (th t * (INR (k j) - INR (k i))))))).
  move=> t _; rewrite -[wave _ _ _ _ _]/(fun r => \sum_(i | g i == r) v i * ph (th t) (k i)).
  rewrite -collapse; apply: eq_bigr => i _; apply: eq_bigr => j _.
  by rewrite phB conjM /Yt; cring.
rewrite /form mulr_sumr; apply: cint_sum => i; rewrite mulr_sumr; apply: cint_sum => j.
rewrite mxE cfs_ocoef // lx.
have := cint_scal (conj (v i) * v j) (cfs_fourier fto (fun a => Y a (g i) (g j)) (k j + fto.*2 - k i) hx).
rewrite [X in cintegral _ _ _ X -> _](_ : _ = RtoC p * (conj (v i) * cfs x p fto (fun a => Y a (g i) (g j)) (k j + fto.*2 - k i) * v j)); last by cring.
apply: cint_ext => t _; congr (_ * (_ * cexp (_ * RtoC _))).
by rewrite mode_swap // /th; field; lra.
Qed.

(** A non-negative integrand with integral at most 0 is not positive on any interval on which it is continuous. *)
Lemma not_positive G h p I c d : is_RInt G 0 p I -> (I <= 0)%coqR -> (forall t, (0 < t < p)%coqR -> (0 <= G t)%coqR) ->
  (0 <= c)%coqR -> (c < d)%coqR -> (d <= p)%coqR -> (forall t, (c < t < d)%coqR -> G t = h t) -> (forall t, continuous h t) ->
  ~ (forall t, (c < t < d)%coqR -> (0 < h t)%coqR).
Proof.
move=> hi I0 G0 c0 cd dp e hc hp.
have x1 : ex_RInt G 0 p by exists I.
have x2 : ex_RInt G 0 d by apply: (@ex_RInt_Chasles_1 R_CompleteNormedModule _ _ _ p) => //; lra.
have x3 : ex_RInt G d p by apply: (@ex_RInt_Chasles_2 R_CompleteNormedModule _ 0%coqR) => //; lra.
have x4 : ex_RInt G 0 c by apply: (@ex_RInt_Chasles_1 R_CompleteNormedModule _ _ _ d) => //; lra.
have x5 : ex_RInt G c d by apply: (@ex_RInt_Chasles_2 R_CompleteNormedModule _ 0%coqR) => //; lra.
have e1 := RInt_Chasles G 0 d p x2 x3; have e2 := RInt_Chasles G 0 c d x4 x5.
have e3 := is_RInt_unique _ _ _ _ hi.
have g1 : (0 <= RInt G 0 c)%coqR by apply: RInt_ge_0 => // t ht; apply: G0; lra.
have g2 : (0 <= RInt G d p)%coqR by apply: RInt_ge_0 => // t ht; apply: G0; lra.
have g3 : (0 < RInt G c d)%coqR.
  rewrite (RInt_ext G h); last by move=> t; rewrite Rmin_left ?Rmax_right; try lra; exact: e.
  by apply: RInt_gt_0.
move: e1 e2; rewrite /plus /= => e1 e2; lra.
Qed.

Lemma cfs_keeps_strict x p fto a0 c d : covers x p -> (0 <= c)%coqR -> (c < d)%coqR -> (d <= p)%coqR ->
  (forall t, (c < t < d)%coqR -> find (rlt t) x = a0) -> keeps_strict (cfs_transform x fto) (size x) fto.*2.+1 (eq a0).
Proof.
move=> hx c0 cd dp ha N m k g Y u hk inj hY hS' v [i0 vi0]; have hS := hS' a0 erefl.
have p0 : (0 < p)%coqR by case: hx.
case: (Rlt_le_dec 0 (Re (u * form (gather (cfs_transform x fto) k g Y) v)%R)) => // hle; exfalso; apply: vi0.
have [F _] := @gather_int x p fto N m k g Y u v hx hk.
have hI : (Re (u * (RtoC p * form (gather (cfs_transform x fto) k g Y) v))%R <= 0)%coqR.
  rewrite mulrCA ReZ; have := Rmult_le_compat_l p _ 0 (Rlt_le _ _ p0) hle; by rewrite Rmult_0_r.
have hG t : (0 < t < p)%coqR -> (0 <= Re (u * form (Y (find (rlt t) x)) (wave k g v p t))%R)%coqR.
  by move=> ht; apply: hY; apply: covers_find hx _; lra.
pose h t := Re (u * form (Y a0) (wave k g v p t)).
have hc t : continuous h t.
  by apply: ccont_Re; apply: ccont_scale; apply: ccont_form => r; exact: ccont_wave.
have zero c' d' : (c <= c')%coqR -> (c' < d')%coqR -> (d' <= d)%coqR -> exists t, (c' < t < d')%coqR /\ forall r, wave k g v p t r = 0.
  move=> h1 h2 h3; apply: NNPP => hn.
  apply: (@not_positive _ h p _ c' d' F hI hG) => //; try lra.
    by move=> t ht; rewrite /h ha //; lra.
  move=> t ht; apply: hS; apply: NNPP => hz; apply: hn; exists t; split=> // r.
  by apply: NNPP => hr; apply: hz; exists r.
pose ff := fto.*2.+1; pose w := ((d - c) / INR ff)%coqR.
have fR : (0 < INR ff)%coqR by apply: lt_0_INR; apply/leP.
have w0 : (0 < w)%coqR by apply: Rdiv_lt_0_compat; lra.
have wf : (w * INR ff = d - c)%coqR by rewrite /w; field; lra.
have pts (i : nat) : exists t, (i < ff)%N -> (c + w * INR i < t < c + w * INR i.+1)%coqR /\ forall r, wave k g v p t r = 0.
  case: (ltnP i ff) => hi; last by exists 0%coqR.
  have hi1 : (INR i.+1 <= INR ff)%coqR by apply: le_INR; apply/leP.
  have hi2 := pos_INR i; rewrite S_INR in hi1.
  have [||| t ht] := zero (c + w * INR i)%coqR (c + w * INR i.+1)%coqR; rewrite ?S_INR; try nra.
  by exists t => _; rewrite -S_INR.
pose pt i := proj1_sig (ClassicalEpsilon.constructive_indefinite_description _ (pts i)).
have hpt i : (i < ff)%N -> (c + w * INR i < pt i < c + w * INR i.+1)%coqR /\ forall r, wave k g v p (pt i) r = 0.
  exact (proj2_sig (ClassicalEpsilon.constructive_indefinite_description _ (pts i))).
apply: (wave_zero hk inj p0 (pt := pt)) => [i hi|i j /andP [hij hj]|i r hi].
- have [h1 _] := hpt i hi; have hi1 : (INR i.+1 <= INR ff)%coqR by apply: le_INR; apply/leP.
  have := pos_INR i; nra.
- have [h1 _] := hpt i (ltn_trans hij hj); have [h2 _] := hpt j hj.
  have : (INR i.+1 <= INR j)%coqR by apply: le_INR; apply/leP.
  nra.
- by have [_] := hpt i hi.
Qed.

(** Sampled: [ff] neighbouring points are enough. *)
Lemma fft_keeps_strict n ff q : (q + ff <= n)%N -> (0 < ff)%N ->
  keeps_strict (fft_transform n) n ff (fun a => (q <= a < q + ff)%N).
Proof.
move=> hqn f0 N m k g Y u hk inj hY hS v [i0 vi0].
have hn : (ff <= n)%N by apply: leq_trans hqn; exact: leq_addl.
have n0 : (0 < n)%N by exact: leq_trans f0 hn.
have hk' i : (k i < n)%N by exact: leq_trans hn.
have nR : (0 < INR n)%coqR by apply: lt_0_INR; apply/leP.
case: (Rlt_le_dec 0 (Re (u * form (gather (fft_transform n) k g Y) v)%R)) => [//|].
pose th (a : nat) := (2 * PI * INR a / INR n)%coqR.
have -> : form (gather (fft_transform n) k g Y) v =
  RtoC (/ INR n) * \sum_(a < n) form (Y a) (wave k g v (INR n) (INR a)).
  rewrite (eq_bigr (fun a : 'I_n => \sum_i \sum_j conj (v i * ph (th a) (k i)) * Y a (g i) (g j) * (v j * ph (th a) (k j)))); last first.
    by move=> a _; rewrite -[wave _ _ _ _ _]/(fun r => \sum_(i | g i == r) v i * ph (th a) (k i)) -collapse.
  rewrite exchange_big mulr_sumr; apply: eq_bigr => i _.
  rewrite exchange_big mulr_sumr; apply: eq_bigr => j _.
  rewrite mxE fft_ocoef // /dft RtoC_inv; last lra.
  set q' := (RtoC (INR n))^-1; rewrite [LHS](_ : _ = q' * (conj (v i) * (\sum_(a < n) Y a (g i) (g j) * cexp (- ci * RtoC (2 * PI * (INR (k j) - INR (k i)) * INR a / INR n))) * v j)); last by cring.
  congr (_ * _); rewrite mulr_sumr mulr_suml; apply: eq_bigr => a _.
  have -> : (2 * PI * (INR (k j) - INR (k i)) * INR a / INR n = th a * (INR (k j) - INR (k i)))%coqR.
    by rewrite /th; field; lra.
  by rewrite phB conjM; cring.
rewrite mulrCA ReZ mulr_sumr Re_sum => hle; exfalso; apply: vi0.
have i0R := Rinv_0_lt_compat _ nR.
have hsum : (\big[Rplus/0%coqR]_(a < n) Re (u * form (Y a) (wave k g v (INR n) (INR a)))%R <= 0)%coqR.
  apply: (Rmult_le_reg_l _ _ _ i0R); rewrite Rmult_0_r; exact hle.
have hz (a : 'I_n) : Re (u * form (Y a) (wave k g v (INR n) (INR a)))%R = 0%coqR.
  apply: (sumR_eq0 (f := fun a : 'I_n => Re (u * form (Y a) (wave k g v (INR n) (INR a)))%R) _ hsum) => b; exact: hY.
have {}hz a : (q <= a < q + ff)%N -> forall r, wave k g v (INR n) (INR a) r = 0.
  move=> ha r; apply: NNPP => hr.
  have an : (a < n)%N by case/andP: ha => _ h; exact: leq_trans h hqn.
  have := hS a ha (wave k g v (INR n) (INR a)) (ex_intro _ r hr); have /= -> := hz (Ordinal an); lra.
apply: (wave_zero hk inj nR (pt := fun i => INR (q + i))) => [i hi|i j /andP [hij hj]|i r hi].
- split; first exact: pos_INR.
  by apply: lt_INR; apply/ltP; apply: leq_trans hqn; rewrite ltn_add2l.
- by apply: lt_INR; apply/ltP; rewrite ltn_add2l.
- by apply: hz; rewrite leq_addr ltn_add2l.
Qed.

Lemma nz_mul n (A : 'M[C]_n) (v : 'cV[C]_n) : A \in unitmx -> nz (fun i => (A *m v) i ord0) -> nz (fun i => v i ord0).
Proof.
move=> hu [i hi]; apply: NNPP => hn; apply: hi.
have -> : v = 0 by apply/colP => j; rewrite mxE; apply: NNPP => hj; apply: hn; exists j.
by rewrite mulmx0 mxE.
Qed.
Lemma strict_inv n u (A : 'M[C]_n) : A \in unitmx -> strict u A -> strict (conj u) (invmx A).
Proof.
move=> ua h f hf; pose v : 'cV[C]_n := \col_i f i; pose w := invmx A *m v.
have vE : v = A *m w by rewrite /w invmx_lK.
have -> : form (invmx A) f = conj (form A (fun i => w i ord0)).
  have -> : form (invmx A) f = form (invmx A) (fun i => v i ord0).
    by apply: eq_bigr => i _; apply: eq_bigr => j _; rewrite !mxE.
  have fc (B : 'M[C]_n) (z : 'cV[C]_n) : conj ((adj z *m B *m z) ord0 ord0) = (adj z *m adj B *m z) ord0 ord0.
    by rewrite -adjE !adjM adjK mulmxA.
  by rewrite !formE fc vE adjM -!mulmxA (mulKmx ua).
rewrite -conjM Re_conj; apply: h; apply: (nz_mul ua); rewrite -vE.
by case: hf => i hi; exists i; rewrite mxE.
Qed.
Lemma nrm2_gt0 (z : C) : z <> 0 -> (0 < nrm2 z)%coqR.
Proof.
move=> hz; case: (Rle_lt_or_eq_dec 0 (nrm2 z) (nrm2_ge0 z)) => // e; case: hz; exact: nrm2_eq0.
Qed.
Lemma strict_scalar u (z : C) : (0 < Re (u * z)%R)%coqR -> strict u (z%:M : 'M[C]_1).
Proof.
move=> h v [i hi]; rewrite -scalemx1 formZ form1.
have -> : u * (z * RtoC (norms v)) = RtoC (norms v) * (u * z) by rewrite mulrA mulrC.
rewrite ReZ; apply: Rmult_lt_0_compat => //.
rewrite /norms big_ord_recl big_ord0 Rplus_0_r -(ord1 i); exact: nrm2_gt0.
Qed.
Lemma half_inv_strict u (z : C) : (0 < Re (u * z)%R)%coqR -> (0 < Re (conj u * z^-1)%R)%coqR.
Proof.
move=> h; have z0 : z <> 0 by move=> e; move: h; rewrite e mulr0 (_ : Re 0 = 0%coqR) //; lra.
have n0 := nrm2_gt0 z0.
have -> : z^-1 = RtoC (/ nrm2 z) * conj z.
  rewrite RtoC_inv; last lra.
  rewrite -mul_conj invfM -mulrA mulVf ?mulr1 // conj_eq0; by apply/eqP.
rewrite mulrCA ReZ -conjM Re_conj; apply: Rmult_lt_0_compat => //; exact: Rinv_0_lt_compat.
Qed.

Section Layer.
Variables (tx ty : transform) (nx ny : nat) (cell : nat -> nat -> C) (fto_x fto_y : nat) (u : C) (spx spy : nat -> Prop).
Let ff_x := fto_x.*2.+1.
Let ff_y := fto_y.*2.+1.
Hypotheses (ix : in_range tx ff_x) (iy : in_range ty ff_y) (rx : reads tx nx)
  (sy : keeps_sign ty ny ff_y) (kx : keeps_strict tx nx ff_x spx) (ky : keeps_strict ty ny ff_y spy)
  (hx : forall a, spx a -> (a < nx)%N)
  (hp : forall b a, (b < ny)%N -> (a < nx)%N -> (0 <= Re (u * cell b a)%R)%coqR)
  (hs : forall b a, spy b -> spx a -> (0 < Re (u * cell b a)%R)%coqR).

Lemma toep_y_strict cy a : spx a -> strict (if cy then u else conj u) (toep_y ty cell cy fto_y a).
Proof.
move=> ha.
pose z b := if cy then cell b a else (cell b a)^-1.
have -> : toep_y ty cell cy fto_y a = gather ty (fun i : 'I_ff_y => val i) (fun _ => ord0) (fun b => (z b)%:M : 'M[C]_1).
  apply/matrixP => i j; rewrite !mxE; congr ocoef.
  by apply: functional_extensionality => b; rewrite mxE.
apply: ky => [i|i j h _|b hb|b hb]; first exact: ltn_ord.
- exact: val_inj.
- apply: semi_scalar; rewrite /z; have h := hp hb (hx ha).
  by case: cy {z} => //; exact: half_inv.
apply: strict_scalar; rewrite /z; have h := hs hb ha.
by case: cy {z} => //; exact: half_inv_strict.
Qed.

Lemma four2d_strict cx cy M : cx || cy -> four2d tx ty nx ny cell cx cy fto_x fto_y = Some M -> strict u M.
Proof.
move=> hcc; rewrite four2dE //; case: ifP => // _; case: ifP => // /negbT hu.
have lt i : (i < ff_y * ff_x)%N -> (i %/ ff_x < ff_y)%N := @flat_div _ _ i.
have h : strict (if cx then u else conj u) (toep_xy tx ty cell cx cy fto_x fto_y).
  have -> : toep_xy tx ty cell cx cy fto_x fto_y =
    gather tx (fun i : 'I_(ff_y * ff_x) => (i %% ff_x)%N) (fun i => Ordinal (lt i (ltn_ord i)))
       (fact_y ty cell cx cy fto_y).
    apply/matrixP => i j; rewrite !mxE; congr ocoef.
    by apply: functional_extensionality => a; rewrite -entE.
  have un a : (a < nx)%N -> cx (+) cy -> toep_y ty cell cy fto_y a \in unitmx.
    move=> ha hxo; move: hu; rewrite hxo negbK => /allP; apply; by rewrite mem_iota.
  apply: kx => [i|i j h1 h2|a ha|a ha]; first by rewrite ltn_mod.
  - have h3 := congr1 val h2; apply: val_inj; rewrite /= in h3 *.
    by rewrite (divn_eq i ff_x) (divn_eq j ff_x) h1 h3.
  - rewrite /fact_y; have := @toep_y_semi ty nx ny cell fto_y u sy hp cy a ha.
    have := un a ha; case: cx cy hcc {hu un} => -[] //= _ hun hss.
    + by have := semi_inv (hun isT) hss; rewrite conjK.
    + exact: semi_inv (hun isT) hss.
  - rewrite /fact_y; have := @toep_y_strict cy a ha.
    have := un a (hx ha); case: cx cy hcc {hu un} => -[] //= _ hun hss.
    + by have := strict_inv (hun isT) hss; rewrite conjK.
    + exact: strict_inv (hun isT) hss.
case: cx hcc hu h => hcc hu h; first by case=> <-.
by rewrite /np_inv; case: ifP => // hun [<-]; have := strict_inv hun h; rewrite conjK.
Qed.
End Layer.
