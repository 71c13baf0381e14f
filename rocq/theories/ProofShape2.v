(** The boxes of an ellipse. *)
From Coq Require Import Reals Lra.
From mathcomp Require Import all_ssreflect ssralg matrix.
From Coquelicot Require Import Complex Rcomplements.
From Verif Require Import Cplx ModelTM ModelFourier ModelVec ModelShape SpecShape ProofShape.

Set Implicit Arguments.
Unset Strict Implicit.
Unset Printing Implicit Defensive.
Local Open Scope R_scope.

(** ** argmax *)
Lemma argmax_goP best at_ i0 (ys : seq R) (f : nat -> R) : (at_ < i0)%N -> f at_ = best ->
  (forall j, (j < i0)%N -> f j <= best) -> (forall j, (j < at_)%N -> f j < best) ->
  (forall j, (j < size ys)%N -> f (i0 + j)%N = nth 0 ys j) ->
  let m := argmax_go best at_ i0 ys in
  [/\ (m < i0 + size ys)%N, forall j, (j < i0 + size ys)%N -> f j <= f m & forall j, (j < m)%N -> f j < f m].
Proof.
elim: ys best at_ i0 => [|y ys ih] best at_ i0 ha fb hle hlt hy /=.
  by rewrite addn0 fb.
have fi : f i0 = y by have := hy 0%N (ltn0Sn _); rewrite addn0.
have hy' j : (j < size ys)%N -> f (i0.+1 + j)%N = nth 0 ys j by move=> hj; rewrite addSnnS; exact: (hy j.+1).
rewrite addnS -addSn /rltb; case: Rlt_dec => h; apply: ih => //.
- by move=> j; rewrite ltnS leq_eqVlt => /orP[/eqP->|/hle]; lra.
- by move=> j /hle; lra.
- by apply: ltnW.
by move=> j; rewrite ltnS leq_eqVlt => /orP[/eqP->|/hle]; lra.
Qed.

Lemma argmaxP ys : (0 < size ys)%N -> let m := argmax ys in
  [/\ (m < size ys)%N, forall j, (j < size ys)%N -> nth 0 ys j <= nth 0 ys m & forall j, (j < m)%N -> nth 0 ys j < nth 0 ys m].
Proof.
case: ys => [|y ys] // _ /=; have := @argmax_goP y 0 1 ys (nth 0 (y :: ys)).
rewrite add1n /=; apply=> // j; first by case: j => //= _; lra.
Qed.

(** ** interleave *)
Lemma interleaveP (u v : nat -> R * R) k : let l := interleave (mkseq u k.+1) (mkseq v k) in
  size l = (k + k).+1 /\ forall i, (i <= k)%N -> nth (0, 0) l (i + i) = u i /\ ((i < k)%N -> nth (0, 0) l (i + i).+1 = v i).
Proof.
elim: k u v => [|k ih] u v; first by split=> // -[].
cbv zeta; rewrite (mkseqS0 u) (mkseqS0 v); cbn [interleave size].
have [h1 h2] := ih (fun i => u i.+1) (fun i => v i.+1).
split; first by rewrite h1 addSn addnS.
case=> [|i] hi; first by [].
rewrite addnS addSn; cbn [nth]; have [e1 e2] := h2 i hi; split=> //.
Qed.

(** ** Boxes of a descending zigzag *)
Definition bbox (k : C) (a b : R * R) : rect := Rect (Rmin a.2 b.2) (Rmin a.1 b.1) (Rmax a.2 b.2) (Rmax a.1 b.1) k.

Lemma chain_bbox k (f : nat -> R * R) n : (forall i, (i < n)%N -> (f i.+1).2 <= (f i).2) ->
  stacked_from (f 0%N).2 (f n).2 (mkseq (fun i => bbox k (f i) (f i.+1)) n).
Proof.
elim: n f => [|n ih] f h //; rewrite mkseqS0 /=.
rewrite Rmax_left; last exact: h.
rewrite Rmin_right; last exact: h.
split=> //; exact: (ih (fun i => f i.+1) (fun i hi => h i.+1 hi)).
Qed.

Lemma cos_diff x y : cos (x - y) - cos (x + y) = 2 * sin x * sin y.
Proof. by rewrite cos_minus cos_plus; ring. Qed.

(** ** The contour *)
Section Ellipse.
Variables (cx cy lx ly a : R).
Hypotheses (lx0 : 0 < lx) (ly0 : 0 < ly).
Let P (t : R) : R * R := (ellipse_x cx cy lx ly a t, ellipse_y cx cy lx ly a t).

Lemma place_P t : place cx cy a (lx / 2 * cos t) (ly / 2 * sin t) = P t.
Proof. rewrite /place /P /ellipse_x /ellipse_y; congr pair; ring. Qed.

Lemma P_period t z : P (t + 2 * PI * IZR z) = P t.
Proof. by rewrite /P /ellipse_x /ellipse_y; have [-> ->] := cs_period t z. Qed.

(** The height is a cosine around the parameter of the highest point. *)
Lemma height_polar : exists top, 0 < half_height lx ly a /\
  forall t, ellipse_y cx cy lx ly a t = cy + half_height lx ly a * cos (t - top).
Proof.
set U := lx / 2 * sin a; set V := ly / 2 * cos a.
have sc : sin a * sin a + cos a * cos a = 1 := sin2_cos2 a.
have pos : 0 < U ^ 2 + V ^ 2.
  have : 0 <= U ^ 2 := pow2_ge_0 U; have : 0 <= V ^ 2 := pow2_ge_0 V => hv hu.
  case: (Req_dec (sin a) 0) => hs.
    have hc : cos a <> 0 by move=> hc; rewrite hs hc in sc; lra.
    have : 0 < V ^ 2; last lra.
    apply: pow2_gt_0; rewrite /V; apply: Rmult_integral_contrapositive_currified => //; lra.
  have : 0 < U ^ 2; last lra.
  apply: pow2_gt_0; rewrite /U; apply: Rmult_integral_contrapositive_currified => //; lra.
have A0 : 0 < half_height lx ly a by rewrite /half_height -/U -/V; exact: sqrt_lt_R0.
have A2 : half_height lx ly a * half_height lx ly a = U ^ 2 + V ^ 2 by rewrite /half_height -/U -/V; apply: sqrt_sqrt; lra.
move: (half_height lx ly a) A0 A2 => A A0 A2.
have V2 := pow2_ge_0 V; have U2 := pow2_ge_0 U.
have r1 : -1 <= U / A <= 1.
  have : Rabs (U / A) <= 1; last by move/abs_le.
  rewrite Rabs_div; last lra.
  rewrite (Rabs_pos_eq A); last lra.
  apply/(Rle_div_l _ _ _ A0); rewrite Rmult_1_l -(Rabs_pos_eq A); last lra.
  apply: Rsqr_le_abs_0; rewrite /Rsqr; nra.
have sq : sqrt (1 - (U / A)²) = Rabs (V / A).
  rewrite -sqrt_Rsqr_abs; congr sqrt; rewrite /Rsqr.
  transitivity ((A * A - U * U) / (A * A)); first by field; lra.
  have -> : A * A - U * U = V * V by rewrite A2; ring.
  by field; lra.
case: (Rle_lt_dec 0 V) => hV.
- exists (acos (U / A)); split=> // t; rewrite cos_minus cos_acos // sin_acos // sq Rabs_pos_eq; last first.
    by apply: Rdiv_le_0_compat.
  by rewrite /ellipse_y /U /V; field; lra.
exists (- acos (U / A)); split=> // t; rewrite cos_minus cos_neg sin_neg cos_acos // sin_acos // sq.
have -> : Rabs (V / A) = - (V / A).
  rewrite Rabs_left //; have : 0 < - V / A by apply: Rdiv_lt_0_compat; lra.
  by rewrite /Rdiv; lra.
by rewrite /ellipse_y /U /V; field; lra.
Qed.

(** ** The samples *)
Section Samples.
Variables (n : nat) (k : C).
Hypothesis n4 : (4 <= n)%N.
Let M := n.-1.
Let D := 2 * PI / INR M.

Let M3 : (3 <= M)%N. Proof. by rewrite /M; case: (n) n4. Qed.
Let M0 : (0 < M)%N. Proof. exact: leq_trans M3. Qed.
Let RM : 3 <= INR M. Proof. by apply: (Rle_trans _ (INR 3)); [rewrite /=; lra|apply: le_INR; apply/leP]. Qed.
Let MD : INR M * D = 2 * PI. Proof. by rewrite /D; field; lra. Qed.
Let stepE : 2 * PI / (INR n - 1) = D.
Proof. by rewrite /D /M; case: (n) n4 => // m _; rewrite S_INR /=; congr (_ / _); ring. Qed.
Let D0 : 0 < D. Proof. by have := PI_RGT_0 => h; apply: Rdiv_lt_0_compat; lra. Qed.
Let D1 : D < PI. Proof. have pi := PI_RGT_0; apply/Rlt_div_l; nra. Qed.

Let C0 := contour cx cy lx ly a n.
Let szC : size C0 = M. Proof. by rewrite size_mkseq. Qed.
Let nthC j : (j < M)%N -> nth (0, 0) C0 j = P (- PI + INR j * D).
Proof. by move=> h; rewrite nth_mkseq //; cbv zeta; rewrite stepE place_P. Qed.

Lemma P_mod b (t : nat) : P (b + INR (t %% M) * D) = P (b + INR t * D).
Proof.
rewrite {2}(divn_eq t M) plus_INR mult_INR.
have -> : b + (INR (t %/ M) * INR M + INR (t %% M)) * D = b + INR (t %% M) * D + INR (t %/ M) * (INR M * D) by ring.
rewrite MD (INR_IZR_INZ (t %/ M)) (Rmult_comm (IZR _)).
by rewrite P_period.
Qed.

Variable i0 : nat.
Let ps := roll_to_middle C0 i0.
Let g := - PI + INR (M - M./2 + i0) * D.
Let szp : size ps = M. Proof. by rewrite size_mkseq szC. Qed.

Lemma nth_rolled i : nth (0, 0) ps (i %% M) = P (g + INR i * D).
Proof.
rewrite -P_mod nth_mkseq szC ?ltn_pmod // nthC ?ltn_pmod // P_mod /g.
by congr P; rewrite -addnA plus_INR; ring.
Qed.

Hypothesis i0M : (i0 < M)%N.
Hypothesis i0max : forall j, (j < M)%N -> (nth (0, 0) C0 j).2 <= (nth (0, 0) C0 i0).2.
Let h := argmax (map snd ps).
Let Yp (r : R) : R := (P r).2.

Lemma h_facts : [/\ (h < M)%N, (h <= M./2)%N & forall i, Yp (g + INR i * D) <= Yp (g + INR h * D)].
Proof.
have szm : size (map snd ps) = M by rewrite size_map szp.
have sz0 : (0 < size (map snd ps))%N by rewrite szm.
have [h1 h2 h3] := argmaxP sz0; rewrite szm in h1 h2.
have nm j : (j < M)%N -> nth 0 (map snd ps) j = Yp (g + INR j * D).
  by move=> hj; rewrite (nth_map (0, 0)) ?szp // /Yp -nth_rolled modn_small.
have all i : Yp (g + INR i * D) <= Yp (g + INR h * D).
  have lm := ltn_pmod i M0; have := h2 _ lm; rewrite (nm _ lm) (nm _ h1) /Yp P_mod; exact.
split=> //; rewrite leqNgt; apply/negP => hlt.
have half : (M./2 < M)%N by apply: ltn_trans hlt h1.
have := h3 _ hlt; rewrite !nm //.
have top_ : Yp (g + INR M./2 * D) = (nth (0, 0) C0 i0).2.
  rewrite nthC // /Yp /g -(P_mod _ M./2); congr snd.
  rewrite P_mod.
  have -> : - PI + INR (M - M./2 + i0) * D + INR M./2 * D = - PI + INR (M + i0) * D.
    rewrite !plus_INR minus_INR; [ring|apply/leP; exact: ltnW].
  by rewrite -P_mod modnDl P_mod.
rewrite top_ -/h.
have : Yp (g + INR h * D) = (nth (0, 0) C0 ((M - M./2 + i0 + h) %% M)).2.
  rewrite nthC ?ltn_pmod // P_mod /Yp /g; congr (snd (P _)); rewrite !plus_INR; ring.
move=> ->; have := i0max (j := (M - M./2 + i0 + h) %% M); rewrite ltn_pmod // => /(_ isT); lra.
Qed.

Let b := g + INR h * D.
Let A := half_height lx ly a.

Lemma offset : exists d, [/\ - (D / 2) <= d <= D / 2, 0 < A, forall t, Yp t <= cy + A, exists t, Yp t = cy + A &
  forall r, Yp (b + r * D) = cy + A * cos (d + r * D)].
Proof.
have pi := PI_RGT_0.
have [top [A0 hy]] := height_polar; rewrite -/A in A0 hy.
have [h1 h2 h3] := h_facts.
have [d [z [hd ed]]] : exists d z, - PI <= d <= PI /\ b - top = d + 2 * PI * IZR z.
  have [w1 w2] := wrap_range (b - top).
  have e : b - top = wrap_angle (b - top) + 2 * PI * IZR (Int_part ((b - top) / (2 * PI))) by rewrite /wrap_angle; ring.
  case: (Rle_lt_dec (wrap_angle (b - top)) PI) => hw.
    by exists (wrap_angle (b - top)), (Int_part ((b - top) / (2 * PI))); split=> //; lra.
  exists (wrap_angle (b - top) - 2 * PI), (Int_part ((b - top) / (2 * PI)) + 1)%Z; split; first lra.
  by rewrite plus_IZR {1}e; ring.
have yE r : Yp (b + r * D) = cy + A * cos (d + r * D).
  rewrite /Yp /= hy; congr (_ + _ * _).
  have -> : b + r * D - top = b - top + r * D by ring.
  rewrite ed; have -> : d + 2 * PI * IZR z + r * D = d + r * D + 2 * PI * IZR z by ring.
  by have [_ ->] := cs_period (d + r * D) z.
have y0 : Yp (g + INR h * D) = cy + A * cos d.
  by have := yE 0; rewrite !Rmult_0_l !Rplus_0_r.
have up : cos (d + D) <= cos d.
  have := h3 h.+1; rewrite y0 S_INR.
  have -> : g + (INR h + 1) * D = b + 1 * D by rewrite /b; ring.
  rewrite yE Rmult_1_l => q; apply: (Rmult_le_reg_l A) => //; lra.
have down : cos (d - D) <= cos d.
  have := h3 (h + M.-1)%N; rewrite y0.
  have -> : Yp (g + INR (h + M.-1) * D) = Yp (b + (- (1)) * D).
    rewrite /Yp -(P_period (b + - (1) * D) 1); congr (snd (P _)); rewrite /b plus_INR.
    have -> : INR M.-1 = INR M - 1 by have := S_INR M.-1; rewrite prednK // => ->; ring.
    rewrite -MD; ring.
  rewrite yE => q; apply: (Rmult_le_reg_l A) => //.
  have e : d + - (1) * D = d - D by ring.
  by rewrite e in q; lra.
exists d; split=> //; last first.
- by exists top; rewrite /Yp /= hy Rminus_eq_0 cos_0; ring.
- move=> t; rewrite /Yp /= hy; have := COS_bound (t - top); nra.
have s0 : 0 < sin (D / 2) by apply: sin_gt_0; lra.
have f1 : cos d - cos (d + D) = 2 * sin (d + D / 2) * sin (D / 2).
  by rewrite -cos_diff; congr (cos _ - cos _); field.
have f2 : cos d - cos (d - D) = - (2 * sin (d - D / 2) * sin (D / 2)).
  rewrite -cos_diff Ropp_minus_distr; congr (cos _ - cos _); field.
split.
  apply: Rnot_lt_le => hlt.
  have : sin (- (d + D / 2)) > 0 by apply: sin_gt_0; lra.
  rewrite sin_neg; nra.
apply: Rnot_lt_le => hlt.
have : sin (d - D / 2) > 0 by apply: sin_gt_0; lra.
nra.
Qed.

Let K := M./2.
Let KD : INR K * D <= PI.
Proof.
have : INR K * 2 <= INR M.
  have := odd_double_half M; rewrite -/K => e; rewrite -e plus_INR -addnn plus_INR; have := pos_INR (odd M); lra.
have := MD; nra.
Qed.

(** The descending order of the heights. *)
Lemma zig_down e i : 0 <= e <= D / 2 -> (i < K)%N ->
  cos (INR i.+1 * D - e) <= cos (e + INR i * D) /\ cos (e + INR i.+1 * D) <= cos (INR i.+1 * D - e).
Proof.
move=> he hi; have pi := PI_RGT_0.
have i0' := pos_INR i.
have iK : INR i.+1 <= INR K by apply: le_INR; apply/leP.
have iD : INR i.+1 * D <= PI by have := KD; nra.
have e1 : cos (e + INR i * D) - cos (INR i.+1 * D - e) = 2 * sin (INR i * D + D / 2) * sin (D / 2 - e).
  by rewrite -cos_diff; congr (cos _ - cos _); rewrite ?S_INR; field.
have e2 : cos (INR i.+1 * D - e) - cos (e + INR i.+1 * D) = 2 * sin (INR i.+1 * D) * sin e.
  by rewrite -cos_diff (Rplus_comm e).
rewrite S_INR in iD iK *; rewrite S_INR in e1 e2.
have s1 : 0 <= sin (INR i * D + D / 2) by apply: sin_ge_0; nra.
have s2 : 0 <= sin (D / 2 - e) by apply: sin_ge_0; lra.
have s3 : 0 <= sin ((INR i + 1) * D) by apply: sin_ge_0; nra.
have s4 : 0 <= sin e by apply: sin_ge_0; lra.
by split; nra.
Qed.

Lemma parity i : (i < K + K)%N -> exists j, (j < K)%N /\ (i = (j + j)%N \/ i = (j + j).+1).
Proof.
move=> hi; exists (i./2); split.
  rewrite -ltn_double -(addnn K); apply: leq_ltn_trans hi.
  by rewrite -{2}(odd_double_half i) leq_addl.
by have := odd_double_half i; rewrite -addnn; case: (odd i) => /= e; [right|left]; rewrite -[LHS]e.
Qed.

Lemma zigzag (u v : nat -> R) e : 0 <= e <= D / 2 ->
  (forall i, Yp (u i) = cy + A * cos (e + INR i * D)) -> (forall i, Yp (v i) = cy + A * cos (INR i.+1 * D - e)) ->
  let arr := interleave (mkseq (fun i => P (u i)) K.+1) (mkseq (fun i => P (v i)) K) in
  let bs := mkseq (fun i => bbox k (nth (0, 0) arr i) (nth (0, 0) arr i.+1)) (size arr).-1 in
  [/\ size bs = (K + K)%N, stacked_from (cy + A * cos e) (cy + A * cos (e + INR K * D)) bs &
      forall i, (i < size bs)%N -> spanned cx cy lx ly a (nth (Rect 0 0 0 0 k) bs i) /\ r_index (nth (Rect 0 0 0 0 k) bs i) = k].
Proof.
move=> he hu hv arr bs.
have [sz nt] := interleaveP (fun i => P (u i)) (fun i => P (v i)) K; rewrite -/arr in sz nt.
have A0 : 0 < A by have [top []] := height_polar.
have szb : size bs = (K + K)%N by rewrite size_mkseq sz.
have desc i : (i < K + K)%N -> exists t t', [/\ nth (0, 0) arr i = P t, nth (0, 0) arr i.+1 = P t' & Yp t' <= Yp t].
  move=> /parity[j [hj [->|->]]].
    have [e1 /(_ hj) e2] := nt j (ltnW hj); exists (u j), (v j); split=> //.
    by rewrite hu hv; have [z _] := zig_down he hj; nra.
  have [_ /(_ hj) e2] := nt j (ltnW hj); have [e1 _] := nt j.+1 hj.
  exists (v j), (u j.+1); split=> //; first by rewrite -e1 addnS.
  by rewrite hu hv; have [_ z] := zig_down he hj; nra.
split=> //.
- have first_ : cy + A * cos e = (nth (0, 0) arr 0).2.
    have [-> _] := nt 0%N (leq0n _); rewrite -/(Yp _) hu; congr (_ + _ * cos _); rewrite /=; ring.
  have last_ : cy + A * cos (e + INR K * D) = (nth (0, 0) arr (K + K)).2.
    by have [-> _] := nt K (leqnn _); rewrite -/(Yp _) hu.
  rewrite first_ last_ /bs sz; apply: chain_bbox => i hi.
  by have [t [t' [-> -> ht]]] := desc _ hi.
move=> i hi; have hi' := hi; rewrite szb in hi'; rewrite /bs nth_mkseq; last by rewrite sz.
have [t [t' [-> -> ht]]] := desc _ hi'; split=> //; exists t, t'; split=> //=; rewrite /Yp /= in ht.
  by rewrite Rmax_left.
by rewrite Rmin_right.
Qed.

(** The rest of the function, after the roll. *)
Let pt i := nth (0, 0) ps (i %% M).
Let arr : seq (R * R) :=
  if rltb (pt (h + M).-1).2 (pt h.+1).2 then interleave (pt h :: mkseq (fun i => pt (h + M - i.+1)%N) K) (mkseq (fun i => pt (h + i.+1)%N) K)
  else if rltb (pt h.+1).2 (pt (h + M).-1).2 then interleave (pt h :: mkseq (fun i => pt (h + i.+1)%N) K) (mkseq (fun i => pt (h + M - i.+1)%N) K)
  else nseq (K + K) (0, 0).
Let bs := mkseq (fun i => bbox k (nth (0, 0) arr i) (nth (0, 0) arr i.+1)) (size arr).-1.

Let pt_plus i : pt (h + i)%N = P (b + INR i * D).
Proof. by rewrite /pt nth_rolled /b plus_INR; congr P; ring. Qed.
Let KM : (K <= M)%N. Proof. by rewrite /K -{2}(odd_double_half M) -addnn addnA leq_addl. Qed.
Let pt_minus i : (i <= M)%N -> pt (h + M - i)%N = P (b + - INR i * D).
Proof.
move=> hi; rewrite /pt nth_rolled -(addnBA _ hi) plus_INR minus_INR; last exact/leP.
rewrite -(P_period (b + - INR i * D) 1) /b; congr P; rewrite -MD; ring.
Qed.

Lemma boxes_cases :
  (top_sampled cx cy lx ly a n /\ size bs = (K + K).-1 /\ forall i, (i < size bs)%N -> nth (Rect 0 0 0 0 k) bs i = Rect 0 0 0 0 k)
  \/ (~ top_sampled cx cy lx ly a n /\ size bs = (K + K)%N /\ exists hi lo,
      [/\ cy + A * cos (D / 2) <= hi <= cy + A, cy - A <= lo <= cy - A * cos (D / 2), stacked_from hi lo bs &
          forall i, (i < size bs)%N -> spanned cx cy lx ly a (nth (Rect 0 0 0 0 k) bs i) /\ r_index (nth (Rect 0 0 0 0 k) bs i) = k]).
Proof.
have pi := PI_RGT_0.
have [d [hd A0 ymax [t0 yt0] yE]] := offset.
have [h1 h2 h3] := h_facts.
have sD : 0 < sin D by apply: sin_gt_0; lra.
have ly_ : (pt h.+1).2 = cy + A * cos (d + D) by rewrite -addn1 pt_plus -/(Yp _) yE Rmult_1_l.
have ry_ : (pt (h + M).-1).2 = cy + A * cos (d - D).
  rewrite -subn1 pt_minus // -/(Yp _) yE; congr (_ + _ * cos _); rewrite /=; ring.
have dif := cos_diff d D.
have nots : d <> 0 -> ~ top_sampled cx cy lx ly a n.
  move=> dn [j [hj hall]].
  have : Yp t0 <= Yp (- PI + INR j * D) by rewrite /Yp /= -stepE; exact: hall.
  have e : Yp (- PI + INR j * D) <= Yp b.
    have lj := ltn_pmod j M0; have := i0max lj; rewrite nthC // P_mod -/(Yp _) => q; apply: Rle_trans q _.
    rewrite nthC // -/(Yp _).
    have := h3 M./2; rewrite -/b; apply: Rle_trans; right.
    rewrite /Yp; congr snd; rewrite -P_mod -(modnDl i0 M) P_mod; congr P; rewrite /g !plus_INR minus_INR; [ring|apply/leP; exact: KM].
  have yb : Yp b = cy + A * cos d by have := yE 0; rewrite !Rmult_0_l !Rplus_0_r.
  rewrite yt0; rewrite yb in e => q.
  have c1 : 1 <= cos d by apply: (Rmult_le_reg_l A) => //; lra.
  have : cos d < 1; last lra.
  rewrite -cos_0; case: (Rle_lt_dec 0 d) => sg.
    by apply: cos_decreasing_1; lra.
  by rewrite -cos_neg; apply: cos_decreasing_1; lra.
have lo_bound e : 0 <= e <= D / 2 -> cy - A <= cy + A * cos (e + INR K * D) <= cy - A * cos (D / 2).
  move=> he; have := COS_bound (e + INR K * D) => cb; split; first nra.
  suff : cos (e + INR K * D) <= - cos (D / 2) by nra.
  have := odd_double_half M; rewrite -/K -addnn => oM.
  have sumM : INR (odd M + (K + K)) = INR M by rewrite oM.
  rewrite !plus_INR in sumM.
  have : (INR K + INR K + INR (odd M)) * D = 2 * PI by rewrite -MD -sumM; ring.
  case: (odd M) => /= q.
    have -> : e + INR K * D = - (D / 2 - e) + PI by lra.
    rewrite neg_cos cos_neg; apply: Ropp_le_contravar; apply: cos_decr_1; lra.
  have -> : e + INR K * D = e + PI by lra.
  rewrite neg_cos; apply: Ropp_le_contravar; apply: cos_decr_1; lra.
have hi_bound e : 0 <= e <= D / 2 -> cy + A * cos (D / 2) <= cy + A * cos e <= cy + A.
  move=> he; have := COS_bound e => cb; split; last nra.
  have : cos (D / 2) <= cos e by apply: cos_decr_1; lra.
  nra.
rewrite /bs /arr ly_ ry_ /rltb; case: Rlt_dec => c1; last case: Rlt_dec => c2.
- right; have sd : sin d < 0 by apply: Rnot_le_lt => sd; have : 0 <= sin d * sin D by [apply: Rmult_le_pos; lra]; nra.
  have dneg : d < 0 by apply: Rnot_le_lt => dp; have := sin_ge_0 d; lra.
  split; first by apply: nots; lra.
  have he : 0 <= - d <= D / 2 by lra.
  have hu i : Yp (b + - INR i * D) = cy + A * cos (- d + INR i * D).
    by rewrite yE -cos_neg; congr (_ + _ * cos _); ring.
  have hv i : Yp (b + INR i.+1 * D) = cy + A * cos (INR i.+1 * D - - d).
    by rewrite yE; congr (_ + _ * cos _); ring.
  have := zigzag he hu hv; cbv zeta.
  have -> : pt h :: mkseq (fun i => pt (h + M - i.+1)%N) K = mkseq (fun i => P (b + - INR i * D)) K.+1.
    rewrite mkseqS0; congr cons; first by have := pt_plus 0; rewrite addn0 => ->; congr P; rewrite /=; ring.
    by apply: eq_mkseq_in => i hi; apply: pt_minus; exact: leq_trans KM.
  have -> : mkseq (fun i => pt (h + i.+1)%N) K = mkseq (fun i => P (b + INR i.+1 * D)) K.
    by apply: eq_mkseq_in => i hi; apply: pt_plus.
  case=> z1 z2 z3; split=> //.
  by exists (cy + A * cos (- d)), (cy + A * cos (- d + INR K * D)); split=> //; [exact: hi_bound|exact: lo_bound].
- right; have sd : 0 < sin d by apply: Rnot_le_lt => sd; have : sin d * sin D <= 0 by [nra]; nra.
  have dpos : 0 < d by apply: Rnot_le_lt => dp; have := sin_ge_0 (- d); rewrite sin_neg; lra.
  split; first by apply: nots; lra.
  have he : 0 <= d <= D / 2 by lra.
  have hu i : Yp (b + INR i * D) = cy + A * cos (d + INR i * D) by exact: yE.
  have hv i : Yp (b + - INR i.+1 * D) = cy + A * cos (INR i.+1 * D - d).
    by rewrite yE -cos_neg; congr (_ + _ * cos _); ring.
  have := zigzag he hu hv; cbv zeta.
  have -> : pt h :: mkseq (fun i => pt (h + i.+1)%N) K = mkseq (fun i => P (b + INR i * D)) K.+1.
    rewrite mkseqS0; congr cons; first by have := pt_plus 0; rewrite addn0.
    by apply: eq_mkseq_in => i hi; apply: pt_plus.
  have -> : mkseq (fun i => pt (h + M - i.+1)%N) K = mkseq (fun i => P (b + - INR i.+1 * D)) K.
    by apply: eq_mkseq_in => i hi; apply: pt_minus; exact: leq_trans KM.
  case=> z1 z2 z3; split=> //.
  by exists (cy + A * cos d), (cy + A * cos (d + INR K * D)); split=> //; [exact: hi_bound|exact: lo_bound].
left.
have d0 : d = 0.
  have : sin d * sin D = 0 by nra.
  case/Rmult_integral => sd; last lra.
  case: (Rtotal_order d 0) => [q|[//|q]].
    by have := @sin_gt_0 (- d); rewrite sin_neg; lra.
  by have := @sin_gt_0 d; lra.
split.
  exists ((M - M./2 + i0 + h) %% M); split.
    by apply: ltn_trans (ltn_pmod _ M0) _; rewrite /M; case: (n) n4.
  move=> t; have := ymax t; rewrite stepE.
  have : ellipse_y cx cy lx ly a (- PI + INR ((M - M./2 + i0 + h) %% M) * D) = Yp b.
    transitivity (snd (P (- PI + INR ((M - M./2 + i0 + h) %% M) * D))); first reflexivity.
    rewrite (P_mod (- PI) (M - M./2 + i0 + h)) /Yp.
    have -> : b = - PI + INR (M - M./2 + i0 + h) * D by rewrite /b /g !plus_INR; ring.
    reflexivity.
  move=> ->; have := yE 0; rewrite d0 !Rmult_0_l !Rplus_0_r cos_0 => ->; rewrite /Yp /=; lra.
have nz i : nth (0, 0) (nseq (K + K) (0, 0)) i = (0, 0) :> R * R by rewrite nth_nseq; case: ifP.
split; first by rewrite size_mkseq size_nseq.
have m0 : Rmin 0 0 = 0 by apply: Rmin_left; lra.
have m1 : Rmax 0 0 = 0 by apply: Rmax_left; lra.
move=> i; rewrite size_mkseq => hi; rewrite nth_mkseq; last exact hi.
by rewrite !nz /bbox m0 m1.
Qed.
End Samples.

End Ellipse.

Lemma size_contour cx cy lx ly a n : size (contour cx cy lx ly a n) = n.-1.
Proof. by rewrite size_mkseq. Qed.

Lemma ellipse_y_wrap cx cy lx ly a t : ellipse_y cx cy lx ly (wrap_angle a) t = ellipse_y cx cy lx ly a t.
Proof. by rewrite /ellipse_y; have [-> ->] := wrap_cs a. Qed.
Lemma ellipse_x_wrap cx cy lx ly a t : ellipse_x cx cy lx ly (wrap_angle a) t = ellipse_x cx cy lx ly a t.
Proof. by rewrite /ellipse_x; have [-> ->] := wrap_cs a. Qed.
Lemma half_height_wrap lx ly a : half_height lx ly (wrap_angle a) = half_height lx ly a.
Proof. by rewrite /half_height; have [-> ->] := wrap_cs a. Qed.
Lemma top_sampled_wrap cx cy lx ly a n : top_sampled cx cy lx ly (wrap_angle a) n <-> top_sampled cx cy lx ly a n.
Proof. by split=> -[j [hj q]]; exists j; split=> // t; have := q t; rewrite !ellipse_y_wrap. Qed.
Lemma spanned_wrap cx cy lx ly a s : spanned cx cy lx ly (wrap_angle a) s -> spanned cx cy lx ly a s.
Proof. by case=> t [t' [e1 e2 e3 e4]]; exists t, t'; move: e1 e2 e3 e4; rewrite !ellipse_y_wrap !ellipse_x_wrap. Qed.


Theorem ellipse_boxes cx cy lx ly k angle n : 0 < lx -> 0 < ly -> (4 <= n)%N ->
  let K := (n.-1)./2 in let A := half_height lx ly angle in let d := PI / (INR n - 1) in
  exists ss, ellipse cx cy lx ly k angle n n = Some ss /\
  ((top_sampled cx cy lx ly angle n /\ size ss = (K + K).-1 /\
      forall i, (i < size ss)%N -> nth (Rect 0 0 0 0 k) ss i = Rect 0 0 0 0 k)
   \/ (~ top_sampled cx cy lx ly angle n /\ size ss = (K + K)%N /\ exists hi lo,
      [/\ cy + A * cos d <= hi <= cy + A, cy - A <= lo <= cy - A * cos d, stacked_from hi lo ss &
          forall i, (i < size ss)%N -> spanned cx cy lx ly angle (nth (Rect 0 0 0 0 k) ss i) /\ r_index (nth (Rect 0 0 0 0 k) ss i) = k])).
Proof.
move=> lx0 ly0 n4 K A d.
have szC := size_contour cx cy lx ly (wrap_angle angle) n.
have M0 : (0 < n.-1)%N by case: (n) n4 => [|[|]].
set c0 := contour cx cy lx ly (wrap_angle angle) n in szC *.
set i0 := argmax (map snd c0).
have sz0 : (0 < size (map snd c0))%N by rewrite size_map szC.
have [i1 i2 _] := argmaxP sz0; rewrite size_map szC in i1 i2.
have imax j : (j < n.-1)%N -> (nth (0, 0) c0 j).2 <= (nth (0, 0) c0 i0).2.
  by move=> hj; have := i2 _ hj; rewrite !(nth_map (0, 0)) ?szC.
have szp : size (roll_to_middle c0 i0) = n.-1 by rewrite size_mkseq szC.
have [h1 h2 _] := h_facts n4 i1 imax.
have := boxes_cases lx0 ly0 k n4 i1 imax.
set ss := mkseq _ _ => hc; exists ss; split.
  rewrite /ellipse eqxx -/c0; cbv zeta; cbn [negb].
  case e: {1}c0 => [|c1 cs]; first by rewrite e in szC; rewrite -szC in M0.
  rewrite -/i0 szp.
  have -> : (n.-1 <= (argmax [seq i.2 | i <- roll_to_middle c0 i0]).+1)%N = false.
    apply/negbTE; rewrite -ltnNge; apply: leq_ltn_trans (_ : _ <= (n.-1)./2.+1)%N _; first by rewrite ltnS.
    by case: (n) n4 => [|[|[|[|m]]]] //= _; rewrite !ltnS uphalf_half -{3}(odd_double_half m) leq_add2l -addnn leq_addr.
  congr Some; rewrite /ss; set arr := (if rltb _ _ then _ else _); apply: eq_mkseq => i; rewrite /bbox.
  by case: (nth _ _ i) => ? ?; case: (nth _ _ i.+1) => ? ?.
have dE : 2 * PI / INR n.-1 / 2 = d.
  rewrite /d; case: (n) n4 => // m hm; rewrite S_INR /=.
  have : 0 < INR m by apply: lt_0_INR; apply/ltP; case: (m) hm.
  by move=> m0; field; lra.
rewrite dE half_height_wrap -/A -/K in hc.
case: hc => [[t [s z]]|[t [s [hi [lo [b1 b2 st sp]]]]]]; [left|right].
  by split; first by apply/top_sampled_wrap.
split; first by move/top_sampled_wrap.
split; first exact: s.
exists hi, lo; split=> // i /sp[w1 w2]; split=> //; exact: spanned_wrap.
Qed.

(** ** Too few or unequal splits *)
Lemma ellipse_few cx cy lx ly k angle n : (n <= 2)%N -> ellipse cx cy lx ly k angle n n = None.
Proof.
move=> hn; rewrite /ellipse eqxx; cbv zeta; cbn [negb].
have := size_contour cx cy lx ly (wrap_angle angle) n.
case: contour => [|c0 [|c1 cs]] //.
by move=> e; case: n hn e => [|[|[|n]]].
Qed.

Lemma ellipse_unequal cx cy lx ly k angle w h : w.-1 <> h.-1 -> ellipse cx cy lx ly k angle w h = None.
Proof. by move/eqP => e; rewrite /ellipse e. Qed.

(** ** A symmetric ellipse vanishes *)
Lemma upright_top cx cy lx ly m : 0 < ly -> (0 < m)%N -> top_sampled cx cy lx ly 0 (4 * m).+1.
Proof.
move=> ly0 m0; exists (3 * m)%N; split; first by rewrite ltnS leq_mul2r orbT.
move=> t; rewrite S_INR !mult_INR /ellipse_y sin_0 cos_0.
have M0 : 0 < INR m by apply: lt_0_INR; apply/ltP.
have -> : - PI + INR 3 * INR m * (2 * PI / (INR 4 * INR m + 1 - 1)) = PI / 2 by rewrite /=; field; lra.
rewrite sin_PI2; have := SIN_bound t; nra.
Qed.

Theorem ellipse_vanishes cx cy lx ly k m : 0 < lx -> 0 < ly -> (0 < m)%N ->
  exists ss, [/\ ellipse cx cy lx ly k 0 (4 * m).+1 (4 * m).+1 = Some ss, (0 < size ss)%N &
                 forall i, (i < size ss)%N -> nth (Rect 0 0 0 0 k) ss i = Rect 0 0 0 0 k].
Proof.
move=> lx0 ly0 m0.
have n4 : (4 <= (4 * m).+1)%N by case: m m0 => // m _; rewrite mulnS.
have [ss [e [[_ [s z]]|[t _]]]] := ellipse_boxes cx cy k 0 lx0 ly0 n4.
  exists ss; split=> //; rewrite s /= (_ : (4 * m)./2 = (2 * m)%N); last by rewrite -[4%N]/(2 * 2)%N -mulnA mul2n doubleK.
  by case: m m0 {n4 e s z} => // m _; rewrite mulnS.
by case: t; apply: upright_top.
Qed.

Lemma three_points cx cy lx ly : 0 < ly -> ~ top_sampled cx cy lx ly 0 4.
Proof.
move=> ly0 [j [hj /(_ (PI / 2))]]; rewrite /ellipse_y sin_0 cos_0 sin_PI2 => q.
have {q} : 1 <= sin (- PI + INR j * (2 * PI / (INR 4 - 1))) by nra.
have pi := PI_RGT_0.
have s3 : sqrt 3 < 2 by rewrite -(sqrt_square 2); [apply: sqrt_lt_1|]; lra.
have s0 : 0 < sqrt 3 by apply: sqrt_lt_R0; lra.
have e j' : - PI + INR j' * (2 * PI / (INR 4 - 1)) = - PI + INR j' * (2 * PI / 3) by congr (_ + _ * (_ / _)); rewrite /=; ring.
rewrite e; case: j hj => [|[|[|[|//]]]] _.
- have -> : - PI + INR 0 * (2 * PI / 3) = - PI by rewrite /=; field.
  by rewrite sin_neg sin_PI; lra.
- have -> : - PI + INR 1 * (2 * PI / 3) = - (PI / 3) by rewrite /=; field.
  by rewrite sin_neg sin_PI3; lra.
- have -> : - PI + INR 2 * (2 * PI / 3) = PI / 3 by rewrite /=; field.
  by rewrite sin_PI3; lra.
have -> : - PI + INR 3 * (2 * PI / 3) = PI by rewrite /=; field.
by rewrite sin_PI; lra.
Qed.
