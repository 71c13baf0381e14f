(** Absorbing stacks: power strictly decreases along every field of an absorbing layer, so the matrices the solver inverts are
    invertible whatever the number of orders. *)
From Coq Require Import Reals Lra Psatz.
From mathcomp Require Import all_ssreflect ssralg matrix mxalgebra.
From Coquelicot Require Import Complex Hierarchy Derive RInt Continuity Rbar.
From Verif Require Import Cplx Mx Spec ModelTM ModelField SpecSolve SpecField SpecVec SpecPassive ProofFlux ProofEnergy1D ProofEnergy2D
  ProofFilm ProofStack ProofCompose ProofWell ProofField ProofPassive.

Set Implicit Arguments.
Unset Strict Implicit.
Unset Printing Implicit Defensive.
Local Open Scope ring_scope.
Import GRing.Theory.

(** ** Quantities that die out *)
Definition dies (f : R -> R) : Prop := forall e : R, (0 < e)%coqR -> exists2 D : R, (0 < D)%coqR &
  forall d, (D <= d)%coqR -> (Rabs (f d) < e)%coqR.

Lemma dies_ext f g : (forall x, f x = g x) -> dies f -> dies g.
Proof. by move=> h df e /df [D D0 hD]; exists D => // d /hD; rewrite h. Qed.
Lemma dies0 : dies (fun=> 0%coqR).
Proof. by move=> e e0; exists 1%coqR; [lra|move=> d _; rewrite Rabs_R0]. Qed.
Lemma dies_add f g : dies f -> dies g -> dies (fun x => f x + g x)%coqR.
Proof.
move=> hf hg e e0; have e2 : (0 < e / 2)%coqR by lra.
have [D D0 hD] := hf _ e2; have [D' D0' hD'] := hg _ e2; exists (D + D')%coqR; first lra.
move=> d hd; have h1 : (D <= d)%coqR by lra.
have h2 : (D' <= d)%coqR by lra.
have := hD _ h1; have := hD' _ h2; have := Rabs_triang (f d) (g d); lra.
Qed.
Lemma dies_sum n (f : 'I_n -> R -> R) : (forall i, dies (f i)) -> dies (fun x => \big[Rplus/0%coqR]_(i < n) f i x).
Proof.
elim: n f => [|n IH] f h; first by apply: dies_ext dies0 => x; rewrite big_ord0.
apply: (@dies_ext (fun x => f ord0 x + \big[Rplus/0%coqR]_(i < n) f (lift ord0 i) x)%coqR); first by move=> x; rewrite big_ord_recl.
by apply: dies_add => //; apply: IH.
Qed.

Lemma exp_dies c (r : R) f : (0 < r)%coqR -> (forall d, (0 < d)%coqR -> (Rabs (f d) <= c * exp (- (r * d)))%coqR) -> dies f.
Proof.
move=> r0 h e e0.
have c0 : (0 <= c)%coqR.
  have := h 1%coqR Rlt_0_1; have := Rabs_pos (f 1%coqR); have := exp_pos (- (r * 1)); nra.
exists ((c + 1) / (r * e))%coqR; first by apply: Rdiv_lt_0_compat; nra.
move=> d hd.
have d0 : (0 < d)%coqR by apply: Rlt_le_trans hd; apply: Rdiv_lt_0_compat; nra.
apply: Rle_lt_trans (h d d0) _.
have re0 : (0 < r * e)%coqR by nra.
have hd' : (c + 1 <= d * (r * e))%coqR.
  by apply: (Rmult_le_reg_r (/ (r * e))); [exact: Rinv_0_lt_compat|rewrite Rmult_assoc Rinv_r; [lra|lra]].
have rd0 : (0 < r * d)%coqR by nra.
have h1 := exp_ineq1 _ (Rgt_not_eq _ _ rd0); rewrite exp_Ropp.
have E0 : (0 < exp (r * d))%coqR := exp_pos _.
apply: (Rmult_lt_reg_r (exp (r * d))) => //; rewrite Rmult_assoc Rinv_l; last lra.
nra.
Qed.

Lemma cexp_dies (c w : C) : (Re w < 0)%coqR -> dies (fun d => Im (c * cexp (w * RtoC d))).
Proof.
case: w => x y; rewrite {1}/Re /= => hx.
apply: (@exp_dies (Rabs (Re c) + Rabs (Im c))%coqR (- x)%coqR); first lra.
move=> d d0; rewrite ImM /cexp ReM ImM Re_RtoC Im_RtoC /Re /Im /=; rewrite -/(Re c) -/(Im c).
have -> : (x * d - y * 0 = x * d)%coqR by ring.
have -> : (- (- x * d) = x * d)%coqR by ring.
set t := (x * 0 + y * d)%coqR; set a := Re c; set b := Im c; set E := exp (x * d).
have E0 : (0 < E)%coqR := exp_pos _.
have -> : (a * (E * sin t) + b * (E * cos t) = (a * sin t + b * cos t) * E)%coqR by ring.
rewrite Rabs_mult (Rabs_right E); last lra.
apply: Rmult_le_compat_r; first lra.
apply: Rle_trans (Rabs_triang _ _) _; rewrite !Rabs_mult.
have [s1 s2] := SIN_bound t; have [c1 c2] := COS_bound t.
have hs : (Rabs (sin t) <= 1)%coqR by apply: Rabs_le; lra.
have hc : (Rabs (cos t) <= 1)%coqR by apply: Rabs_le; lra.
have := Rabs_pos a; have := Rabs_pos b; have := Rabs_pos (sin t); have := Rabs_pos (cos t); nra.
Qed.

Lemma grow (f g : R -> R) (d : R) : (forall z, is_derive f z (g z)) -> (forall z, 0 <= g z)%coqR -> (0 < d)%coqR ->
  (f 0%coqR <= f d)%coqR /\ (f d <= f 0%coqR -> forall x, 0 < x < d -> g x = 0%coqR)%coqR.
Proof.
move=> hf hg d0.
have mono a b : (a <= b)%coqR -> (f a <= f b)%coqR.
  move=> ab; have [||c [_ e]] := @MVT_gen f a b g.
  - by move=> x _; exact: hf.
  - by move=> x _; apply: derivable_continuous_pt; exists (g x); apply/is_derive_Reals; exact: hf.
  - by have := hg c; nra.
split; first by apply: mono; lra.
move=> h; have hc z : (0 <= z <= d)%coqR -> f z = f 0%coqR.
  by move=> [z0 zd]; have := mono _ _ z0; have := mono _ _ zd; lra.
move=> x [x0 xd].
have h2 : is_derive (fun=> f 0%coqR) x (g x).
  apply: is_derive_ext_loc (hf x).
  have e0 : (0 < Rmin x (d - x))%coqR by apply: Rmin_glb_lt; lra.
  exists (mkposreal _ e0) => y hy; apply: hc.
  have : (Rabs (y - x) < Rmin x (d - x))%coqR by exact: hy.
  by have := Rmin_l x (d - x); have := Rmin_r x (d - x); move=> h3 h4 /Rabs_def2; lra.
by rewrite -(is_derive_unique _ _ _ h2) Derive_const.
Qed.

Lemma vderiv_zero m (u : R -> 'cV[C]_m) (d x : R) L : (0 < x < d)%coqR -> (forall z, (0 < z < d)%coqR -> u z = 0) ->
  vderiv u x L -> L = 0.
Proof.
move=> [x0 xd] hz hu; apply/colP => i; rewrite [RHS]mxE; have [h1 h2] := hu i.
have e0 : (0 < Rmin x (d - x))%coqR by apply: Rmin_glb_lt; lra.
have hl : locally x (fun t => u t = 0).
  exists (mkposreal _ e0) => y hy; apply: hz.
  have : (Rabs (y - x) < Rmin x (d - x))%coqR by exact: hy.
  by have := Rmin_l x (d - x); have := Rmin_r x (d - x); move=> h3 h4 /Rabs_def2; lra.
apply: Cext.
- have h : is_derive (fun=> 0%coqR) x (Re (L i ord0)).
    by apply: is_derive_ext_loc h1; apply: filter_imp hl => t ->; rewrite mxE.
  by rewrite -(is_derive_unique _ _ _ h) Derive_const.
- have h : is_derive (fun=> 0%coqR) x (Im (L i ord0)).
    by apply: is_derive_ext_loc h2; apply: filter_imp hl => t ->; rewrite mxE.
  by rewrite -(is_derive_unique _ _ _ h) Derive_const.
Qed.

(** ** One absorbing layer *)
Section Layer.
Variables (m : nat) (S : 'M[C]_m) (k0 : R).

Lemma pw_flow f g : pw S f g = flow S (f, g).
Proof. by rewrite /pw /flow -mulmxA dotE. Qed.

Definition power_loss (P Q : 'M[C]_m) (u v : 'cV[C]_m) : R :=
  (k0 * Im (dot (P *m v) (S *m v) + dot u (S *m (Q *m u)))%R)%coqR.

(** The layer takes power out of every field. *)
Definition absorber (P Q : 'M[C]_m) : Prop :=
  [/\ P \in unitmx, Q \in unitmx, forall u v, (0 <= power_loss P Q u v)%coqR
    & (forall u v, power_loss P Q u v = 0%coqR -> u = 0) \/ (forall u v, power_loss P Q u v = 0%coqR -> v = 0)].

Variables (P Q W V : 'M[C]_m) (q : 'rV[C]_m).
Hypotheses (hk : (0 < k0)%coqR) (ha : absorber P Q) (eP : P *m V = W *m diag_mx q) (eQ : Q *m W = V *m diag_mx q).
Hypothesis uW : W \in unitmx.

Lemma mode_units : V \in unitmx /\ forall j, q ord0 j != 0.
Proof.
have [uP uQ _ _] := ha.
have u1 : V *m diag_mx q \in unitmx by rewrite -eQ unitmx_mul uQ.
have [u2 u3] := unitmx_split u1; split=> // j.
by move: u3; rewrite unitmxE det_diag unitfE => /prodf_neq0 h; exact: (h j isT).
Qed.

Let fu d (a b : 'cV[C]_m) z := W *m profile k0 d q a b z 1.
Let fv d (a b : 'cV[C]_m) z := V *m profile k0 d q a b z (-1).

Lemma fu_derive d a b z : vderiv (fu d a b) z (RtoC k0 *: (P *m fv d a b z)).
Proof.
apply: vderiv_eq (vderiv_mulmx W (profile_deriv k0 d q a b z 1)).
by rewrite -scalemxAr /fv !mulmxA eP.
Qed.
Lemma fv_derive d a b z : vderiv (fv d a b) z (RtoC k0 *: (Q *m fu d a b z)).
Proof.
apply: vderiv_eq (vderiv_mulmx V (profile_deriv k0 d q a b z (-1))).
by rewrite -scalemxAr /fu !mulmxA eQ opprK.
Qed.

Lemma flow_derive d a b z : is_derive (fun z => flow S (fu d a b z, fv d a b z)) z (power_loss P Q (fu d a b z) (fv d a b z)).
Proof.
have [_] := cderiv_dot (fu_derive d a b z) (vderiv_mulmx S (fv_derive d a b z)).
rewrite dotZl conjR -scalemxAr dotZr -mulrDr ImM Re_RtoC Im_RtoC Rmult_0_l Rplus_0_r; exact.
Qed.

Lemma dexp_unit (p : 'rV[C]_m) (t : C) : dexp p t \in unitmx.
Proof.
rewrite /dexp unitmxE det_diag unitfE; apply/prodf_neq0 => j _; rewrite mxE; exact: cexp_neq0.
Qed.

(** A field from which nothing is taken is zero. *)
Lemma profile_zero d a b : (0 < d)%coqR ->
  (forall z, (0 < z < d)%coqR -> power_loss P Q (fu d a b z) (fv d a b z) = 0%coqR) -> a = 0 /\ b = 0.
Proof.
move=> d0 h; have [uP uQ _ hz] := ha; have [uV _] := mode_units.
have hm : (0 < d / 2 < d)%coqR by lra.
have k0' : RtoC k0 != 0 by apply: RtoC_neq0; lra.
have [e1 e2] : fu d a b (d / 2) = 0 /\ fv d a b (d / 2) = 0.
  case: hz => hz.
  - have u0 z : (0 < z < d)%coqR -> fu d a b z = 0 by move=> hz'; exact: hz (h z hz').
    split; first exact: u0.
    have /eqP := vderiv_zero hm u0 (fu_derive d a b (d / 2)).
    rewrite scaler_eq0 (negbTE k0') /= => /eqP e.
    by rewrite -(mulKmx uP (fv d a b (d / 2))) e mulmx0.
  - have v0 z : (0 < z < d)%coqR -> fv d a b z = 0 by move=> hz'; exact: hz (h z hz').
    split; last exact: v0.
    have /eqP := vderiv_zero hm v0 (fv_derive d a b (d / 2)).
    rewrite scaler_eq0 (negbTE k0') /= => /eqP e.
    by rewrite -(mulKmx uQ (fu d a b (d / 2))) e mulmx0.
have {}e1 : profile k0 d q a b (d / 2) 1 = 0 by rewrite -(mulKmx uW (profile k0 d q a b (d / 2) 1)) [W *m _]e1 mulmx0.
have {}e2 : profile k0 d q a b (d / 2) (-1) = 0 by rewrite -(mulKmx uV (profile k0 d q a b (d / 2) (-1))) [V *m _]e2 mulmx0.
move: e1 e2; rewrite /profile scale1r scaleN1r.
set A := dexp _ _ *m a; set B := dexp _ _ *m b => e1 e2.
have B0 : B = 0.
  have : (A + B) + (- A + B) = 0 by rewrite e1 e2 addr0.
  rewrite addrACA subrr add0r => e; by rewrite -[B]halfK -scalerDr e scaler0.
have A0 : A = 0 by move: e1; rewrite B0 addr0.
split; first by rewrite -(mulKmx (dexp_unit q (RtoC (- k0 * (d / 2)))) a) -/A A0 mulmx0.
by rewrite -(mulKmx (dexp_unit q (RtoC (k0 * (d / 2 - d)))) b) -/B B0 mulmx0.
Qed.

Lemma layer_drop d a b : (0 < d)%coqR -> a <> 0 \/ b <> 0 ->
  (pw S (W *m (Xmat k0 q d *m a + b)) (V *m (Xmat k0 q d *m a - b)) <
   pw S (W *m (a + Xmat k0 q d *m b)) (V *m (a - Xmat k0 q d *m b)))%coqR.
Proof.
move=> d0 hab; have [_ _ hp _] := ha.
have [h1 h2] := grow (flow_derive d a b) (fun z => hp _ _) d0.
have eT : flow S (fu d a b 0%coqR, fv d a b 0%coqR) = (- pw S (W *m (a + Xmat k0 q d *m b)) (V *m (a - Xmat k0 q d *m b)))%coqR.
  by rewrite /fu /fv !profile_top scale1r scaleN1r -pw_flow -pwNr -[- (V *m _)]mulmxN opprB [- a + _]addrC.
have eB : flow S (fu d a b d, fv d a b d) = (- pw S (W *m (Xmat k0 q d *m a + b)) (V *m (Xmat k0 q d *m a - b)))%coqR.
  by rewrite /fu /fv !profile_bottom scale1r scaleN1r -pw_flow -pwNr -[- (V *m _)]mulmxN opprB [- (_ *m a) + _]addrC.
rewrite eT eB in h1 h2.
case: (Rlt_le_dec (pw S (W *m (Xmat k0 q d *m a + b)) (V *m (Xmat k0 q d *m a - b)))
   (pw S (W *m (a + Xmat k0 q d *m b)) (V *m (a - Xmat k0 q d *m b)))) => // hle; exfalso.
have [|a0 b0] := @profile_zero d a b d0; first by apply: h2; lra.
by case: hab.
Qed.

(** Waves running down carry power down. *)
Lemma down_power b : (forall j, (0 <= Re (q ord0 j))%coqR) -> b <> 0 -> (0 < pw S (W *m b) (V *m b))%coqR.
Proof.
move=> hq b0.
have drop d c : (0 < d)%coqR -> c <> 0 -> (pw S (W *m (Xmat k0 q d *m c)) (V *m (Xmat k0 q d *m c)) < pw S (W *m c) (V *m c))%coqR.
  by move=> d0 c0; have := @layer_drop d c 0 d0 (or_introl c0); rewrite !mulmx0 !subr0 !addr0.
pose M := adj W *m S *m V.
have pE (c : 'cV[C]_m) : pw S (W *m c) (V *m c) = \big[Rplus/0%coqR]_(i < m) \big[Rplus/0%coqR]_(j < m) Im (conj (c i ord0) * M i j * c j ord0).
  rewrite /pw adjM -!mulmxA -/M.
  have -> : adj c *m (adj W *m (S *m (V *m c))) = adj c *m (M *m c) by rewrite /M !mulmxA.
  rewrite dot_sum (big_morph Im ImD Im0); apply: eq_bigr => i _.
  by rewrite mxE mulr_sumr (big_morph Im ImD Im0); apply: eq_bigr => j _; rewrite mulrA.
have xE d (c : 'cV[C]_m) i : (Xmat k0 q d *m c) i ord0 = cexp (- RtoC k0 * q ord0 i * RtoC d) * c i ord0.
  by rewrite /Xmat mul_diag_mx !mxE.
have hq' j : (0 < Re (q ord0 j))%coqR.
  have h0 := hq j; case: (Req_dec (Re (q ord0 j)) 0) => [e|]; last lra.
  exfalso; pose c : 'cV[C]_m := delta_mx j ord0.
  have c0 : c <> 0 by move/colP/(_ j); rewrite !mxE !eqxx /= => /eqP; rewrite oner_eq0.
  have := drop 1%coqR c Rlt_0_1 c0.
  have -> : Xmat k0 q 1 *m c = cexp (- RtoC k0 * q ord0 j) *: c.
    apply/colP => i; rewrite xE !mxE; case: (eqVneq i j) => [->|_] /=; last by rewrite !mulr0.
    by rewrite [RtoC 1](_ : _ = 1) // mulr1.
  set x := cexp _.
  have ex : conj x * x = 1.
    rewrite /x -cexp_conj -cexpD; set t := _ + _.
    have -> : t = 0; last by rewrite cexp0.
    rewrite /t; apply: Cext; rewrite !(ReD, ImD, Re_conj, Im_conj, ReM, ImM, ReN, ImN, Re_RtoC, Im_RtoC) e /=; ring.
  have -> : pw S (W *m (x *: c)) (V *m (x *: c)) = pw S (W *m c) (V *m c).
    rewrite /pw -!scalemxAr adjZ -!scalemxAl scalerA [x * _]mulrC ex scale1r //.
  lra.
have hd : dies (fun d => pw S (W *m (Xmat k0 q d *m b)) (V *m (Xmat k0 q d *m b))).
  apply: (@dies_ext (fun d => \big[Rplus/0%coqR]_(i < m) \big[Rplus/0%coqR]_(j < m)
     Im (conj (b i ord0) * M i j * b j ord0 * cexp (- RtoC k0 * (conj (q ord0 i) + q ord0 j) * RtoC d)))).
    move=> d; rewrite pE; apply: eq_bigr => i _; apply: eq_bigr => j _; congr Im.
    rewrite !xE conjM -cexp_conj.
    have -> : - RtoC k0 * (conj (q ord0 i) + q ord0 j) * RtoC d = conj (- RtoC k0 * q ord0 i * RtoC d) + (- RtoC k0 * q ord0 j * RtoC d).
      by rewrite !(conjM, conjN, conjR) mulrDr mulrDl.
    rewrite cexpD; set x := cexp (conj _); set y := cexp _; clearbody x y; move: (conj (b i ord0)) (M i j) (b j ord0) => p1 p2 p3; cring.
  apply: dies_sum => i; apply: dies_sum => j; apply: cexp_dies.
  rewrite !(ReM, ReN, ImN, ReD, ImD, Re_conj, Im_conj, Re_RtoC, Im_RtoC); have := hq' i; have := hq' j; nra.
case: (Rlt_le_dec 0 (pw S (W *m b) (V *m b))) => // h0; exfalso.
have h1 := drop 1%coqR b Rlt_0_1 b0.
set y := pw S (W *m (Xmat k0 q 1 *m b)) _ in h1.
have y0 : (0 < - y)%coqR by lra.
have [D D0 hD] := hd _ y0.
have b1 : Xmat k0 q 1 *m b <> 0.
  have := dexp_unit q (RtoC (- k0 * 1)); rewrite dexpX => u1 e.
  by apply: b0; rewrite -(mulKmx u1 b) e mulmx0.
have h2 := drop D _ D0 b1.
have eX : Xmat k0 q D *m (Xmat k0 q 1 *m b) = Xmat k0 q (D + 1) *m b.
  apply/colP => i; rewrite !xE mulrA -cexpD; congr (cexp _ * _).
  by rewrite RtoC_add mulrDr.
rewrite eX -/y in h2.
have hle : (D <= D + 1)%coqR by lra.
have := hD _ hle; move/Rabs_def2 => [_]; lra.
Qed.
End Layer.
