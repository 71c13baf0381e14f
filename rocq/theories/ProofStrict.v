(** A layer that absorbs takes a strictly positive amount of power. *)
From Coq Require Import Reals Lra Psatz.
From mathcomp Require Import all_ssreflect ssralg matrix mxalgebra.
From Coquelicot Require Import Rcomplements Complex Hierarchy AutoDerive Derive RInt Continuity Rbar.
From Verif Require Import Cplx Mx Spec ModelTM ModelField SpecSolve SpecField SpecPassive ProofFlux ProofEnergy1D ProofEnergy2D
  ProofEff ProofWell ProofField ProofPassive ProofPassive2 ProofAbsorb.

Set Implicit Arguments.
Unset Strict Implicit.
Unset Printing Implicit Defensive.
Local Open Scope ring_scope.
Import GRing.Theory.

(** ** Monotone functions *)
Lemma mono_in (f g : R -> R) (d : R) : (forall z, (0 < z < d)%coqR -> is_derive f z (g z)) ->
  (forall z, (0 <= z <= d)%coqR -> continuous f z) -> (forall z, (0 < z < d)%coqR -> (0 <= g z)%coqR) ->
  forall a b, (0 <= a)%coqR -> (a <= b)%coqR -> (b <= d)%coqR -> (f a <= f b)%coqR.
Proof.
move=> hf hc hg a b a0 ab bd.
pose g' z := if Rlt_dec 0 z then if Rlt_dec z d then g z else 0%coqR else 0%coqR.
have g0 z : (0 <= g' z)%coqR.
  rewrite /g'; case: (Rlt_dec 0 _) => h1 /=; last lra.
  by case: (Rlt_dec _ d) => h2 /=; [apply: hg|lra].
have [||c [_ e]] := @MVT_gen f a b g'.
- move=> x; rewrite Rmin_left // Rmax_right // => hx.
  rewrite /g'; case: (Rlt_dec 0 _) => h1 /=; last lra.
  by case: (Rlt_dec _ d) => h2 /=; [apply: hf|lra].
- move=> x; rewrite Rmin_left // Rmax_right // => hx.
  by apply/continuity_pt_filterlim; apply: hc; lra.
have := g0 c; nra.
Qed.

Lemma flat_in (f g : R -> R) (d : R) : (forall z, (0 < z < d)%coqR -> is_derive f z (g z)) ->
  (forall z, (0 <= z <= d)%coqR -> continuous f z) -> (forall z, (0 < z < d)%coqR -> (0 <= g z)%coqR) ->
  (f d <= f 0%coqR)%coqR -> forall x, (0 < x < d)%coqR -> g x = 0%coqR.
Proof.
move=> hf hc hg h x [x0 xd].
have hz z : (0 <= z <= d)%coqR -> f z = f 0%coqR.
  move=> [z0 zd]; have := mono_in hf hc hg (Rle_refl 0) z0 zd; have := mono_in hf hc hg z0 zd (Rle_refl d); lra.
have h2 : is_derive (fun=> f 0%coqR) x (g x).
  apply: is_derive_ext_loc (hf x _); last by split.
  have e0 : (0 < Rmin x (d - x))%coqR by apply: Rmin_glb_lt; lra.
  exists (mkposreal _ e0) => y hy; apply: hz.
  have : (Rabs (y - x) < Rmin x (d - x))%coqR by exact: hy.
  by have := Rmin_l x (d - x); have := Rmin_r x (d - x); move=> h3 h4 /Rabs_def2; lra.
by rewrite -(is_derive_unique _ _ _ h2) Derive_const.
Qed.

(** ** A linear system has one solution through a point *)
Definition nn n (u : 'cV[C]_n) : R := Re (dot u u).
Lemma nnE n (u : 'cV[C]_n) : nn u = total (fun i => nrm2 (u i ord0)).
Proof.
have h : dot u u = RtoC (total (fun i => nrm2 (u i ord0))).
  by rewrite sumRC /dot; apply: eq_bigr => i _; rewrite mulrC mul_conj.
by rewrite /nn h Re_RtoC.
Qed.
Lemma nn_ge0 n (u : 'cV[C]_n) : (0 <= nn u)%coqR.
Proof. by rewrite nnE; apply: total_ge0 => i; exact: nrm2_ge0. Qed.
Lemma nn_entry n (u : 'cV[C]_n) i : (nrm2 (u i ord0) <= nn u)%coqR.
Proof. by rewrite nnE; apply: (total_ge i) => j; exact: nrm2_ge0. Qed.
Lemma nn_eq0 n (u : 'cV[C]_n) : (nn u <= 0)%coqR -> u = 0.
Proof.
move=> h; apply/colP => i; rewrite mxE; apply: nrm2_eq0.
by apply: Rle_antisym; [exact: Rle_trans (nn_entry u i) h|exact: nrm2_ge0].
Qed.
Lemma nn0 n : nn (0 : 'cV[C]_n) = 0%coqR.
Proof. by rewrite /nn /dot big1 // => i _; rewrite mxE conj0 mul0r. Qed.

Lemma Re_total n (f : 'I_n -> C) : Re (\sum_i f i) = total (fun i => Re (f i)).
Proof. by rewrite /total (big_morph Re ReD (erefl _)). Qed.
Lemma total_le n (f g : 'I_n -> R) : (forall i, (f i <= g i)%coqR) -> (total f <= total g)%coqR.
Proof.
move=> h; rewrite /total; elim/big_ind2: _ => [|x1 x2 y1 y2 h1 h2|i _]; [exact: Rle_refl|lra|exact: h].
Qed.
Lemma total_mulr n (f : 'I_n -> R) (k : R) : total (fun i => f i * k)%coqR = (total f * k)%coqR.
Proof. exact: total_scale. Qed.

Lemma triple_bound (a m b : C) :
  (Rabs (Re (conj a * m * b)%R) <= (Rabs (Re m) + Rabs (Im m)) * (nrm2 a + nrm2 b))%coqR.
Proof.
case: a m b => [x y] [p q] [s t]; rewrite /nrm2 /conj /Re /Im /=.
have -> : ((x * p - - y * q) * s - (x * q + - y * p) * t = p * (x * s + y * t) + q * (y * s - x * t))%coqR by ring.
apply: Rle_trans (Rabs_triang _ _) _; rewrite !Rabs_mult.
have sq (c d : R) : (- (c * c + d * d) <= 2 * (c * d) <= c * c + d * d)%coqR.
  by have := Rle_0_sqr (c + d); have := Rle_0_sqr (c - d); rewrite /Rsqr; lra.
have := (sq x s, sq y t, sq y s, sq x t) => -[[[q1 q2] q3] q4].
have := (Rle_0_sqr x, Rle_0_sqr y, Rle_0_sqr s, Rle_0_sqr t); rewrite /Rsqr => -[[[p1 p2] p3] p4].
have h1 : (Rabs (x * s + y * t) <= x * x + y * y + (s * s + t * t))%coqR by apply: Rabs_le; lra.
have h2 : (Rabs (y * s - x * t) <= x * x + y * y + (s * s + t * t))%coqR by apply: Rabs_le; lra.
have := Rabs_pos p; have := Rabs_pos q; nra.
Qed.

Lemma form_bound n (M : 'M[C]_n) : exists2 K, (0 <= K)%coqR &
  forall u v : 'cV[C]_n, (Rabs (Re (dot u (M *m v)%R)) <= K * (nn u + nn v))%coqR.
Proof.
pose K := total (fun i : 'I_n => total (fun j : 'I_n => Rabs (Re (M i j)) + Rabs (Im (M i j)))%coqR).
exists K.
  apply: total_ge0 => i; apply: total_ge0 => j; have := Rabs_pos (Re (M i j)); have := Rabs_pos (Im (M i j)); lra.
move=> u v.
have e : dot u (M *m v) = \sum_i \sum_j conj (u i ord0) * M i j * v j ord0.
  by rewrite /dot; apply: eq_bigr => i _; rewrite mxE mulr_sumr; apply: eq_bigr => j _; rewrite mulrA.
rewrite e Re_total.
have b i : (Rabs (Re (\sum_j conj (u i ord0) * M i j * v j ord0)%R) <=
   total (fun j : 'I_n => Rabs (Re (M i j)) + Rabs (Im (M i j)))%coqR * (nn u + nn v))%coqR.
  rewrite Re_total -total_mulr; apply: Rle_trans (_ : _ <= total (fun j : 'I_n => Rabs (Re (conj (u i ord0) * M i j * v j ord0)%R)))%coqR _.
    rewrite /total; elim/big_ind2: _ => [|x1 x2 y1 y2 h1 h2|j _]; [rewrite Rabs_R0; lra| |exact: Rle_refl].
    by have := Rabs_triang x2 y2; lra.
  apply: total_le => j; apply: Rle_trans (triple_bound _ _ _) _.
  apply: Rmult_le_compat_l; first by have := Rabs_pos (Re (M i j)); have := Rabs_pos (Im (M i j)); lra.
  by have := nn_entry u i; have := nn_entry v j; lra.
rewrite /K -total_mulr; apply: Rle_trans (_ : _ <= total (fun i : 'I_n => Rabs (Re (\sum_j conj (u i ord0) * M i j * v j ord0)%R)))%coqR _.
  rewrite /total; elim/big_ind2: _ => [|x1 x2 y1 y2 h1 h2|j _]; [rewrite Rabs_R0; lra| |exact: Rle_refl].
  by have := Rabs_triang x2 y2; lra.
by apply: total_le => i; exact: b.
Qed.

Section Ode.
Variables (m : nat) (k0 : R).

Lemma solves_up (l : medium m) u v : (0 <= m_d l)%coqR -> solves k0 l u v -> u (m_d l) = 0 -> v (m_d l) = 0 ->
  u 0%coqR = 0 /\ v 0%coqR = 0.
Proof.
case: l => P Q d; rewrite /solves; cbn [m_P m_Q m_d] => d0 [h1 h2] ud vd.
have [K1 K10 hP] := form_bound P; have [K2 K20 hQ] := form_bound Q.
pose K := (4 * Rabs k0 * (K1 + K2))%coqR.
pose E z := (nn (u z) + nn (v z))%coqR.
pose E' z := (2 * k0 * (Re (dot (u z) (P *m v z)%R) + Re (dot (v z) (Q *m u z)%R)))%coqR.
have dE z : (0 < z < d)%coqR -> is_derive E z (E' z).
  move=> hz; have [hu hv] := h1 z hz.
  have [eu _] := cderiv_dot hu hu; have [ev _] := cderiv_dot hv hv.
  have := @is_derive_plus R_AbsRing R_NormedModule _ _ z _ _ eu ev.
  set L := plus _ _; have -> // : L = E' z.
  rewrite /L /E' /plus /= !ReD !dotZl !dotZr conjR.
  rewrite -(dot_conj (u z) (P *m v z)) -(dot_conj (v z) (Q *m u z)) !(ReM, Re_RtoC, Im_RtoC, Re_conj); ring.
have cE z : (0 <= z <= d)%coqR -> continuous E z.
  move=> hz; have [hu hv] := h2 z hz; have [eu _] := ccont_dot hu hu; have [ev _] := ccont_dot hv hv.
  exact: (@continuous_plus R_UniformSpace R_AbsRing R_NormedModule _ _ z eu ev).
have bE z : (- (K * E z) <= E' z)%coqR.
  have /Rabs_le_between [b1 _] := hP (u z) (v z); have /Rabs_le_between [b2 _] := hQ (v z) (u z).
  have /Rabs_le_between [_ b3] := hP (u z) (v z); have /Rabs_le_between [_ b4] := hQ (v z) (u z).
  move: b1 b2 b3 b4; rewrite /E' /K /E; set a := Re _; set b := Re _; have := nn_ge0 (u z); have := nn_ge0 (v z).
  set x := nn (u z); set y := nn (v z) => y0 x0 b1 b2 b3 b4.
  have h : (Rabs (a + b) <= (K1 + K2) * (x + y))%coqR by apply: Rabs_le; split; nra.
  have : (Rabs (2 * k0 * (a + b)) <= 4 * Rabs k0 * (K1 + K2) * (x + y))%coqR.
    rewrite !Rabs_mult (Rabs_right 2); last lra.
    have k := Rabs_pos k0; have := Rmult_le_compat_l (Rabs k0) _ _ k h.
    have : (0 <= Rabs k0 * ((K1 + K2) * (x + y)))%coqR by apply: Rmult_le_pos => //; apply: Rmult_le_pos; lra.
    lra.
  by move/Rabs_le_between => []; lra.
pose H z := (E z * exp (K * z))%coqR.
pose H' z := ((E' z + K * E z) * exp (K * z))%coqR.
have dexp z : is_derive (fun t => exp (K * t)) z (K * exp (K * z))%coqR.
  by auto_derive => //; ring.
have dH z : (0 < z < d)%coqR -> is_derive H z (H' z).
  move=> hz; have := is_derive_mult _ _ _ _ _ (dE z hz) (dexp z).
  have -> // : (E' z * exp (K * z) + E z * (K * exp (K * z)) = H' z)%coqR by rewrite /H'; ring.
have cH z : (0 <= z <= d)%coqR -> continuous H z.
  move=> hz; apply: (@continuous_mult R_UniformSpace R_AbsRing E (fun t => exp (K * t)%coqR) z (cE z hz)).
  by apply: (@ex_derive_continuous R_AbsRing R_NormedModule); eexists; exact: dexp.
have pH z : (0 < z < d)%coqR -> (0 <= H' z)%coqR.
  by move=> _; rewrite /H'; apply: Rmult_le_pos; [have := bE z; lra|apply: Rlt_le; exact: exp_pos].
have := mono_in dH cH pH (Rle_refl 0) d0 (Rle_refl d).
rewrite {2}/H /E ud vd !nn0 Rplus_0_l Rmult_0_l /H Rmult_0_r exp_0 Rmult_1_r /E => h.
have := nn_ge0 (u 0%coqR); have := nn_ge0 (v 0%coqR) => g1 g2.
by split; apply: nn_eq0; lra.
Qed.

Variable S : 'M[C]_m.

Lemma flow_deriv (l : medium m) u v : solves k0 l u v ->
  (forall z, (0 < z < m_d l)%coqR -> is_derive (fun z => flow S (u z, v z)) z (power_loss S k0 (m_P l) (m_Q l) (u z) (v z))) /\
  (forall z, (0 <= z <= m_d l)%coqR -> continuous (fun z => flow S (u z, v z)) z).
Proof.
move=> [h1 h2]; split=> z hz.
- have [hu hv] := h1 z hz.
  have [_] := cderiv_dot hu (vderiv_mulmx S hv).
  rewrite dotZl conjR -scalemxAr dotZr -mulrDr ImM Re_RtoC Im_RtoC Rmult_0_l Rplus_0_r; exact.
- by have [hu hv] := h2 z hz; have [] := ccont_dot hu (vcont_mulmx S hv).
Qed.

(** Nothing gains power. *)
Definition no_gain (P Q : 'M[C]_m) : Prop := forall u v, (0 <= power_loss S k0 P Q u v)%coqR.

Lemma flow_up (l : medium m) u v : (0 <= m_d l)%coqR -> no_gain (m_P l) (m_Q l) -> solves k0 l u v ->
  (flow S (u 0%coqR, v 0%coqR) <= flow S (u (m_d l), v (m_d l)))%coqR.
Proof.
move=> d0 hg hs; have [h1 h2] := flow_deriv hs.
exact: (mono_in h1 h2 (fun z _ => hg _ _) (Rle_refl 0) d0 (Rle_refl _)).
Qed.

Lemma dark_zero (l : medium m) u v : k0 <> 0%coqR -> (0 < m_d l)%coqR -> absorber S k0 (m_P l) (m_Q l) -> solves k0 l u v ->
  (flow S (u (m_d l), v (m_d l)) <= flow S (u 0%coqR, v 0%coqR))%coqR -> u 0%coqR = 0 /\ v 0%coqR = 0.
Proof.
move=> hk d0 [uP uQ hg hz] hs hle; have [h1 h2] := flow_deriv hs.
have z0 := flat_in h1 h2 (fun z _ => hg _ _) hle.
have hm : (0 < m_d l / 2 < m_d l)%coqR by lra.
have k0' : RtoC k0 != 0 by apply: RtoC_neq0.
have [du dv] := hs.1 _ hm.
have [e1 e2] : u (m_d l / 2)%coqR = 0 /\ v (m_d l / 2)%coqR = 0.
  case: hz => hz.
  - have u0 z : (0 < z < m_d l)%coqR -> u z = 0 by move=> hz'; exact: hz (z0 z hz').
    split; first exact: u0.
    have /eqP := vderiv_zero hm u0 du.
    rewrite scaler_eq0 (negbTE k0') /= => /eqP e.
    by rewrite -(mulKmx uP (v _)) e mulmx0.
  - have v0 z : (0 < z < m_d l)%coqR -> v z = 0 by move=> hz'; exact: hz (z0 z hz').
    split; last exact: v0.
    have /eqP := vderiv_zero hm v0 dv.
    rewrite scaler_eq0 (negbTE k0') /= => /eqP e.
    by rewrite -(mulKmx uQ (u _)) e mulmx0.
apply: (@solves_up (Medium (m_P l) (m_Q l) (m_d l / 2))) => //; first by rewrite /=; lra.
by case: hs => a1 a2; split=> z hz'; cbn in hz'; [apply: a1|apply: a2]; lra.
Qed.

Lemma stack_strict (ls : seq (medium m)) fs top bottom : k0 <> 0%coqR ->
  (forall l, List.In l ls -> (0 <= m_d l)%coqR /\ no_gain (m_P l) (m_Q l)) ->
  boundary_value_problem k0 ls top fs bottom ->
  (flow S top <= flow S bottom)%coqR /\
  ((exists l, [/\ List.In l ls, (0 < m_d l)%coqR & absorber S k0 (m_P l) (m_Q l)]) ->
   (flow S bottom <= flow S top)%coqR -> top = (0, 0)).
Proof.
move=> hk; elim: ls fs top => [|l ls IH] [|[u v] fs] top hl [] //=.
  by move=> -> _; split; [exact: Rle_refl|case=> l []].
move=> [<- ht] [hs ha]; have [d0 hg] := hl l (or_introl erefl).
have [|i1 i2] := IH fs (u (m_d l), v (m_d l)) _ (Logic.conj ht ha); first by move=> l' h; apply: hl; right.
have f1 := flow_up d0 hg hs; split; first by lra.
move=> [l' [[e|hin] d1 hd]] hle.
- rewrite -e in d1 hd; have [|-> ->//] := dark_zero hk d1 hd hs; lra.
- have hle' : (flow S bottom <= flow S (u (m_d l), v (m_d l)))%coqR by lra.
  have [e1 e2] := i2 (ex_intro _ l' (And3 hin d1 hd)) hle'.
  by have [-> ->] := solves_up d0 hs e1 e2.
Qed.
End Ode.
