(** Lemmas about material lookup: the oscillator models. *)
From Coq Require Import Reals ZArith Lra Lia.
From Coquelicot Require Import Coquelicot.
From mathcomp Require Import all_ssreflect ssralg.
From Verif Require Import Cplx ModelVec ModelMat SpecMat ProofMat ProofMat2.

Set Implicit Arguments.
Unset Strict Implicit.
Unset Printing Implicit Defensive.
Local Open Scope ring_scope.
Import GRing.Theory.

Lemma Im_neq0 z : (0 < Im z)%coqR -> z != 0.
Proof. by move=> h; apply/eqP => e; rewrite e /Im /= in h; lra. Qed.

Lemma osc_alg (p s a g c d t e P q X : C) : a != 0 -> g != 0 -> d != 0 -> p != 0 -> q != 0 ->
  q * g = (1 + 1) * d -> P = p * p -> X = c + d * t ->
  a - X != 0 -> a + X != 0 ->
  ci * p * s / (q * a * g) * (ci / P * e / ((a - c) / d - t) + ci / P * e / ((a + c) / d + t))
  = s * (e / p) * (X * X - a * a)^-1.
Proof.
move=> a0 g0 d0 p0 q0 hqg -> eX h1 h2.
have -> : q * a * g = (1 + 1) * d * a by rewrite -hqg; cring.
have two0 : (1 + 1 : C) != 0 by apply/eqP => -[]; lra.
have e1 : (a - c) / d - t = (a - X) / d.
  by rewrite eX -[t in LHS](mulfK d0) -mulrBl; congr (_ / _); cring.
have e2 : (a + c) / d + t = (a + X) / d.
  by rewrite eX -[t in LHS](mulfK d0) -mulrDl; congr (_ / _); cring.
have e3 : X * X - a * a = - ((a - X) * (a + X)) by cring.
rewrite e1 e2 e3.
have n3 : - ((a - X) * (a + X)) != 0 by rewrite oppr_eq0 mulf_neq0.
set A := a - X in h1 n3 *; set B := a + X in h2 n3 *.
have eA : A + B = (1 + 1) * a by rewrite /A /B; cring.
have -> : ci / (p * p) * e / (A / d) + ci / (p * p) * e / (B / d) = ci / (p * p) * e * d * ((A + B) / (A * B)).
  have -> : (A + B) / (A * B) = A^-1 + B^-1.
    by rewrite mulrDl invfM [A * (_ * _)]mulrA mulfV // mul1r [A^-1 * _]mulrC [B * (_ * _)]mulrA mulfV // mul1r addrC.
  by rewrite !invf_div; set x1 := A^-1; set x2 := B^-1; set x3 := (p * p)^-1; cring.
have E1 : ((1 + 1) * d * a)^-1 = (1 + 1)^-1 / d / a by rewrite !invfM.
have E2 : (p * p)^-1 = p^-1 / p by rewrite invfM.
rewrite eA invrN E1 E2.
have -> : ci * p * s * ((1 + 1)^-1 / d / a) * (ci * (p^-1 / p) * e * d * ((1 + 1) * a / (A * B)))
  = (ci * ci) * ((1 + 1)^-1 * (1 + 1)) * (d^-1 * d) * (a^-1 * a) * (p * p^-1) * (s * (e / p) * (A * B)^-1).
  by set x1 := (1 + 1)^-1; set x2 := d^-1; set x3 := a^-1; set x4 := p^-1; set x5 := (A * B)^-1; cring.
by rewrite ci2 !mulVf // mulfV //; set x5 := (A * B)^-1; set x4 := p^-1; cring.
Qed.

Lemma sq_pos (x v : R) : (0 < v)%coqR -> (0 < x * x + v * v)%coqR.
Proof. by move=> h; have := Rle_0_sqr x; rewrite /Rsqr; have := Rmult_lt_0_compat _ _ h h; lra. Qed.

(** ** The Faddeeva kernel *)
Lemma fad_ReE z t : (0 < Im z)%coqR ->
  Re (fad_kernel z t) = (exp (- (t * t)) / PI * Im z / ((Re z - t) * (Re z - t) + Im z * Im z))%coqR /\
  Im (fad_kernel z t) = (exp (- (t * t)) / PI * (Re z - t) / ((Re z - t) * (Re z - t) + Im z * Im z))%coqR.
Proof.
case: z => u v; rewrite /Im /Re [_.2]/= => hv.
have hp := PI_RGT_0.
have hd : ((u - t) * (u - t) + v * v)%coqR <> 0%coqR by have := sq_pos (u - t) hv; lra.
have n0 : ((u, v) : C) - RtoC t != 0 by apply: Im_neq0; rewrite /Im /=; lra.
have pi0 : RtoC PI != 0 by apply: RtoC_neq0; lra.
rewrite /fad_kernel (CinvE n0) -RtoC_inv; last lra.
rewrite /ci /Ci /Cinv /=; split; field; split; try lra; have := sq_pos (u + - t) hv; lra.
Qed.

Lemma fad_ex z a b : (0 < Im z)%coqR ->
  ex_RInt (fun t => Re (fad_kernel z t)) a b /\ ex_RInt (fun t => Im (fad_kernel z t)) a b.
Proof.
move=> hz; have hp := PI_RGT_0; split.
  apply: (ex_RInt_ext (fun t => exp (- (t * t)) / PI * Im z / ((Re z - t) * (Re z - t) + Im z * Im z))%coqR).
    by move=> t _; rewrite (proj1 (fad_ReE t hz)).
  apply: ex_RInt_continuous => t _; apply: ex_derive_continuous; auto_derive; have := sq_pos (Re z + - t) hz; lra.
apply: (ex_RInt_ext (fun t => exp (- (t * t)) / PI * (Re z - t) / ((Re z - t) * (Re z - t) + Im z * Im z))%coqR).
  by move=> t _; rewrite (proj2 (fad_ReE t hz)).
by apply: ex_RInt_continuous => t _; apply: ex_derive_continuous; auto_derive; have := sq_pos (Re z + - t) hz; lra.
Qed.

(** A symmetric integral does not change under reflection. *)
Lemma is_RInt_reflect (f : R -> R) (N l : R) : is_RInt f (- N)%coqR N l -> is_RInt (fun t => f (- t)%coqR) (- N)%coqR N l.
Proof.
move=> h.
have h2 : is_RInt f (- - N)%coqR (- N)%coqR (opp l) by rewrite Ropp_involutive; exact: is_RInt_swap.
have h3 := is_RInt_comp_opp _ _ _ _ h2.
have := is_RInt_opp _ _ _ _ h3; rewrite opp_opp; apply: is_RInt_ext => t _; exact: opp_opp.
Qed.

Section Osc.
Variable w : C -> C.
Hypothesis hw : faddeeva w.
Variables (omega s gamma centre sigma : R).
Hypotheses (ho : (0 < omega)%coqR) (hg : (0 < gamma)%coqR) (hs : (0 < sigma)%coqR).

Let a := csqrt (RtoC (omega * omega) + ci * RtoC (omega * gamma)).
Let d := (sqrt 2 * sigma)%coqR.
Let z1 := (a - RtoC centre) / RtoC d.
Let z2 := (a + RtoC centre) / RtoC d.
Let K := ci * RtoC (sqrt PI) * RtoC s / (RtoC (2 * sqrt 2) * a * RtoC sigma).

Let d_pos : (0 < d)%coqR.
Proof. by rewrite /d; apply: Rmult_lt_0_compat => //; apply: sqrt_lt_R0; lra. Qed.

Let a_im : (0 < Im a)%coqR.
Proof.
apply: (proj1 (csqrt_up_strict _)).
have -> : Im (RtoC (omega * omega) + ci * RtoC (omega * gamma)) = (omega * gamma)%coqR by rewrite /Im /=; ring.
exact: Rmult_lt_0_compat.
Qed.

Let Im_div (x : C) : Im (x / RtoC d) = (Im x / d)%coqR.
Proof. rewrite -RtoC_inv; last by have := d_pos; lra. by rewrite /Im /=; rewrite /Rdiv; ring. Qed.

Let z1_im : (0 < Im z1)%coqR.
Proof.
rewrite /z1 Im_div; have -> : Im (a - RtoC centre) = Im a by rewrite /Im /=; ring.
by apply: Rmult_lt_0_compat => //; apply: Rinv_0_lt_compat.
Qed.
Let z2_im : (0 < Im z2)%coqR.
Proof.
rewrite /z2 Im_div; have -> : Im (a + RtoC centre) = Im a by rewrite /Im /=; ring.
by apply: Rmult_lt_0_compat => //; apply: Rinv_0_lt_compat.
Qed.

Lemma osc_pointwise t : K * (fad_kernel z1 t + fad_kernel z2 (- t)%coqR) = gauss_kernel s omega gamma centre sigma t.
Proof.
have hp := PI_RGT_0.
have sp : sqrt PI <> 0%coqR by have := sqrt_lt_R0 _ hp; lra.
have s2 : sqrt 2 <> 0%coqR by have : (0 < 2)%coqR by [lra]; move/sqrt_lt_R0; lra.
rewrite /K /fad_kernel.
have -> : (- t * - t = t * t)%coqR by ring.
have -> : z2 - RtoC (- t) = z2 + RtoC t by rewrite RtoC_opp opprK.
have h := @osc_alg (RtoC (sqrt PI)) (RtoC s) a (RtoC sigma) (RtoC centre) (RtoC d) (RtoC t) (RtoC (exp (- (t * t))))
  (RtoC PI) (RtoC (2 * sqrt 2)) (RtoC (centre + d * t)).
rewrite /z1 /z2 h {h}.
- rewrite /gauss_kernel /lorentz RtoC_mul RtoC_div //; congr (_ * _^-1).
  by rewrite csqrt_sqr -/d RtoC_sub !RtoC_mul; set x := RtoC _ ; set y := RtoC omega; set z := RtoC gamma; cring.
- exact: Im_neq0.
- by apply: RtoC_neq0; lra.
- by apply: RtoC_neq0; have := d_pos; lra.
- exact: RtoC_neq0.
- by apply: RtoC_neq0; move=> e; apply: s2; lra.
- by rewrite -RtoC_mul -(RtoC_add 1 1) -RtoC_mul; congr RtoC; rewrite /d; ring.
- by rewrite -RtoC_mul sqrt_sqrt //; lra.
- by rewrite RtoC_add RtoC_mul.
- by apply: Im_neq0; have -> : Im (a - RtoC (centre + d * t)) = Im a by rewrite /Im /=; ring.
- by apply: Im_neq0; have -> : Im (a + RtoC (centre + d * t)) = Im a by rewrite /Im /=; ring.
Qed.

Lemma osc_int N :
  is_RInt (fun t => Re (gauss_kernel s omega gamma centre sigma t)) (- N)%coqR N
    (Re K * (RInt (fun t => Re (fad_kernel z1 t)) (- N) N + RInt (fun t => Re (fad_kernel z2 t)) (- N) N)
     - Im K * (RInt (fun t => Im (fad_kernel z1 t)) (- N) N + RInt (fun t => Im (fad_kernel z2 t)) (- N) N))%coqR /\
  is_RInt (fun t => Im (gauss_kernel s omega gamma centre sigma t)) (- N)%coqR N
    (Re K * (RInt (fun t => Im (fad_kernel z1 t)) (- N) N + RInt (fun t => Im (fad_kernel z2 t)) (- N) N)
     + Im K * (RInt (fun t => Re (fad_kernel z1 t)) (- N) N + RInt (fun t => Re (fad_kernel z2 t)) (- N) N))%coqR.
Proof.
have [e1 e1'] := fad_ex (- N) N z1_im; have [e2 e2'] := fad_ex (- N) N z2_im.
have i1 := RInt_correct _ _ _ e1; have i1' := RInt_correct _ _ _ e1'.
have i2 := is_RInt_reflect (RInt_correct _ _ _ e2); have i2' := is_RInt_reflect (RInt_correct _ _ _ e2').
have s1 := is_RInt_plus _ _ _ _ _ _ i1 i2; have s2 := is_RInt_plus _ _ _ _ _ _ i1' i2'.
split.
- have := is_RInt_minus _ _ _ _ _ _ (is_RInt_scal _ _ _ (Re K) _ s1) (is_RInt_scal _ _ _ (Im K) _ s2).
  by apply: is_RInt_ext => t _; rewrite -osc_pointwise ReM ReD ImD.
- have := is_RInt_plus _ _ _ _ _ _ (is_RInt_scal _ _ _ (Re K) _ s2) (is_RInt_scal _ _ _ (Im K) _ s1).
  by apply: is_RInt_ext => t _; rewrite -osc_pointwise ImM ReD ImD.
Qed.

Lemma oscE : oscillator w omega s gamma centre sigma = K * (w z1 + w z2).
Proof. by []. Qed.

Lemma osc_limit :
  is_lim_seq (fun N => RInt (fun t => Re (gauss_kernel s omega gamma centre sigma t)) (- INR N) (INR N))
    (Re (oscillator w omega s gamma centre sigma)) /\
  is_lim_seq (fun N => RInt (fun t => Im (gauss_kernel s omega gamma centre sigma t)) (- INR N) (INR N))
    (Im (oscillator w omega s gamma centre sigma)).
Proof.
have [l1 l1'] := hw z1_im; have [l2 l2'] := hw z2_im; rewrite oscE ReM ImM ReD ImD.
have p1 := is_lim_seq_plus' _ _ _ _ l1 l2; have p2 := is_lim_seq_plus' _ _ _ _ l1' l2'.
split.
- have := is_lim_seq_minus' _ _ _ _ (is_lim_seq_scal_l _ (Re K) _ p1) (is_lim_seq_scal_l _ (Im K) _ p2).
  by apply: is_lim_seq_ext => N; rewrite (is_RInt_unique _ _ _ _ (proj1 (osc_int (INR N)))).
- have := is_lim_seq_plus' _ _ _ _ (is_lim_seq_scal_l _ (Re K) _ p2) (is_lim_seq_scal_l _ (Im K) _ p1).
  by apply: is_lim_seq_ext => N; rewrite (is_RInt_unique _ _ _ _ (proj2 (osc_int (INR N)))).
Qed.

Lemma gauss_im t : (0 <= s)%coqR -> (0 <= Im (gauss_kernel s omega gamma centre sigma t))%coqR.
Proof.
move=> h0; rewrite /gauss_kernel /lorentz; set x := (centre + _)%coqR.
set u := (x * x - omega * omega)%coqR.
have hog : (0 < omega * gamma)%coqR by exact: Rmult_lt_0_compat.
have n0 : RtoC u - ci * RtoC (omega * gamma) != 0.
  by apply/eqP => e; have := f_equal Im e; rewrite /Im /=; lra.
rewrite (CinvE n0).
set k := (s * _)%coqR.
have k0 : (0 <= k)%coqR.
  apply: Rmult_le_pos => //; apply: Rmult_le_pos; first by left; exact: exp_pos.
  by left; apply: Rinv_0_lt_compat; apply: sqrt_lt_R0; exact: PI_RGT_0.
set v := (omega * gamma)%coqR in hog *.
have -> : Im (RtoC k * / (RtoC u - ci * RtoC v)%R)%C = (k * (v / (u * u + v * v)))%coqR.
  by rewrite /Im /Cinv /=; field; nra.
apply: Rmult_le_pos => //; apply: Rmult_le_pos; first lra.
by left; apply: Rinv_0_lt_compat; nra.
Qed.

Lemma osc_im : (0 <= s)%coqR -> (0 <= Im (oscillator w omega s gamma centre sigma))%coqR.
Proof.
move=> h0; have := is_lim_seq_le (fun=> 0%coqR) _ 0%coqR _ _ (is_lim_seq_const 0) (proj2 osc_limit).
apply => N; apply: RInt_ge_0.
- by have := pos_INR N; lra.
- by eexists; exact: (proj2 (osc_int (INR N))).
- by move=> t _; exact: gauss_im.
Qed.
End Osc.
