(** Mirrors of quarter-wave pairs, antireflection coatings; the efficiencies of the classical mount in the theory of films. *)
From Coq Require Import Reals ZArith Lra Lia Psatz.
From mathcomp Require Import all_ssreflect ssralg matrix.
From Coquelicot Require Import Complex.
From Verif Require Import Cplx Mx ModelTM Spec SpecSolve SpecFilm SpecFilm2D SpecCoat ProofSetup ProofEnergy1D ProofEff ProofFilm ProofFilmSolve ProofSubstrate
  ProofNormal ProofCoat.

Set Implicit Arguments.
Unset Strict Implicit.
Unset Printing Implicit Defensive.
Local Open Scope ring_scope.
Import GRing.Theory.

Lemma normal_top nt th : (0 < nt)%coqR -> (0 <= th < PI / 2)%coqR -> normal_k nt (nt * sin th) = (nt * cos th)%coqR.
Proof.
move=> h0 h2; have c0 := cos_pos_below h2; have kc := Rmult_lt_0_compat _ _ h0 c0.
rewrite /normal_k -(sqrt_square (nt * cos th)); last lra.
congr sqrt; have := sin2_cos2 th; rewrite /Rsqr => e.
have -> : (nt * cos th * (nt * cos th) = nt * nt * (sin th * sin th + cos th * cos th) - nt * sin th * (nt * sin th))%coqR by ring.
by rewrite e; ring.
Qed.
Lemma below nt th : (0 < nt)%coqR -> (0 <= th < PI / 2)%coqR -> (nt * sin th * (nt * sin th) < nt * nt)%coqR.
Proof.
move=> h0 h2; have c0 := cos_pos_below h2; have e := sin2_cos2 th; rewrite /Rsqr in e.
have := Rmult_lt_0_compat _ _ (Rmult_lt_0_compat _ _ h0 h0) (Rmult_lt_0_compat _ _ c0 c0).
have -> : (nt * nt * (cos th * cos th) = nt * nt * (sin th * sin th + cos th * cos th) - nt * sin th * (nt * sin th))%coqR by ring.
rewrite e; lra.
Qed.
Lemma incident_tilted tm nt th : (0 < nt)%coqR -> (0 <= th < PI / 2)%coqR -> incident_y tm nt th = ci * RtoC (tilted tm nt (nt * sin th)).
Proof.
move=> h0 h2; rewrite /incident_y /tilted normal_top //; case: tm => //; congr (_ * RtoC _); field; lra.
Qed.
Lemma half_tilted tm nb kx : (kx * kx < nb * nb)%coqR -> half_space tm nb kx = ci * RtoC (tilted tm nb kx).
Proof.
move=> h; rewrite /half_space /kz_lossless; case: Rle_dec => h'; last lra.
rewrite /admittance /tilted /normal_k; case: tm => //.
rewrite /Rdiv [RtoC (_ * / _)]RtoC_mul RtoC_inv ?mulrA //; nra.
Qed.

(** The fractions of power for the pair (p, q times that of the half space), up to a sign. *)
Section Fractions.
Variables (y0 yb p q c : R).
Hypotheses (hy : (0 < y0)%coqR) (hb : (0 < yb)%coqR) (hp : (0 < p)%coqR) (hpq : (p * q = 1)%coqR) (hc : sign c).
Let EH := scale c (RtoC p, RtoC q * (ci * RtoC yb)).
Let a := (y0 * p)%coqR.
Let b := (yb * q)%coqR.
Lemma hq : (0 < q)%coqR.
Proof. by have : (0 < p * q)%coqR by [rewrite hpq; lra]; nra. Qed.
Lemma frac_pos : (0 < a /\ 0 < b)%coqR.
Proof. by have := hq => h; split; apply: Rmult_lt_0_compat. Qed.
Lemma frac_num (s : R) : ci * RtoC y0 * RtoC p + RtoC s * (RtoC q * (ci * RtoC yb)) = ci * RtoC (a + s * b).
Proof. by rewrite /a /b RtoC_add !RtoC_mul; cring. Qed.
Lemma frac_den : ci * RtoC y0 * RtoC p + RtoC q * (ci * RtoC yb) = ci * RtoC (a + b).
Proof. by rewrite -[RtoC q * _]mul1r frac_num Rmult_1_l. Qed.
Lemma frac_sub : ci * RtoC y0 * RtoC p - RtoC q * (ci * RtoC yb) = ci * RtoC (a - b).
Proof. by rewrite -mulN1r -[-1]/(- (RtoC 1)) -RtoC_opp frac_num; congr (_ * RtoC _); ring. Qed.
Lemma frac_r : film_r (ci * RtoC y0) EH = RtoC ((a - b) / (a + b)).
Proof.
have [h1 h2] := frac_pos; rewrite r_scale // /film_r [(_, _).1]/= [(_, _).2]/= frac_den frac_sub.
by rewrite -mulf_div divff ?ci_neq0 // mul1r /Rdiv RtoC_mul RtoC_inv //; lra.
Qed.
Lemma frac_R : nrm2 (film_r (ci * RtoC y0) EH) = (((a - b) / (a + b)) ^ 2)%coqR.
Proof. by rewrite frac_r; cunf; ring. Qed.
Lemma frac_T : (nrm2 (film_t (ci * RtoC y0)%R EH) * Re (ci * RtoC yb / (ci * RtoC y0))%R = 1 - ((a - b) / (a + b)) ^ 2)%coqR.
Proof.
have [h1 h2] := frac_pos; rewrite t_scale // /film_t [(_, _).1]/= [(_, _).2]/= frac_den.
have -> : 2%:R * (ci * RtoC y0) / (ci * RtoC (a + b)) = RtoC (2 * y0 / (a + b)).
  rewrite mulrCA -mulf_div divff ?ci_neq0 // mul1r /Rdiv !RtoC_mul RtoC_inv //; last lra.
  by congr (_ * _ * _); cext.
have -> : ci * RtoC yb / (ci * RtoC y0) = RtoC (yb / y0).
  by rewrite -mulf_div divff ?ci_neq0 // mul1r /Rdiv RtoC_mul RtoC_inv //; lra.
have -> : nrm2 (RtoC (2 * y0 / (a + b))) = ((2 * y0 / (a + b)) ^ 2)%coqR by cunf; ring.
rewrite Re_RtoC.
have e : (a * b = y0 * yb)%coqR.
  by have -> : (a * b = y0 * yb * (p * q))%coqR; [rewrite /a /b; ring|rewrite hpq; ring].
have -> : ((2 * y0 / (a + b)) ^ 2 * (yb / y0) = 4 * (y0 * yb) / (a + b) ^ 2)%coqR by field; lra.
by rewrite -e; field; lra.
Qed.
End Fractions.

Section Coatings.
Variables (tm : bool) (w nt th nb : R).
Hypotheses (hw : w <> 0%coqR) (h0 : (0 < nt)%coqR) (h2 : (0 <= th < PI / 2)%coqR).
Let kx := (nt * sin th)%coqR.
Hypothesis hb : (kx * kx < nb * nb)%coqR.

Lemma mirror_end nh dh nl dl N : (kx * kx < nh * nh)%coqR -> (kx * kx < nl * nl)%coqR ->
  quarter_wave w kx nh dh -> quarter_wave w kx nl dl ->
  film_R0 tm w nt th nb (pairs nh dh nl dl N) = mirror_R tm nt nh nl nb kx N /\
  film_T0 tm w nt th nb (pairs nh dh nl dl N) = (1 - mirror_R tm nt nh nl nb kx N)%coqR.
Proof.
move=> hh hl qh ql; rewrite /film_R0 /film_T0 /film_r0 /film_t0 /film_pair -/kx (half_tilted tm hb) (incident_tilted tm h0 h2) -/kx.
have [c hc ->] := pairs_stack tm N (ci * RtoC (tilted tm nb kx)) hw hh hl qh ql.
have y0 : (0 < tilted tm nt kx)%coqR by apply: tilted_gt0; exact: below.
have yb := tilted_gt0 tm hb; have yh := tilted_gt0 tm hh; have yl := tilted_gt0 tm hl.
set y := (tilted tm nl kx / tilted tm nh kx)%coqR; have y1 : (0 < y)%coqR by exact: Rdiv_lt_0_compat.
have hp : (0 < y ^ N)%coqR by exact: pow_lt.
have hpq : (y ^ N * (/ y) ^ N = 1)%coqR by rewrite -Rpow_mult_distr Rinv_r ?pow1 //; lra.
rewrite (frac_R y0 yb hp hpq hc) (frac_T y0 yb hp hpq hc).
suff -> : mirror_R tm nt nh nl nb kx N = (((tilted tm nt kx * y ^ N - tilted tm nb kx * (/ y) ^ N) /
  (tilted tm nt kx * y ^ N + tilted tm nb kx * (/ y) ^ N)) ^ 2)%coqR by [].
have hN := pow_lt _ N yh; have lN := pow_lt _ N yl.
have ey : (y ^ N = tilted tm nl kx ^ N / tilted tm nh kx ^ N)%coqR by rewrite /y /Rdiv Rpow_mult_distr pow_inv.
have ei : ((/ y) ^ N = tilted tm nh kx ^ N / tilted tm nl kx ^ N)%coqR.
  by rewrite pow_inv ey; field; lra.
have sq (x : R) : (x ^ (2 * N) = x ^ N * x ^ N)%coqR.
  by rewrite mul2n -addnn -plusE pow_add.
rewrite ey ei /mirror_R !sq.
move: (tilted tm nt kx) (tilted tm nb kx) (tilted tm nl kx ^ N)%coqR (tilted tm nh kx ^ N)%coqR y0 yb lN hN => a b l h ha hbb hl0 hh0.
have p1 := Rmult_lt_0_compat _ _ ha (Rmult_lt_0_compat _ _ hl0 hl0).
have p2 := Rmult_lt_0_compat _ _ hbb (Rmult_lt_0_compat _ _ hh0 hh0).
have e : ((a * (l / h) - b * (h / l)) / (a * (l / h) + b * (h / l)) = (a * (l * l) - b * (h * h)) / (a * (l * l) + b * (h * h)))%coqR.
  by field; do ?split; lra.
by rewrite e.
Qed.

Lemma coating_end n d : (kx * kx < n * n)%coqR -> quarter_wave w kx n d ->
  (tilted tm n kx * tilted tm n kx = tilted tm nt kx * tilted tm nb kx)%coqR ->
  film_R0 tm w nt th nb [:: glass n d] = 0%coqR /\ film_T0 tm w nt th nb [:: glass n d] = 1%coqR.
Proof.
move=> hn qn e; rewrite /film_R0 /film_T0 /film_r0 /film_t0 /film_pair -/kx (half_tilted tm hb) (incident_tilted tm h0 h2) -/kx.
have y0 : (0 < tilted tm nt kx)%coqR by apply: tilted_gt0; exact: below.
have yb := tilted_gt0 tm hb; have y1 := tilted_gt0 tm hn; rewrite /film_stack /=.
have [c hc ->] := film_quarter tm (1, ci * RtoC (tilted tm nb kx)) hw hn qn.
move: (tilted tm nt kx) (tilted tm n kx) (tilted tm nb kx) y0 y1 yb e => a y b a0 y1 b0 e.
rewrite /film_r /film_t /= mulr1.
have e1 : ci * RtoC a * (RtoC (c / y) * (ci * RtoC b)) = - RtoC (y * c).
  rewrite (_ : ci * RtoC a * (RtoC (c / y) * (ci * RtoC b)) = ci * ci * (RtoC a * RtoC (c / y) * RtoC b)); last by cring.
  rewrite ci2 mulN1r -!RtoC_mul; congr (- RtoC _).
  have -> : (a * (c / y) * b = (a * b) * c / y)%coqR by field; lra.
  by rewrite -e; field; lra.
rewrite e1 subrr mul0r; split; first by cunf; ring.
have yc : (y * c <> 0)%coqR by case: hc => ->; lra.
have cn : (c <> 0)%coqR by case: hc => ->; lra.
have -> : - RtoC (y * c) - RtoC (y * c) = RtoC (- (2 * (y * c))) by rewrite -!RtoC_opp -RtoC_add; congr RtoC; ring.
have -> : ci * RtoC b / (ci * RtoC a) = RtoC (b / a).
  by rewrite -mulf_div divff ?ci_neq0 // mul1r /Rdiv RtoC_mul RtoC_inv //; lra.
have -> : 2%:R * (ci * RtoC a) / RtoC (- (2 * (y * c))) = ci * RtoC (- (a / (y * c))).
  have -> : (- (a / (y * c)) = 2 * a / (- (2 * (y * c))))%coqR by field; lra.
  rewrite /Rdiv [RtoC (_ * / _)]RtoC_mul [RtoC (2 * a)]RtoC_mul RtoC_inv; last lra.
  rewrite (_ : (2%:R : C) = RtoC 2); last by cext.
  move: (RtoC 2) (RtoC a) (RtoC _)^-1 => t u v; cring.
have -> : nrm2 (ci * RtoC (- (a / (y * c)))) = (a * a / (y * y * (c * c)))%coqR by cunf; field; lra.
have -> : (c * c = 1)%coqR by case: hc => ->; ring.
by rewrite Re_RtoC e; field; lra.
Qed.
End Coatings.
