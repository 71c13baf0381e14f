(** Half-wave and quarter-wave layers in the theory of films. *)
From Coq Require Import Reals ZArith Lra Psatz.
From mathcomp Require Import all_ssreflect ssralg.
From Coquelicot Require Import Complex.
From Verif Require Import Cplx SpecFilm SpecFilm2D SpecCoat ProofEnergy1D ProofEff ProofFilm ProofSubstrate.

Set Implicit Arguments.
Unset Strict Implicit.
Unset Printing Implicit Defensive.
Local Open Scope ring_scope.
Import GRing.Theory.

Lemma cexp_i (x : R) : cexp (ci * RtoC x) = RtoC (cos x) + ci * RtoC (sin x).
Proof.
have h : Re (ci * RtoC x) = 0%coqR /\ Im (ci * RtoC x) = x by split; cunf; ring.
by rewrite /cexp (proj1 h) (proj2 h) exp_0; apply: injective_projections; cunf; ring.
Qed.
Lemma half_twice (z : C) : (z + z) / 2%:R = z.
Proof. by rewrite -[z in z + z]mulr1 -mulrDr -[1 + 1]/(2%:R) mulfK // Ctwo_neq0. Qed.
Lemma ccosh_i (x : R) : ccosh (ci * RtoC x) = RtoC (cos x).
Proof.
by rewrite /ccosh -mulrN -RtoC_opp !cexp_i cos_neg sin_neg RtoC_opp mulrN addrACA subrr addr0 half_twice.
Qed.
Lemma csinh_i (x : R) : csinh (ci * RtoC x) = ci * RtoC (sin x).
Proof.
by rewrite /csinh -mulrN -RtoC_opp !cexp_i cos_neg sin_neg RtoC_opp mulrN opprD opprK addrACA subrr add0r half_twice.
Qed.

Lemma normal_k_gt0 n kx : (kx * kx < n * n)%coqR -> (0 < normal_k n kx)%coqR.
Proof. by move=> h; apply: sqrt_lt_R0; lra. Qed.
Lemma tilted_gt0 tm n kx : (kx * kx < n * n)%coqR -> (0 < tilted tm n kx)%coqR.
Proof. by move=> h; have h1 := normal_k_gt0 h; case: tm => //=; apply: Rdiv_lt_0_compat => //; nra. Qed.

(** A transparent film, in real numbers. *)
Lemma film_glass tm k0 kx n d EH : (kx * kx < n * n)%coqR -> let x := (k0 * normal_k n kx * d)%coqR in let y := tilted tm n kx in
  film tm k0 (RtoC kx) (glass n d) EH = (RtoC (cos x) * EH.1 + RtoC (sin x / y) * EH.2, - RtoC (y * sin x) * EH.1 + RtoC (cos x) * EH.2).
Proof.
move=> h x y; rewrite /film /glass /=.
have -> : csqrt (RtoC kx ^+ 2 - RtoC (n * n)) = ci * RtoC (normal_k n kx).
  rewrite expr2 -RtoC_mul -RtoC_sub csqrt_neg; last lra.
  by rewrite /normal_k; congr (_ * RtoC (sqrt _)); ring.
have -> : admittance tm (RtoC (n * n)) (ci * RtoC (normal_k n kx)) = ci * RtoC y.
  rewrite /y /admittance /tilted; case: (tm) => //; rewrite /Rdiv [RtoC (_ * / _)]RtoC_mul RtoC_inv ?mulrA //; nra.
have -> : RtoC k0 * (ci * RtoC (normal_k n kx)) * RtoC d = ci * RtoC x by rewrite /x !RtoC_mul; cring.
rewrite /film_matrix ccosh_i csinh_i.
have yp : y <> 0%coqR by have := tilted_gt0 tm h; rewrite -/y; lra.
have y0 : RtoC y != 0 by exact: RtoC_neq0.
congr (_ * _ + _ * _, _).
  have ci0 : ci != 0 by apply/eqP => /(congr1 Im); rewrite /Im /=; lra.
  by rewrite /Rdiv RtoC_mul (RtoC_inv yp) -mulf_div divff ?mul1r.
by rewrite mulrACA ci2 mulN1r RtoC_mul.
Qed.

Lemma sin_Zpi (m : Z) : sin (IZR m * PI) = 0%coqR.
Proof. by apply: sin_eq_0_1; exists m. Qed.
Lemma sq_one (x : R) : (x * x = 1 -> x = 1 \/ x = -1)%coqR.
Proof.
move=> h; have e : ((x - 1) * (x + 1) = x * x - 1)%coqR by ring.
have {}e : ((x - 1) * (x + 1) = 0)%coqR by rewrite e h; ring.
by case: (Rmult_integral _ _ e); lra.
Qed.

Definition sign (c : R) : Prop := (c = 1 \/ c = -1)%coqR.
Definition scale (c : R) (EH : C * C) : C * C := (RtoC c * EH.1, RtoC c * EH.2).

Lemma half_phase w kx n d : w <> 0%coqR -> half_wave w kx n d -> let x := (2 * PI / w * normal_k n kx * d)%coqR in
  sin x = 0%coqR /\ sign (cos x).
Proof.
move=> hw [m e] x; have -> : x = (IZR m * PI)%coqR.
  have -> : x = (PI / w * (2 * normal_k n kx * d))%coqR by rewrite /x; field.
  by rewrite e; field.
have s0 := sin_Zpi m; split=> //; apply: sq_one; have := sin2_cos2 (IZR m * PI); rewrite /Rsqr s0; lra.
Qed.
Lemma quarter_phase w kx n d : w <> 0%coqR -> quarter_wave w kx n d -> let x := (2 * PI / w * normal_k n kx * d)%coqR in
  cos x = 0%coqR /\ sign (sin x).
Proof.
move=> hw [m e] x; have -> : x = (IZR m * PI + PI / 2)%coqR.
  have -> : x = (PI / (2 * w) * (4 * normal_k n kx * d))%coqR by rewrite /x; field.
  by rewrite e; field.
have c0 : cos (IZR m * PI + PI / 2) = 0%coqR by rewrite cos_plus cos_PI2 sin_Zpi; ring.
split=> //; apply: sq_one; have := sin2_cos2 (IZR m * PI + PI / 2); rewrite /Rsqr c0; lra.
Qed.

(** ** Half-wave layers *)
Lemma film_scale tm k0 kx ed c EH : film tm k0 kx ed (scale c EH) = scale c (film tm k0 kx ed EH).
Proof. by rewrite /film /film_matrix /scale /=; congr (_, _); cring. Qed.
Lemma stack_scale tm k0 kx films c EH : foldr (film tm k0 kx) (scale c EH) films = scale c (foldr (film tm k0 kx) EH films).
Proof. by elim: films => //= ed fs ->; exact: film_scale. Qed.
Lemma film_half tm w kx n d EH : w <> 0%coqR -> (kx * kx < n * n)%coqR -> half_wave w kx n d ->
  exists2 c, sign c & film tm (2 * PI / w) (RtoC kx) (glass n d) EH = scale c EH.
Proof.
move=> hw hn hh; have [s0 c1] := half_phase hw hh.
exists (cos (2 * PI / w * normal_k n kx * d)) => //; rewrite film_glass // s0 /scale /Rdiv Rmult_0_l Rmult_0_r.
by congr (_, _); cring.
Qed.
Lemma pair_half tm w nt th nb f1 n d f2 : w <> 0%coqR -> (nt * sin th * (nt * sin th) < n * n)%coqR -> half_wave w (nt * sin th) n d ->
  exists2 c, sign c & film_pair tm w nt th nb (f1 ++ glass n d :: f2) = scale c (film_pair tm w nt th nb (f1 ++ f2)).
Proof.
move=> hw hn hh; rewrite /film_pair /film_stack !foldr_cat /=.
have [c hc ->] := film_half tm (foldr (film tm (2 * PI / w) (RtoC (nt * sin th))) (1, half_space tm nb (nt * sin th)) f2) hw hn hh.
by exists c => //; exact: stack_scale.
Qed.
Lemma r_scale y c EH : sign c -> film_r y (scale c EH) = film_r y EH.
Proof. by case=> ->; rewrite /film_r /scale /= ?RtoC_opp ?mul1r // !mulN1r mulrN -!opprD invrN mulrNN. Qed.
Lemma nrm2_opp (z : C) : nrm2 (- z) = nrm2 z.
Proof. by cunf; ring. Qed.
Lemma t_scale y c EH : sign c -> nrm2 (film_t y (scale c EH)) = nrm2 (film_t y EH).
Proof.
by case=> ->; rewrite /film_t /scale /= ?RtoC_opp ?mul1r // !mulN1r mulrN -!opprD invrN mulrN nrm2_opp.
Qed.
Lemma half_absent tm w nt th nb f1 n d f2 : w <> 0%coqR -> (nt * sin th * (nt * sin th) < n * n)%coqR -> half_wave w (nt * sin th) n d ->
  [/\ film_r0 tm w nt th nb (f1 ++ glass n d :: f2) = film_r0 tm w nt th nb (f1 ++ f2),
      film_R0 tm w nt th nb (f1 ++ glass n d :: f2) = film_R0 tm w nt th nb (f1 ++ f2)
    & film_T0 tm w nt th nb (f1 ++ glass n d :: f2) = film_T0 tm w nt th nb (f1 ++ f2)].
Proof.
move=> hw hn hh; have [c hc e] := pair_half tm nb f1 f2 hw hn hh.
by rewrite /film_R0 /film_T0 /film_r0 /film_t0 e (r_scale _ _ hc) (t_scale _ _ hc).
Qed.

(** ** Quarter-wave layers *)
Lemma film_quarter tm w kx n d EH : w <> 0%coqR -> (kx * kx < n * n)%coqR -> quarter_wave w kx n d ->
  exists2 c, sign c & film tm (2 * PI / w) (RtoC kx) (glass n d) EH = (RtoC (c / tilted tm n kx) * EH.2, - RtoC (tilted tm n kx * c) * EH.1).
Proof.
move=> hw hn hh; have [c0 s1] := quarter_phase hw hh.
exists (sin (2 * PI / w * normal_k n kx * d)) => //; rewrite film_glass // c0.
by congr (_, _); cring.
Qed.
Lemma sign_mul c d : sign c -> sign d -> sign (- (c * d))%coqR.
Proof. by rewrite /sign; case=> ->; case=> ->; lra. Qed.
Lemma pow_pos (a : R) m : (0 < a -> 0 < a ^ m)%coqR.
Proof. exact: pow_lt. Qed.

Lemma pairs_stack tm w kx nh dh nl dl N yb : w <> 0%coqR -> (kx * kx < nh * nh)%coqR -> (kx * kx < nl * nl)%coqR ->
  quarter_wave w kx nh dh -> quarter_wave w kx nl dl -> let a := (tilted tm nl kx / tilted tm nh kx)%coqR in
  exists2 c, sign c & film_stack tm (2 * PI / w) (RtoC kx) (pairs nh dh nl dl N) yb = scale c (RtoC (a ^ N), RtoC ((/ a) ^ N) * yb).
Proof.
move=> hw hh hl qh ql a; have h0 := tilted_gt0 tm hh; have l0 := tilted_gt0 tm hl.
elim: N => [|N [c hc IH]].
  exists 1%coqR; first by left.
  by rewrite /film_stack /scale /= !mul1r.
rewrite /film_stack /pairs /= -/(pairs _ _ _ _ _) -/(film_stack tm (2 * PI / w) (RtoC kx) (pairs nh dh nl dl N) yb) IH.
have [d hd e] := film_quarter tm (scale c (RtoC (a ^ N), RtoC ((/ a) ^ N) * yb)) hw hl ql; rewrite e.
have [g hg e'] := film_quarter tm (RtoC (d / tilted tm nl kx) * (scale c (RtoC (a ^ N), RtoC ((/ a) ^ N) * yb)).2,
  - RtoC (tilted tm nl kx * d) * (scale c (RtoC (a ^ N), RtoC ((/ a) ^ N) * yb)).1) hw hh qh; rewrite e' {e e'}.
exists (- (g * - (d * - c) ))%coqR.
  by apply: sign_mul => //; apply: sign_mul => //; case: hc => ->; rewrite /sign; lra.
rewrite /scale /=; congr (_, _).
  rewrite -!RtoC_mul mulNr mulrN -!RtoC_mul -RtoC_opp; congr RtoC; rewrite /a; field; lra.
have key (x1 x2 x3 x4 x5 x6 : R) : (- (x1 * x2 * x3 * x4) = x5 * x6)%coqR ->
    - RtoC x1 * (RtoC x2 * (RtoC x3 * (RtoC x4 * yb))) = RtoC x5 * (RtoC x6 * yb).
  move=> h; rewrite [RHS]mulrA -RtoC_mul -h RtoC_opp !RtoC_mul; cring.
apply: key; rewrite /a; field; lra.
Qed.
