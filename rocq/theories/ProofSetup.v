(** From the object level (attributes of the solver) to the hypotheses of the solver-level theorems. *)
From Coq Require Import Reals Lra Psatz.
From mathcomp Require Import all_ssreflect ssralg matrix mxalgebra.
From Coquelicot Require Import Complex.
From Verif Require Import Cplx Mx Spec ModelTM SpecSolve ProofFlux ProofEnergy1D ProofEnergy2D.

Set Implicit Arguments.
Unset Strict Implicit.
Unset Printing Implicit Defensive.
Local Open Scope ring_scope.
Import GRing.Theory.

Lemma cos_termS a i : cos_term a (S i) =
  (cos_term a i * (- (a * a) / ((2 * INR i + 1) * (2 * INR i + 2))))%coqR.
Proof.
rewrite /cos_term.
have -> : Nat.mul 2 (S i) = S (S (Nat.mul 2 i)) by rewrite /= -!plus_n_Sm.
rewrite !fact_simpl !mult_INR !S_INR mult_INR [INR 2]/=.
have -> : (1 + 1 = 2)%coqR by ring.
have p := pos_INR i; have f := INR_fact_neq_0 (Nat.mul 2 i).
rewrite -!tech_pow_Rmult; field; do ?split => //; lra.
Qed.
Lemma cos_term0 a : cos_term a 0 = 1%coqR.
Proof. by rewrite /cos_term /=; field. Qed.

Lemma cos_pi32_neg : (cos pi32 < 0)%coqR.
Proof.
have h : (- PI / 2 <= pi32)%coqR by rewrite /pi32; have := PI_RGT_0; lra.
case: (Rle_lt_dec pi32 (PI / 2)) => [h2|h2]; last first.
  apply: cos_lt_0; rewrite ?/pi32; last by have := PI2_3_2; rewrite /pi32 in h2 *; lra.
  exact: h2.
have [_] := @cos_bound pi32 2 h h2.
rewrite /cos_approx; have -> : Nat.mul 2 (Nat.add 2 1) = 6%N by [].
cbn [sum_f_R0]; rewrite !cos_termS cos_term0 [INR 0]/= [INR 1]/= !S_INR [INR 0]/= /pi32 => hu.
apply: (Rle_lt_trans _ _ _ hu); lra.
Qed.

Lemma pi32_gt : (PI / 2 < pi32)%coqR.
Proof.
apply: Rnot_le_lt => h; have := cos_pi32_neg.
have : (0 <= cos pi32)%coqR by apply: cos_ge_0 => //; rewrite /pi32; have := PI_RGT_0; lra.
lra.
Qed.

Lemma eigen_eig_ok eig : eigen_oracle eig -> eig_ok eig.
Proof.
move=> h n A; apply/matrixP => i j; rewrite mul_mx_diag mxE.
have := h n A j => /matrixP /(_ i ord0); rewrite !mxE => e.
rewrite mulrC -e; apply: eq_bigr => k _; by rewrite !mxE.
Qed.

Lemma hermitian_herm n (A : 'M[C]_n) : hermitian A -> herm A.
Proof. by move=> h; apply/matrixP => i j; rewrite /adj !mxE -h. Qed.

Lemma half_ff f : ((f.*2.+1) %/ 2)%N = f.
Proof. by rewrite divn2 /= uphalf_double. Qed.

Lemma order_mid f : order f f = 0%coqR.
Proof. by rewrite /order Rminus_diag_eq. Qed.

Lemma sin_theta_phys s th : theta s = RtoC th -> (0 <= th < PI / 2)%coqR -> sin_theta s = RtoC (sin th).
Proof.
move=> hT h; rewrite /sin_theta hT; case: Rle_dec => h1; last exact: csin_real.
by move: h1; rewrite Re_RtoC => h1; have := pi32_gt; lra.
Qed.

Lemma phi_real s : (forall p, phi s = Some p -> is_real p) -> exists f : R, phi_val s = RtoC f.
Proof.
rewrite /phi_val; case: (phi s) => [p|] h; last by exists 0%coqR.
by have [r ->] := h _ erefl; exists r.
Qed.

Lemma kx_phys s w nt th f : n_top s = RtoC nt -> theta s = RtoC th -> (0 <= th < PI / 2)%coqR ->
  phi_val s = RtoC f ->
  kx_vector s w =1 (fun i => RtoC (nt * sin th * cos f + order (fto_x s) i * (w / period_x s))) /\
  ky_vector s w =1 (fun i => RtoC (nt * sin th * sin f + order (fto_y s) i * (w / period_y s))).
Proof.
move=> h1 h2 h3 h4; rewrite /kx_vector /ky_vector h1 (sin_theta_phys h2 h3) h4 ccos_real csin_real.
by split=> i; rewrite -!RtoC_mul -RtoC_add conjR.
Qed.

Lemma layers_of_in n (convs : seq (conv3 n)) ts ls :
  layers_of convs ts = Some ls ->
  forall l, List.In l ls -> List.In (epx l, epy l, epzi l) (take (size ts) convs).
Proof.
elim: ts convs ls => [|t ts IH] [|[[ex ey] ez] cs] ls //=; try by case=> <-.
case e: (layers_of cs ts) => [ls'|] // [<-] l /= [<-|h]; first by left.
by right; apply: (IH _ _ e).
Qed.

Section Energy.
Variable pinv : forall n, 'M[C]_n -> 'M[C]_n.
Variable eig : forall n, 'M[C]_n -> 'rV[C]_n * 'M[C]_n.
Hypothesis heig : eigen_oracle eig.

Lemma energy_solve_1d s w (convs : seq (conv3 (ff_x s))) r T1 infos :
  physical s -> phi s = None ->
  (forall c, List.In c (used s convs) -> lossless_convs c) ->
  solve_1d pinv eig false s w convs = Some (r, T1, infos) ->
  power_conserved r.
Proof.
move=> [[nt h0 h1] [th h2 h3] _ _ _] hphi hl; rewrite /solve_1d.
case e: (layers_of _ _) => [ls|] //.
have hp : phi_val s = RtoC 0 by rewrite /phi_val hphi.
have [kxE _] := kx_phys w h1 h3 h2 hp.
rewrite h1 h3; apply: (energy_rcwa_1d (eigen_eig_ok heig)) => //.
- by move=> i _; rewrite kxE conjR.
- by rewrite /ff_x half_ff kxE order_mid cos_0; congr RtoC; ring.
- move=> l /(layers_of_in e) /hl [h4 h5 h6].
  by split; apply: hermitian_herm.
Qed.

(** Index of the centre of a flattened (ff_y, ff_x) array. *)
Lemma mid_2d a b : let n := (b.*2.+1 * a.*2.+1)%N in
  ((n %/ 2) %% a.*2.+1 = a)%N /\ ((n %/ 2) %/ a.*2.+1 = b)%N.
Proof.
set f := a.*2.+1.
have lt : (a < f)%N by rewrite /f ltnS -addnn leq_addr.
have e : (b.*2.+1 * f = (b * f + a).*2.+1)%N.
  by rewrite mulSn doubleD -doubleMl addnC /f -addnS.
move=> n; rewrite /n e half_ff; split; first by rewrite modnMDl modn_small.
by rewrite divnMDl // divn_small // addn0.
Qed.

Lemma sc2 f : (cos f * cos f + sin f * sin f = 1)%coqR.
Proof. by have := sin2_cos2 f; rewrite /Rsqr; lra. Qed.

Lemma tiled_phys s w nt th f : n_top s = RtoC nt -> theta s = RtoC th -> (0 <= th < PI / 2)%coqR ->
  phi_val s = RtoC f ->
  let n := (ff_y s * ff_x s)%N in
  [/\ real_vec n (kx_tiled s w), real_vec n (ky_tiled s w) &
   kx_tiled s w (n %/ 2)%N ^+ 2 + ky_tiled s w (n %/ 2)%N ^+ 2 = RtoC (nt * sin th) ^+ 2].
Proof.
move=> h1 h2 h3 h4 n; have [kxE kyE] := kx_phys w h1 h2 h3 h4.
rewrite /kx_tiled /ky_tiled /tile_x /tile_y; split.
- by move=> i _; rewrite kxE conjR.
- by move=> i _; rewrite kyE conjR.
have [-> ->] := mid_2d (fto_x s) (fto_y s).
rewrite kxE kyE !order_mid !expr2 -!RtoC_mul -RtoC_add; congr RtoC.
rewrite !Rmult_0_l !Rplus_0_r.
transitivity (nt * sin th * (nt * sin th) * (cos f * cos f + sin f * sin f))%coqR; first ring.
by rewrite sc2 Rmult_1_r.
Qed.

Lemma energy_solve_2d s w (convs : seq (conv3 (ff_y s * ff_x s))) r infos :
  physical s -> is_real (psi s) ->
  (forall c, List.In c (used s convs) -> lossless_convs c) ->
  solve_2d pinv eig false s w convs = Some (r, infos) ->
  power_conserved3 r.
Proof.
move=> [[nt h0 h1] [th h2 h3] hp _ _] [ps hps] hl; rewrite /solve_2d.
case e: (layers_of _ _) => [ls|] //.
have [f hf] := phi_real hp; have [rx ry hc] := tiled_phys w h1 h3 h2 hf.
rewrite h1 h3 hps; apply: (energy_rcwa_2d (eigen_eig_ok heig)) => //.
by move=> l /(layers_of_in e) /hl [h4 h5 h6]; split; apply: hermitian_herm.
Qed.

Lemma energy_solve_conical s w (convs : seq (conv3 (ff_y s * ff_x s))) r infos :
  physical s -> is_real (psi s) ->
  (forall c, List.In c (used s convs) -> lossless_convs c /\ line_convs c) ->
  solve_1d_conical pinv eig false s w convs = Some (r, infos) ->
  power_conserved3 r.
Proof.
move=> [[nt h0 h1] [th h2 h3] hp _ _] [ps hps] hl; rewrite /solve_1d_conical.
case: eqP => // hy; case e: (layers_of _ _) => [ls|] //.
have [f hf] := phi_real hp; have [rx ry hc] := tiled_phys w h1 h3 h2 hf.
rewrite h1 h3 hps; apply: (energy_rcwa_conical (eigen_eig_ok heig) (ky0 := ky_vector s w 0%N)) => //.
- move=> i; rewrite /ky_tiled /tile_y {1}/ff_y hy mul1n => lt.
  by rewrite divn_small.
- by move=> l /(layers_of_in e) /hl [[h4 h5 h6] h7]; split => //; split; apply: hermitian_herm.
Qed.

End Energy.
