(** The efficiencies of the classical mount in the theory of films; mirrors of many pairs. *)
From Coq Require Import Reals ZArith Lra Lia Psatz.
From mathcomp Require Import all_ssreflect ssralg matrix.
From Coquelicot Require Import Complex.
From Verif Require Import Cplx Mx ModelTM Spec SpecSolve SpecFilm SpecFilm2D SpecCoat ProofSetup ProofEnergy1D ProofEff ProofFilm ProofFilmSolve ProofSubstrate
  ProofNormal ProofCoat ProofCoat2.

Set Implicit Arguments.
Unset Strict Implicit.
Unset Printing Implicit Defensive.
Local Open Scope ring_scope.
Import GRing.Theory.

Lemma mirror_limit tm nt nh nl nb kx : (kx * kx < nt * nt)%coqR -> (kx * kx < nb * nb)%coqR -> (kx * kx < nh * nh)%coqR ->
  (kx * kx < nl * nl)%coqR -> (tilted tm nl kx < tilted tm nh kx)%coqR ->
  forall eps, (0 < eps)%coqR -> exists N0, forall N, (N0 <= N)%N -> (1 - eps < mirror_R tm nt nh nl nb kx N)%coqR.
Proof.
move=> ht hb hh hl hlt eps he.
have t0 := tilted_gt0 tm ht; have b0 := tilted_gt0 tm hb; have h0 := tilted_gt0 tm hh; have l0 := tilted_gt0 tm hl.
rewrite /mirror_R; move: (tilted tm nt kx) (tilted tm nb kx) (tilted tm nh kx) (tilted tm nl kx) t0 b0 h0 l0 hlt => t b h l t0 b0 h0 l0 hlt.
have q0 : (0 < l / h)%coqR by exact: Rdiv_lt_0_compat.
have q1 : (l / h < 1)%coqR by apply: (Rmult_lt_reg_r h) => //; rewrite /Rdiv Rmult_assoc Rinv_l; lra.
have d0 : (0 < eps * b / (4 * t))%coqR by apply: Rdiv_lt_0_compat; [exact: Rmult_lt_0_compat|lra].
have [|N0 hN] := pow_lt_1_zero (l / h) _ (eps * b / (4 * t)) d0; first by rewrite Rabs_pos_eq; lra.
exists N0 => N hle; have := hN (2 * N)%N; rewrite Rabs_pos_eq; last by apply: pow_le; lra.
have hle2 : (2 * N >= N0)%coq_nat by apply/leP; rewrite mul2n -addnn; apply: leq_trans hle (leq_addr _ _).
move/(_ hle2); have L0 := pow_lt _ (2 * N)%N l0; have H0 := pow_lt _ (2 * N)%N h0.
have -> : ((l / h) ^ (2 * N)%N = l ^ (2 * N)%N / h ^ (2 * N)%N)%coqR by rewrite /Rdiv Rpow_mult_distr pow_inv.
move: (l ^ (2 * N)%N)%coqR (h ^ (2 * N)%N)%coqR L0 H0 => L H L0 H0 hlim.
have p1 := Rmult_lt_0_compat _ _ t0 L0; have p2 := Rmult_lt_0_compat _ _ b0 H0.
have k : (4 * (t * L) < eps * (b * H))%coqR.
  have := Rmult_lt_compat_r _ _ _ (Rmult_lt_0_compat _ _ (Rmult_lt_0_compat 4 _ ltac:(lra) t0) H0) hlim.
  have -> : (L / H * (4 * t * H) = 4 * (t * L))%coqR by field; lra.
  by have -> : (eps * b / (4 * t) * (4 * t * H) = eps * (b * H))%coqR by field; lra.
move: (t * L)%coqR (b * H)%coqR p1 p2 k => x y x0 y0 k.
have -> : (((x - y) / (x + y)) ^ 2 = 1 - 4 * (x * y) / ((x + y) * (x + y)))%coqR by field; lra.
have s0 : (0 < (x + y) * (x + y))%coqR by apply: Rmult_lt_0_compat; lra.
suff : (4 * (x * y) / ((x + y) * (x + y)) < eps)%coqR by lra.
apply: (Rmult_lt_reg_r ((x + y) * (x + y))) => //; rewrite /Rdiv Rmult_assoc Rinv_l; last lra.
have xy := Rmult_lt_0_compat _ _ x0 y0; have ex := Rmult_lt_0_compat _ _ he x0; have exx := Rmult_lt_0_compat _ _ ex x0.
have exy := Rmult_lt_0_compat _ _ ex y0; have ky := Rmult_lt_compat_r _ _ _ y0 k; lra.
Qed.

Section Classical.
Variable pinv : forall n, 'M[C]_n -> 'M[C]_n.
Variable eig : forall n, 'M[C]_n -> 'rV[C]_n * 'M[C]_n.
Hypothesis heig : eigen_oracle eig.

Lemma film_eff_1d s w films r T1 infos (nt th nb : R) :
  n_top s = RtoC nt -> (0 < nt)%coqR -> theta s = RtoC th -> (0 <= th < PI / 2)%coqR -> phi s = None ->
  n_bot s = RtoC nb -> nb <> 0%coqR -> thickness s = map snd films ->
  solve_1d pinv eig false s w (map (fun ed => uniform_convs (ff_x s) ed.1) films) = Some (r, T1, infos) ->
  forall i : 'I_(ff_x s), let tm := is_tm (pol s) in
  de_ri r i = (if (i : nat) == fto_x s then film_R0 tm w nt th nb films else 0)%coqR /\
  de_ti r i = (if (i : nat) == fto_x s then film_T0 tm w nt th nb films else 0)%coqR.
Proof.
move=> h1 h0 h3 h2 hphi hb b0 ht hs i tm.
have [_ _ _ dn hc] := film_amplitudes heig h1 h0 h3 h2 hphi hb ht hs.
have hn := film_no_diffraction heig ht hs.
have [-> ->] := eff_amp h1 h0 h3 h2 hs i.
rewrite -/tm in hc *.
case: eqP => hi; last first.
  have [h11 h12 h13 h14] := hn i hi; rewrite /co_R /co_T.
  by case: (tm); rewrite ?h11 ?h12 ?h13 ?h14; split; cunf; ring.
have [-> ->] := hc i hi.
have c0 := cos_pos_below h2; have kc := Rmult_lt_0_compat _ _ h0 c0.
have kxi : kx_vector s w i = RtoC (nt * sin th) by exact: (kx_mid w h1 h3 h2 hphi hi).
have -> : kz_1d (n_top s) (kx_vector s w) i = RtoC (nt * cos th) by rewrite /kz_1d kxi h1 (kz_center h0 h2).
have -> : kz_1d (n_bot s) (kx_vector s w) i = kz_lossless nb (nt * sin th) by rewrite /kz_1d kxi hb kz_losslessE.
rewrite /film_R0 /film_T0 /film_r0 /film_t0 /film_pair; split.
  have -> : (Re (RtoC (nt * cos th)) / (nt * cos th) = 1)%coqR by rewrite Re_RtoC; field; lra.
  by rewrite Rmult_1_r.
rewrite hb Re_div_sq //; congr (_ * _)%coqR.
rewrite /half_space; move: (kz_lossless nb (nt * sin th)) => z.
rewrite /incident_y /admittance; case: (tm).
  have -> : ci * z / RtoC (nb * nb) / (ci * RtoC (cos th / nt)) = z / RtoC (nb * nb * (cos th / nt)).
    by rewrite -[ci * z / _]mulrA -mulf_div divff ?ci_neq0 // mul1r -mulrA -invfM -RtoC_mul.
  by rewrite Re_divR //; [by field; lra|apply: Rmult_integral_contrapositive_currified; [exact: Rmult_integral_contrapositive_currified|have := Rdiv_lt_0_compat _ _ c0 h0; lra]].
have -> : ci * z / (ci * RtoC (nt * cos th)) = z / RtoC (nt * cos th) by rewrite -mulf_div divff ?ci_neq0 // mul1r.
by rewrite Re_divR //; lra.
Qed.
End Classical.
