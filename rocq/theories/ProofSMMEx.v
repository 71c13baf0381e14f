(** Concrete scattering matrices and a concrete film. *)
From Coq Require Import Reals Lra Psatz.
From mathcomp Require Import all_ssreflect ssralg matrix mxalgebra.
From Coquelicot Require Import Complex.
From Verif Require Import Cplx Mx Spec SpecSolve SpecField ModelTM ModelSMM SpecSMM ProofSMM ProofSMM2 ProofSMM3 ProofSetup ProofNormal.

Set Implicit Arguments.
Unset Strict Implicit.
Unset Printing Implicit Defensive.
Local Open Scope ring_scope.
Import GRing.Theory.

Lemma scalar_unit n (a : C) : a != 0 -> (a%:M : 'M[C]_n) \in unitmx.
Proof. by move=> a0; case: n => [|n]; rewrite ?unitmxE ?det_mx00 ?unitr1 // det_scalar unitfE expf_neq0. Qed.
Lemma scalar_inv n (a : C) : a != 0 -> invmx (a%:M : 'M[C]_n) = (a^-1)%:M.
Proof. by move=> a0; rewrite invmx_scalar. Qed.
Lemma np_inv_scalar n (a : C) : a != 0 -> np_inv (a%:M : 'M[C]_n) = Some (a^-1)%:M.
Proof. by move=> a0; rewrite /np_inv scalar_unit // scalar_inv. Qed.

Definition sc n (a b c d : C) : smat n := Smat a%:M b%:M c%:M d%:M.
Lemma star_sc n (a b c d a' b' c' d' : C) : 1 - a' * d != 0 ->
  star (sc n a b c d) (sc n a' b' c' d') =
  Some (sc n (a + b * (1 - a' * d)^-1 * a' * c) (b * (1 - a' * d)^-1 * b') (c' * (1 - a' * d)^-1 * c) (d' + c' * (1 - a' * d)^-1 * d * b')).
Proof.
move=> h; rewrite starE /=.
have -> : 1%:M - a'%:M *m d%:M = (1 - a' * d)%:M :> 'M[C]_n by rewrite -scalar_mxM raddfB.
have -> : 1%:M - d%:M *m a'%:M = (1 - a' * d)%:M :> 'M[C]_n by rewrite -scalar_mxM raddfB /= (mulrC d).
by rewrite scalar_unit // scalar_inv // /sc -!scalar_mxM -!raddfD.
Qed.

Definition k (x y : R) : C := (x, y).
Ltac kc := rewrite /k; cext; try (field; lra); try lra.
Lemma k_neq0 x y : (x <> 0)%coqR \/ (y <> 0)%coqR -> k x y != 0.
Proof. by move=> h; apply/eqP => -[e1 e2]; case: h. Qed.
Lemma np_inv_by n (a b : C) : a * b = 1 -> np_inv (a%:M : 'M[C]_n) = Some b%:M.
Proof.
move=> e; have a0 : a != 0 by apply/eqP => a0; move: e; rewrite a0 mul0r => /(congr1 fst) /= h; change (0%coqR = 1%coqR) in h; lra.
by rewrite np_inv_scalar //; congr (Some _%:M); apply: (mulfI a0); rewrite e mulfV.
Qed.

Lemma scB n (a b : C) : (a%:M : 'M[C]_n) - b%:M = (a - b)%:M. Proof. by rewrite raddfB. Qed.
Lemma scN n (a : C) : - (a%:M : 'M[C]_n) = (- a)%:M. Proof. by rewrite raddfN. Qed.

(** A partial mirror. *)
Definition mirror n : smat n := sc n (k (1/2) 0) 1 1 (k (1/2) 0).
Lemma star_by n (a b c d a' b' c' d' x a2 b2 c2 d2 : C) : (1 - a' * d) * x = 1 ->
  a2 = a + b * x * a' * c -> b2 = b * x * b' -> c2 = c' * x * c -> d2 = d' + c' * x * d * b' ->
  star (sc n a b c d) (sc n a' b' c' d') = Some (sc n a2 b2 c2 d2).
Proof.
move=> e -> -> -> ->; have a0 : 1 - a' * d != 0 by apply/eqP => a0; move: e; rewrite a0 mul0r => /(congr1 fst) /= h; change (0%coqR = 1%coqR) in h; lra.
by rewrite star_sc //; have -> : x = (1 - a' * d)^-1 by apply: (mulfI a0); rewrite e mulfV.
Qed.
Lemma mirror2 n : star (mirror n) (mirror n) = Some (sc n (k (7/6) 0) (k (4/3) 0) (k (4/3) 0) (k (7/6) 0)).
Proof. by apply: (@star_by _ _ _ _ _ _ _ _ _ (k (4/3) 0)); kc. Qed.
Lemma mirror3 n : star (sc n (k (7/6) 0) (k (4/3) 0) (k (4/3) 0) (k (7/6) 0)) (mirror n) =
  Some (sc n (k (33/10) 0) (k (16/5) 0) (k (16/5) 0) (k (33/10) 0)).
Proof. by apply: (@star_by _ _ _ _ _ _ _ _ _ (k (12/5) 0)); kc. Qed.

(** A quarter-wave film of permittivity 4 between media of index 1 and 2. *)
Definition film n : slab n := (1%:M, (k 0 2)%:M, const_mx (k 0 2), (1/8)%coqR).
Lemma film_X n : smm_X (1/8) (2 * PI) (const_mx (k 0 2) : 'rV[C]_n) = (k 0 (-1))%:M.
Proof.
rewrite /smm_X -diag_const_mx; congr diag_mx; apply/rowP => j; rewrite !mxE.
have -> : - k 0 2 * RtoC (1/8) * RtoC (2 * PI) = k 0 (- (PI / 2)) by kc.
rewrite /cexp /k /= exp_0 cos_neg sin_neg cos_PI2 sin_PI2; congr pair; ring.
Qed.
Lemma film_top n : ab_half ((k 0 1)%:M : 'M[C]_n) (k 0 1)%:M = Some ((k 2 0)%:M, (k 0 0)%:M).
Proof.
rewrite /ab_half (@np_inv_by _ _ (k 0 (-1))); last by kc.
by rewrite -scalar_mxM -raddfD -raddfB; congr (Some (_%:M, _%:M)); kc.
Qed.
Lemma film_bottom n : ab_half ((k 0 2)%:M : 'M[C]_n) (k 0 1)%:M = Some ((k 3 0)%:M, (k (-1) 0)%:M).
Proof.
rewrite /ab_half (@np_inv_by _ _ (k 0 (-1))); last by kc.
by rewrite -scalar_mxM -raddfD -raddfB; congr (Some (_%:M, _%:M)); kc.
Qed.
Lemma film_ab n : ab (1%:M : 'M[C]_n) 1%:M (k 0 2)%:M (k 0 1)%:M = Some ((k (3/2) 0)%:M, (k (1/2) 0)%:M).
Proof.
rewrite /ab (@np_inv_by _ 1 1) ?mulr1 // (@np_inv_by _ _ (k 0 (-1/2))); last by kc.
by rewrite -!scalar_mxM -raddfD -raddfB; congr (Some (_%:M, _%:M)); kc.
Qed.
Lemma film_layer n : s_layer ((k (3/2) 0)%:M : 'M[C]_n) (k (1/2) 0)%:M (1/8) (2 * PI) (const_mx (k 0 2)) =
  Some (sc n (k (-3/5) 0) (k 0 (-4/5)) (k 0 (-4/5)) (k (-3/5) 0)).
Proof.
rewrite /s_layer film_X (@np_inv_by _ _ (k (2/3) 0)); last by kc.
rewrite -!scalar_mxM !scB (@np_inv_by _ _ (k (3/5) 0)); last by kc.
by rewrite -!scalar_mxM; congr (Some (Smat _%:M _%:M _%:M _%:M)); kc.
Qed.
Lemma film_rt n ref : s_rt ((k 2 0)%:M : 'M[C]_n) (k 0 0)%:M ref = Some (identity_smat n).
Proof.
rewrite /s_rt (@np_inv_by _ _ (k (1/2) 0)); last by kc.
rewrite !scN -!scalar_mxM !scB !scale_scalar_mx.
have -> : identity_smat n = sc n 0 1 1 0 by rewrite /identity_smat /sc raddf0.
by case: ref; congr (Some (Smat _%:M _%:M _%:M _%:M)); kc.
Qed.
Lemma film_rt2 n : s_rt ((k 3 0)%:M : 'M[C]_n) (k (-1) 0)%:M false = Some (sc n (k (-1/3) 0) (k (4/3) 0) (k (2/3) 0) (k (1/3) 0)).
Proof.
rewrite /s_rt (@np_inv_by _ _ (k (1/3) 0)); last by kc.
rewrite !scN -!scalar_mxM !scB !scale_scalar_mx.
by congr (Some (Smat _%:M _%:M _%:M _%:M)); kc.
Qed.
Lemma film_device n : device (2 * PI) 1%:M (k 0 1)%:M (k 0 1)%:M (k 0 2)%:M [:: film n] =
  Some (sc n (k (-1/3) 0) (k 0 (-4/3)) (k 0 (-2/3)) (k (-1/3) 0)).
Proof.
rewrite /device film_top film_rt /= film_ab film_layer star_id_l film_bottom film_rt2.
by apply: (@star_by _ _ _ _ _ _ _ _ _ (k (5/4) 0)); kc.
Qed.

Definition eig1 n (A : 'M[C]_n) : 'rV[C]_n * 'M[C]_n := (\row_i A i i, 1%:M).
Definition s_film : setup := Setup 1 (RtoC 2) 0 None 0 0 0 0 1 1 [:: (1/8)%coqR].
Definition film_convs : seq (conv3 1) := [:: ((k 4 0)%:M, (k 4 0)%:M, (k (1/4) 0)%:M)].

Lemma film_physical : physical s_film.
Proof.
split=> //=; try lra; first by exists 1%coqR; [lra|].
exists 0%coqR => //; have := PI_RGT_0; lra.
Qed.
Lemma film_kx w : kx_vector s_film w 0 = 0.
Proof.
have [[nt h1 e1] [th h2 e2] _ _ _] := film_physical.
have th0 : th = 0%coqR by move: (congr1 fst e2).
by rewrite (kx_mid w e1 e2 h2) // th0 sin_0 Rmult_0_r.
Qed.
Lemma diagf_1 (f : nat -> C) : diagf 1 f = (f 0%N)%:M.
Proof. by apply/matrixP => i j; rewrite diagfE mxE !ord1. Qed.

Lemma sqrt4 : sqrt 4 = 2%coqR.
Proof. by rewrite -[4%coqR]/((2 * 2)%coqR) sqrt_square; lra. Qed.
Lemma kz_film (nn : R) : (0 <= nn)%coqR -> conj (csqrt (RtoC nn ^+ 2 - 0 ^+ 2)) = RtoC nn.
Proof.
move=> h; rewrite expr0n subr0 expr2 -RtoC_mul csqrt_nonneg; last by nra.
by rewrite sqrt_square // conjR.
Qed.

Lemma meeinv_by pinv n (a b : C) : a * b = 1 -> meeinv pinv false (a%:M : 'M[C]_n) = Some b%:M.
Proof. by move=> e; have := np_inv_by n e; rewrite /np_inv /meeinv. Qed.

Lemma film_q : sqrtv (\row_i ((kx_vector s_film 1 0 * kx_vector s_film 1 0)%:M - (k 4 0)%:M : 'M[C]_1) i i) = const_mx (k 0 2).
Proof.
apply/rowP => j; rewrite !mxE film_kx ord1 /= mul0r !mulr1n.
have -> : 0 - k 4 0 = RtoC (-4) by kc.
rewrite csqrt_neg; last lra.
by rewrite Ropp_involutive sqrt4; kc.
Qed.

Lemma film_solve pinv : exists r T1 infos,
  solve_1d pinv eig1 false s_film 1 film_convs = Some (r, T1, infos) /\ map (@slab_of 1) (rev infos) = [:: film 1].
Proof.
have r0 : reqb 0 0 by rewrite /reqb; case: Req_EM_T.
rewrite /solve_1d /= /rcwa_1d /transfer_1d_1 /= r0 /= /transfer_1d_2 r0 /transfer_1d_3 /=.
rewrite -[ff_x s_film]/1%N !diagf_1 -scalar_mxM film_q /layer_update diag_const_mx mul1mx.
rewrite (@meeinv_by _ _ 1 1) ?mulr1 // (@meeinv_by _ _ (k 0 2) (k 0 (-1/2))); last by kc.
have e2 : kz_1d (RtoC 2) (kx_vector s_film 1) 0 = RtoC 2 by rewrite /kz_1d film_kx kz_film //; lra.
have e1 : kz_1d 1 (kx_vector s_film 1) 0 = 1 by rewrite /kz_1d film_kx (kz_film Rle_0_1).
rewrite e2 scale_scalar_mx mul1mx -!scalar_mxM -raddfD -raddfB /= !scale_scalar_mx.
rewrite (@meeinv_by _ _ _ 1); last by rewrite /half; kc.
have -> : half * (1 - k 0 (-1/2) * (ci * RtoC 2)) = 0 :> C by rewrite /half; kc.
rewrite raddf0 !mulmx0 !mul0mx addr0 subr0 !mulmx1 /transfer_1d_4 r0 diagf_1 e1 mulmx1 scale_scalar_mx -raddfD /=.
rewrite (@meeinv_by _ _ _ (k 0 (-1/3))); last by kc.
by do 3!eexists; split; first reflexivity.
Qed.

Lemma film_smm : exists Rv Tv a b,
  smm_1d 0 (kx_vector s_film 1) (k0_of 1) 0 1 (RtoC 2) [:: film 1] = Some (Rv, Tv, a, b) /\
  [/\ Rv ord0 ord0 = k (-1/3) 0, Tv ord0 ord0 = k 0 (-2/3), a ord0 = (1/9)%coqR & b ord0 = (8/9)%coqR].
Proof.
have r0 : reqb 0 0 by rewrite /reqb; case: Req_EM_T.
have hv nn : (0 < nn)%coqR -> homog_kz false (RtoC nn) (kx_vector s_film 1) 0 = RtoC nn /\ homog_v false (RtoC nn) (kx_vector s_film 1) 0 = k 0 nn.
  move=> h; have hk : kx_vector s_film 1 0 = RtoC 0 by exact: film_kx.
  have [||h1 h2] := @homog_vE false nn (kx_vector s_film 1) 0%N 0%coqR hk; [lra|nra|].
  rewrite h1 h2 /weigh -ProofBVP.kz_1dE /kz_1d film_kx kz_film; last lra.
  by split=> //; kc.
have [v1 v1'] := hv _ Rlt_0_1; have [|v2 v2'] := hv 2%coqR; first lra.
rewrite /smm_1d r0 /= !diagf_1 v1' v2'.
have -> : k0_of 1 = (2 * PI)%coqR by rewrite /k0_of; field.
rewrite film_device; do 4!eexists; split; first reflexivity.
have d0 : delta_i0 1 ord0 ord0 = 1 by rewrite mxE.
have aE x : (x%:M *m delta_i0 1) ord0 ord0 = x by rewrite mul_scalar_mx mxE d0 mulr1.
have c0 : Re (1 * ccos 0) = 1%coqR by rewrite -[0 : C]/(RtoC 0) ccos_real cos_0 mul1r.
change (homog_kz false 1 (kx_vector s_film 1) 0%N = RtoC 1) in v1.
rewrite /homog_kz /= in v1 v2; rewrite /= v1 v2 !aE c0 !Cmod_sq; split=> //; rewrite /nrm2 /Re /Im /k /=; field.
Qed.

