From Coq Require Import Reals Lra Psatz.
From mathcomp Require Import all_ssreflect ssralg matrix mxalgebra.
From Coquelicot Require Import Complex.
From Verif Require Import Cplx Mx Spec SpecSolve SpecField ModelTM ModelSMM ModelSMM2D SpecSMM2D ProofFlux ProofEff ProofEnergy1D ProofEnergy2D ProofEnd
  ProofSubstrate ProofWellSolve ProofField ProofBVP ProofBVP2 ProofFilmSolve SpecSMM ProofSMM ProofSMM2 ProofSMM2D ProofSMM2D2 ProofSMM2D3 ProofSMM2D4 ProofSMM2DEx
  ProofEnd2 ProofSetup ProofWell ProofSMM2D5 ProofFieldSolve ProofSMM3.

Set Implicit Arguments.
Unset Strict Implicit.
Unset Printing Implicit Defensive.
Local Open Scope ring_scope.
Import GRing.Theory.

(** ** The bare interface of ProofSMM2DEx in the transfer-matrix solver *)
Lemma g2_tmm pinv eig : eigen_oracle eig -> exists r infos,
  rcwa_2d (n := ff_y g2 * ff_x g2) pinv eig false (smm_kx g2 1) (smm_ky g2 1) (k0_of 1) (psi g2) (theta g2) (n_top g2) (n_bot g2) [::] = Some (r, infos).
Proof.
move=> he; have [e1 e2] := g2_kx.
have rx := rx1 (kx := smm_kx g2 1) e1; have ry := ry1 (ky := smm_ky g2 1) e2.
have hp := prop1 g2_th e1 e2.
have h2 : (0 < 2)%coqR by lra.
apply: (well_2d pinv (eigen_eig_ok he) (rvx rx) (rvy ry) (k0_of 1) (psi g2) (theta g2) Rlt_0_1 h2) => //.
- apply/forallP => i; have [h _] := off1 g2_th e1 e2 (ltn_ord i); by apply/orP; left; apply/eqP.
- move=> i hi; have [z z0 ez] := kz_pos rx ry hp (Ordinal hi) (Rle_refl 1).
  by rewrite (ez : kz_2d _ _ _ i = _).
Qed.
Lemma g2_off : [/\ off_axes (ff_y g2 * ff_x g2) (smm_kx g2 1) (smm_ky g2 1),
  off_grazing (ff_y g2 * ff_x g2) (RtoC 1) (smm_kx g2 1) (smm_ky g2 1) & off_grazing (ff_y g2 * ff_x g2) (RtoC 2) (smm_kx g2 1) (smm_ky g2 1)].
Proof.
have [e1 e2] := g2_kx.
have rx := rx1 (kx := smm_kx g2 1) e1; have ry := ry1 (ky := smm_ky g2 1) e2.
have hp := prop1 g2_th e1 e2.
by split; [exact: off1 g2_th e1 e2|apply: (graz rx ry hp); lra|apply: (graz rx ry hp); lra].
Qed.

(** ** A direction along an axis: the zeros replaced in Q *)
Lemma axis_wrong : let kx := fun=> 0 : C in let ky := fun=> RtoC (1 / 2) in
  homog2_V 1 (RtoC 1 ^+ 2) kx ky *m e_xy (fun i => cos_varphi (kx i) (ky i)) (fun i => sin_varphi (kx i) (ky i)) (fun=> 1) (fun=> 0) <>
  h_xy (fun i => cos_varphi (kx i) (ky i)) (fun i => sin_varphi (kx i) (ky i))
    (fun i : 'I_1 => - (ci * kz_of (RtoC 1) (kx i) (ky i) * 1)) (fun i => ci * RtoC 1 ^+ 2 / kz_of (RtoC 1) (kx i) (ky i) * 0).
Proof.
move=> kx ky e.
have cE i : cos_varphi (kx i) (ky i) = 0 by rewrite /cos_varphi eqxx.
have sE i : sin_varphi (kx i) (ky i) = 1.
  by rewrite /sin_varphi eqxx; case: Rlt_dec => //; rewrite /Re /=; lra.
have := congr1 (fun x => usubmx x ord0 ord0) e.
rewrite /= /h_xy /e_xy /homog2_V /homog2_Q col_mxKu -mulmxA mul_block_col !mul0mx addr0 add0r mul_block_col col_mxKu.
rewrite !mxE !big_ord_recl !big_ord0 !mxE !big_ord_recl !big_ord0 !mxE /= !cE !sE !mulr1n !(mul0r, mulr0, addr0, add0r, subr0, sub0r, oppr0, mulr1, mul1r).
have orp0 x : orp x != 0 by rewrite /orp; case: (eqVneq x 0) => // _; exact: perturb_neq0.
apply/eqP; apply: mulf_neq0; first exact: orp0.
apply: mulf_neq0; last by rewrite oppr_eq0 oner_neq0.
by apply: invr_neq0; apply: mulf_neq0; [exact: ci_neq0|exact: orp0].
Qed.

(** ** The weights of the efficiencies use the opposite orders *)
Definition g3 : setup := Setup (RtoC 1) (RtoC 1) (RtoC (PI / 4)) (Some (RtoC (PI / 4))) (RtoC 0) 0 1 0 1 1 [::].
Lemma g3_phys : physical g3.
Proof.
have := PI_RGT_0 => hp; split => /=.
- by exists 1%coqR => //; lra.
- by exists (PI / 4)%coqR => //; lra.
- by move=> p [<-]; eexists.
- exact: Rlt_0_1.
- exact: Rlt_0_1.
Qed.
Lemma g3_weights : kz_2d (n_top g3) (kx_tiled g3 (1 / 2)) (ky_tiled g3 (1 / 2)) 0 <> kz_of (n_top g3) (smm_kx g3 (1 / 2) 0%N) (smm_ky g3 (1 / 2) 0%N).
Proof.
have hp := PI_RGT_0; have h4 : (0 <= PI / 4 < PI / 2)%coqR by lra.
have w0 : (0 < 1 / 2)%coqR by lra.
have [kE lE] := kx_phys (s := g3) (1 / 2) erefl erefl h4 erefl.
have [xE yE] := smm_kE (s := g3) erefl erefl h4 erefl w0 Rlt_0_1 Rlt_0_1.
have q : (1 * sin (PI / 4) * cos (PI / 4) = 1 / 2)%coqR by rewrite s4 Rmult_assoc cc4; ring.
have q' : (1 * sin (PI / 4) * sin (PI / 4) = 1 / 2)%coqR by rewrite {2}s4 q.
rewrite /kz_2d /kz_of /kx_tiled /ky_tiled /tile_x /tile_y kE lE xE yE q q' -[fto_x g3]/1%N -[fto_y g3]/0%N -[ff_x g3]/3%N -[period_x g3]/1%coqR -[period_y g3]/1%coqR.
rewrite /order -[(0 %% 3)%N]/0%N -[(0 %/ 3)%N]/0%N -[INR 0]/0%coqR -[INR 1]/1%coqR -[n_top g3]/(RtoC 1) => e.
have := congr1 (fun z => conj z * conj z) e; rewrite /= !conjK !csqrt_sqr !expr2 -!RtoC_mul -!RtoC_sub => - []; lra.
Qed.

(** ** Statements with given directions *)
Lemma real_ex n (kx ky : nat -> C) : (forall i, (i < n)%N -> is_real (kx i) /\ is_real (ky i)) ->
  (forall i, (i < n)%N -> exists x : R, kx i = RtoC x) /\ (forall i, (i < n)%N -> exists x : R, ky i = RtoC x).
Proof. by move=> h; split=> i /h []. Qed.
Lemma e_xy_dir n (c s c' s' : nat -> C) (a b : 'I_n -> C) : (forall i : 'I_n, c i = c' i /\ s i = s' i) -> e_xy c s a b = e_xy c' s' a b.
Proof. by move=> h; rewrite /e_xy; congr col_mx; apply/colP => i; rewrite !mxE; have [-> ->] := h i. Qed.
Lemma h_xy_dir n (c s c' s' : nat -> C) (a b : 'I_n -> C) : (forall i : 'I_n, c i = c' i /\ s i = s' i) -> h_xy c s a b = h_xy c' s' a b.
Proof. by move=> h; rewrite /h_xy; congr col_mx; apply/colP => i; rewrite !mxE; have [-> ->] := h i. Qed.

Lemma halfspace n (nn : R) (kx ky dc ds : nat -> C) (es ep : 'I_n -> C) :
  (forall i, (i < n)%N -> is_real (kx i) /\ is_real (ky i)) -> directions n kx ky dc ds ->
  nn <> 0%coqR -> off_axes n kx ky -> off_grazing n (RtoC nn) kx ky ->
  homog2_V n (RtoC nn ^+ 2) kx ky *m e_xy dc ds es ep =
  h_xy dc ds (fun i => - (ci * kz_of (RtoC nn) (kx i) (ky i) * es i)) (fun i => ci * RtoC nn ^+ 2 / kz_of (RtoC nn) (kx i) (ky i) * ep i).
Proof.
move=> hr hd n0 ho hg; have [rx ry] := real_ex hr.
have hu := directions_unique (dirs rx ry) hd.
have e (a b : 'I_n -> C) : h_xy dc ds a b = h_xy (fun i => cos_varphi (kx i) (ky i)) (fun i => sin_varphi (kx i) (ky i)) a b by symmetry; exact: (h_xy_dir a b hu).
by rewrite e -(half_V rx ry ho es ep n0 hg); congr (_ *m _); symmetry; exact: (e_xy_dir es ep hu).
Qed.

Lemma same_waves_dir n nt nb th kx ky (c s c' s' : nat -> C) (d e : diffraction n) : (forall i : 'I_n, c i = c' i /\ s i = s' i) ->
  same_waves nt nb th kx ky c s d e -> same_waves nt nb th kx ky c' s' d e.
Proof.
move=> hu [[sg h1 [h2 h3]] h4]; split=> //; exists sg => //.
have k (a b : 'I_n -> C) : e_xy c' s' a b = e_xy c s a b by symmetry; exact: (e_xy_dir a b hu).
by rewrite /refl_xy /trans_xy !k.
Qed.

Lemma agreement_dir pinv eig n (kx ky dc ds kxa kya : nat -> C) (k0 th ph nt nb pol : R) psi (ls : seq (layer n)) r infos d :
  (0 < n)%N -> (0 < nt)%coqR -> nb <> 0%coqR -> (0 < th < PI / 2)%coqR ->
  real_waves n kx ky (nt * sin th * cos ph) (nt * sin th * sin ph) -> directions n kx ky dc ds ->
  off_axes n kx ky -> off_grazing n (RtoC nt) kx ky -> off_grazing n (RtoC nb) kx ky ->
  rcwa_2d pinv eig false kx ky k0 psi (RtoC th) (RtoC nt) (RtoC nb) ls = Some (r, infos) ->
  smm_2d eig pol kx ky kxa kya k0 (RtoC th) (RtoC ph) (RtoC nt) (RtoC nb) ls = Some d ->
  same_waves nt nb th kx ky dc ds d (if reqb pol 0 then res_te_inc r else res_tm_inc r).
Proof.
move=> n0 nt0 nb0 hth [hr [m1 m2]] hd ho hgt hgb h1 h2; have [rx ry] := real_ex hr.
apply: (same_waves_dir (directions_unique (dirs rx ry) hd)).
exact (agreement rx ry n0 nt0 nb0 hth ho hgt hgb m1 m2 h1 h2).
Qed.

Lemma phys_phi s : physical s -> exists f, phi_val s = RtoC f.
Proof. by case=> _ _ hf _ _; rewrite /phi_val; case: (phi s) hf => [p /(_ _ erefl) [f ->]|_]; [exists f|exists 0%coqR]. Qed.

Lemma agreement_setup pinv eig s (w nt nb th : R) (convs : seq (conv3 (ff_y s * ff_x s))) dc ds ls r infos d :
  physical s -> (0 < w)%coqR -> n_top s = RtoC nt -> n_bot s = RtoC nb -> nb <> 0%coqR -> theta s = RtoC th -> (0 < th < PI / 2)%coqR ->
  let n := (ff_y s * ff_x s)%N in let kx := smm_kx s w in let ky := smm_ky s w in
  directions n kx ky dc ds -> off_axes n kx ky -> off_grazing n (RtoC nt) kx ky -> off_grazing n (RtoC nb) kx ky ->
  layers_of convs (thickness s) = Some ls ->
  rcwa_2d pinv eig false kx ky (k0_of w) (psi s) (theta s) (n_top s) (n_bot s) ls = Some (r, infos) ->
  smm_solve_2d eig w convs = Some d ->
  same_waves nt nb th kx ky dc ds d (if reqb (pol s) 0 then res_te_inc r else res_tm_inc r).
Proof.
move=> hp hw h1 h2 nb0 h3 h4 n kx ky hd ho hgt hgb hls hr hs; have [f hf] := phys_phi hp.
have nt0 : (0 < nt)%coqR by case: hp => -[x hx ex] *; move: ex; rewrite h1 => -[->].
have px : (0 < period_x s)%coqR by case: hp.
have py : (0 < period_y s)%coqR by case: hp.
have h5 : (0 <= th < PI / 2)%coqR by lra.
have [xE yE] := smm_kE h1 h3 h5 hf hw px py; have [m1 m2] := smm_mid h1 h3 h5 hf hw px py.
have hn : (0 < n)%N by rewrite muln_gt0.
rewrite h1 h2 h3 in hr; move: hs; rewrite /smm_solve_2d hls h1 h2 h3 hf => hs.
apply: (agreement_dir hn nt0 nb0 h4 _ hd ho hgt hgb hr hs).
by split; [move=> i _; rewrite /kx /ky xE yE; split; eexists|].
Qed.

Lemma numbering_phys s (w : R) i : physical s -> (0 < w)%coqR -> (i < ff_y s * ff_x s)%N -> let j := ((ff_y s * ff_x s).-1 - i)%N in
  smm_kx s w i = kx_tiled s w j /\ smm_ky s w i = ky_tiled s w j.
Proof.
move=> hp hw hi; have [f hf] := phys_phi hp; case: hp => -[nt _ h1] [th h5 h3] _ px py.
exact (numbering h1 h3 h5 hf hw px py hi).
Qed.

Lemma g2_dirs : directions (ff_y g2 * ff_x g2) (smm_kx g2 1) (smm_ky g2 1)
  (fun i => cos_varphi (smm_kx g2 1 i) (smm_ky g2 1 i)) (fun i => sin_varphi (smm_kx g2 1 i) (smm_ky g2 1 i)).
Proof. have [e1 e2] := g2_kx; exact (dirs (rx1 (kx := smm_kx g2 1) e1) (ry1 (ky := smm_ky g2 1) e2)). Qed.

Lemma halfspace_refuted : ~ (forall n (nn : R) (kx ky dc ds : nat -> C) (es ep : 'I_n -> C),
  (forall i, (i < n)%N -> is_real (kx i) /\ is_real (ky i)) -> directions n kx ky dc ds ->
  nn <> 0%coqR -> off_grazing n (RtoC nn) kx ky ->
  homog2_V n (RtoC nn ^+ 2) kx ky *m e_xy dc ds es ep =
  h_xy dc ds (fun i => - (ci * kz_of (RtoC nn) (kx i) (ky i) * es i)) (fun i => ci * RtoC nn ^+ 2 / kz_of (RtoC nn) (kx i) (ky i) * ep i)).
Proof.
move=> h; apply: axis_wrong; apply: h.
- by move=> i _; split; [exists 0%coqR|eexists].
- by apply: varphi_directions => i _; rewrite ?conj0 ?conjR.
- lra.
- by move=> i _; rewrite !expr2 mul0r add0r -!RtoC_mul => - []; lra.
Qed.

Lemma energy_refuted eig : ~ (forall s w (convs : seq (conv3 (ff_y s * ff_x s))) d, physical s -> pos_real (n_bot s) ->
  (forall c, List.In c (used s convs) -> lossless_convs c) -> smm_solve_2d eig w convs = Some d -> power_conserved d).
Proof.
move=> h; have [d [hd ht]] := g2_run eig.
have := h g2 1%coqR [::] d g2_phys _ _ hd; rewrite /power_conserved => k.
have : (total (de_ri d) + total (de_ti d) = 1)%coqR by apply: k => //; exists 2%coqR => //; lra.
by lra.
Qed.

Lemma weights_refuted : ~ (forall s w i, physical s -> (0 < w)%coqR -> (i < ff_y s * ff_x s)%N ->
  kz_2d (n_top s) (kx_tiled s w) (ky_tiled s w) i = kz_of (n_top s) (smm_kx s w i) (smm_ky s w i)).
Proof. by move=> h; apply: g3_weights; apply: h => //; [exact: g3_phys|lra]. Qed.

(** What the efficiencies are weighted with. *)
Lemma weighted (a w m : C) (k : R) : k <> 0%coqR -> m = RtoC k ->
  (Re (a * conj a * RtoC (Re (w / m)))%R * k = Cmod a ^ 2 * Re w)%coqR.
Proof.
move=> hk ->; rewrite de_form.
have e2 : (Cmod a ^ 2)%coqR = nrm2 a by exact: Cmod_sq.
by rewrite Re_div_real // e2; field.
Qed.
Lemma weighted_p (a w m n : C) (k b : R) : k <> 0%coqR -> m = RtoC k -> b <> 0%coqR -> n = RtoC b ->
  (Re (a * conj a * RtoC (Re (w / n ^+ 2 / m)))%R * k * b ^ 2 = Cmod a ^ 2 * Re w)%coqR.
Proof.
move=> hk -> hb ->; rewrite de_form.
have e2 : (Cmod a ^ 2)%coqR = nrm2 a by exact: Cmod_sq.
have hbb : (b * b)%coqR <> 0%coqR by apply: Rmult_integral_contrapositive.
by rewrite Re_div_real // expr2 -RtoC_mul Re_div_real // e2; field.
Qed.
Lemma reported_weights eig s (w nt nb th : R) (convs : seq (conv3 (ff_y s * ff_x s))) d : physical s -> (0 < w)%coqR ->
  n_top s = RtoC nt -> n_bot s = RtoC nb -> theta s = RtoC th ->
  smm_solve_2d eig w convs = Some d -> forall i : 'I_(ff_y s * ff_x s),
  let j := ((ff_y s * ff_x s).-1 - i)%N in
  (de_ri_s d i * (nt * cos th) = Cmod (R_s d i ord0) ^ 2 * Re (kz_of (RtoC nt) (smm_kx s w j) (smm_ky s w j)) /\
   de_ti_s d i * (nt * cos th) = Cmod (T_s d i ord0) ^ 2 * Re (kz_of (RtoC nb) (smm_kx s w j) (smm_ky s w j)) /\
   de_ri_p d i * (nt * cos th) * nt ^ 2 = Cmod (R_p d i ord0) ^ 2 * Re (kz_of (RtoC nt) (smm_kx s w j) (smm_ky s w j)) /\
   (nb <> 0 -> de_ti_p d i * (nt * cos th) * nb ^ 2 = Cmod (T_p d i ord0) ^ 2 * Re (kz_of (RtoC nb) (smm_kx s w j) (smm_ky s w j))))%coqR.
Proof.
move=> hp hw et eb eth h i j.
have hi := ltn_ord i; have hn : ((ff_y s * ff_x s).-1 < ff_y s * ff_x s)%N by rewrite prednK //; apply: leq_ltn_trans hi.
have hj : (j < ff_y s * ff_x s)%N by apply: leq_ltn_trans hn; exact: leq_subr.
have ej : ((ff_y s * ff_x s).-1 - j)%N = i by rewrite /j subKn // -ltnS prednK //; apply: leq_ltn_trans hi.
have [e1 e2] := numbering_phys hp hw hj; rewrite ej in e1 e2; rewrite e1 e2.
have nt0 : nt <> 0%coqR by have [[nt' e h0] _ _ _ _] := hp; have -> : nt = nt' by [apply: RtoC_inj; rewrite -et]; lra.
have hk : (nt * cos th)%coqR <> 0%coqR.
  have [[nt' e h0] [t e' ht] _ _ _] := hp.
  have -> : nt = nt' by apply: RtoC_inj; rewrite -et.
  have -> : th = t by apply: RtoC_inj; rewrite -eth.
  have := cos_gt_0 t; nra.
have em : n_top s * ccos (theta s) = RtoC (nt * cos th) by rewrite et eth ccos_real RtoC_mul.
move: h; rewrite /smm_solve_2d; case: (layers_of _ _) => // ls; rewrite /smm_2d.
case: (smm_slabs _ _ _ _) => // sl; case: (device _ _ _ _ _ _) => // Sg; case: (_ || _) => //.
case: (smm_source _ _ _ _) => // -[px py] [<-] /=.
split; first by rewrite weighted // ?kz_2dE ?et ?eb.
split; first by rewrite weighted // ?kz_2dE ?et ?eb.
split; first by rewrite (weighted_p _ _ hk em nt0 et) ?kz_2dE ?et ?eb.
by move=> hb; rewrite (weighted_p _ _ hk em hb eb) ?kz_2dE ?et ?eb.
Qed.
