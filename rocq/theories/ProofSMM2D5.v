From Coq Require Import Reals Lra Psatz.
From mathcomp Require Import all_ssreflect ssralg matrix mxalgebra.
From Coquelicot Require Import Complex.
From Verif Require Import Cplx Mx Spec SpecSolve SpecField ModelTM ModelSMM ModelSMM2D SpecSMM2D ProofFlux ProofEff ProofEnergy1D ProofEnergy2D ProofEnd
  ProofSubstrate ProofWellSolve ProofField ProofBVP ProofBVP2 ProofFilmSolve SpecSMM ProofSMM ProofSMM2 ProofSMM2D ProofSMM2D2 ProofSMM2D3 ProofSMM2D4 ProofSMM2DEx
  ProofEnd2 ProofSetup ProofWell.

Set Implicit Arguments.
Unset Strict Implicit.
Unset Printing Implicit Defensive.
Local Open Scope ring_scope.
Import GRing.Theory.

(** ** Numbering of the orders *)
Lemma opp_order (fx fy i : nat) : (0 < fx)%N -> (i < fy * fx)%N ->
  ((fy * fx).-1 - i) %% fx = (fx.-1 - i %% fx)%N /\ ((fy * fx).-1 - i) %/ fx = (fy.-1 - i %/ fx)%N.
Proof.
move=> hx hi; have hr := ltn_pmod i hx; have hq : (i %/ fx < fy)%N by rewrite ltn_divLR.
have -> : ((fy * fx).-1 - i = (fy.-1 - i %/ fx) * fx + (fx.-1 - i %% fx))%N.
  rewrite {1}(divn_eq i fx); move: (i %/ fx)%N (i %% fx)%N hq hr => q r hq hr.
  case: fy hq {hi} => // m; case: fx hx hr => // k _ hr hq.
  rewrite !ltnS in hr hq; rewrite mulSn addSn !succnK mulnBl.
  have h : (q * k.+1 <= m * k.+1)%N by rewrite leq_mul2r hq orbT.
  by rewrite subnDA -(addnBA _ h) [(k + _)%N]addnC -(addnBA _ hr).
have h : (fx.-1 - i %% fx < fx)%N by rewrite (leq_ltn_trans (leq_subr _ _)) // prednK.
by rewrite modnMDl divnMDl // (modn_small h) (divn_small h) addn0.
Qed.

Section Setup.
Variables (s : setup) (w nt th f : R).
Hypothesis hnt : n_top s = RtoC nt.
Hypothesis hth : theta s = RtoC th.
Hypothesis th90 : (0 <= th < PI / 2)%coqR.
Hypothesis hf : phi_val s = RtoC f.
Hypothesis hw : (0 < w)%coqR.
Hypothesis px0 : (0 < period_x s)%coqR.
Hypothesis py0 : (0 < period_y s)%coqR.

Lemma step_k a m : (0 < a)%coqR -> (2 * PI * m / (k0_of w * a) = m * (w / a))%coqR.
Proof. by move=> a0; have := PI_RGT_0 => p0; rewrite /k0_of; field; lra. Qed.
Lemma smm_kE : (forall i, smm_kx s w i = RtoC (nt * sin th * cos f - order (fto_x s) (i %% ff_x s) * (w / period_x s))) /\
  (forall i, smm_ky s w i = RtoC (nt * sin th * sin f - order (fto_y s) (i %/ ff_x s) * (w / period_y s))).
Proof.
by split=> i; rewrite /smm_kx /smm_ky /tile_x /tile_y /smm_k hnt hth hf ?ccos_real !csin_real step_k // -!RtoC_mul -RtoC_sub.
Qed.
Lemma order_opp k i : (i < k.*2.+1)%N -> order k (k.*2.+1.-1 - i) = (- order k i)%coqR.
Proof.
move=> h; rewrite /order /= minus_INR; last by apply/leP; rewrite -ltnS.
by rewrite -addnn plus_INR; ring.
Qed.

Lemma numbering i : (i < ff_y s * ff_x s)%N -> let j := ((ff_y s * ff_x s).-1 - i)%N in
  smm_kx s w i = kx_tiled s w j /\ smm_ky s w i = ky_tiled s w j.
Proof.
move=> hi j; have [kE lE] := kx_phys w hnt hth th90 hf; have [xE yE] := smm_kE.
have [j1 j2] := opp_order (fx := ff_x s) (fy := ff_y s) (erefl _) hi.
rewrite xE yE /kx_tiled /ky_tiled /tile_x /tile_y kE lE j1 j2 !order_opp ?ltn_pmod ?ltn_divLR //.
by split; congr RtoC; ring.
Qed.

Lemma smm_mid : let m := ((ff_y s * ff_x s) %/ 2)%N in
  smm_kx s w m = RtoC (nt * sin th * cos f) /\ smm_ky s w m = RtoC (nt * sin th * sin f).
Proof.
have [xE yE] := smm_kE; have [e1 e2] := mid_2d (fto_x s) (fto_y s); rewrite /= xE yE /ff_x /ff_y e1 e2 !order_mid.
by split; congr RtoC; ring.
Qed.

Lemma solver_agreement pinv eig (convs : seq (conv3 (ff_y s * ff_x s))) ls r infos d (nb : R) :
  (0 < nt)%coqR -> n_bot s = RtoC nb -> nb <> 0%coqR -> (0 < th)%coqR ->
  off_axes (ff_y s * ff_x s) (smm_kx s w) (smm_ky s w) ->
  off_grazing (ff_y s * ff_x s) (RtoC nt) (smm_kx s w) (smm_ky s w) -> off_grazing (ff_y s * ff_x s) (RtoC nb) (smm_kx s w) (smm_ky s w) ->
  layers_of convs (thickness s) = Some ls ->
  rcwa_2d pinv eig false (smm_kx s w) (smm_ky s w) (k0_of w) (psi s) (theta s) (n_top s) (n_bot s) ls = Some (r, infos) ->
  smm_solve_2d eig w convs = Some d ->
  let e := if reqb (pol s) 0 then res_te_inc r else res_tm_inc r in
  let c := fun i => cos_varphi (smm_kx s w i) (smm_ky s w i) in let sn := fun i => sin_varphi (smm_kx s w i) (smm_ky s w i) in
  (exists2 sg : C, pm1 sg & col_mx (R_s d) (R_p d) = sg *: refl_xy (RtoC nt) (smm_kx s w) (smm_ky s w) c sn e /\
                            col_mx (T_s d) (T_p d) = sg *: trans_xy (RtoC nb) (smm_kx s w) (smm_ky s w) c sn e) /\
  (forall i : 'I_(ff_y s * ff_x s),
     wave_power (RtoC nt) (RtoC nt) (RtoC th) (smm_kx s w i) (smm_ky s w i) (R_s d i ord0) (R_p d i ord0) = de_ri e i /\
     wave_power (RtoC nb) (RtoC nt) (RtoC th) (smm_kx s w i) (smm_ky s w i) (T_s d i ord0) (T_p d i ord0) = de_ti e i).
Proof.
move=> nt0 hnb nb0 th0 ha hgt hgb hls hr; rewrite /smm_solve_2d hls.
have [xE yE] := smm_kE; have [m1 m2] := smm_mid.
have hth' : (0 < th < PI / 2)%coqR by lra.
rewrite hnt hnb hth in hr *; rewrite hf => hd.
refine (agreement _ _ _ nt0 nb0 hth' ha hgt hgb m1 m2 hr hd) => //.
- by move=> i _; rewrite xE; eexists.
- by move=> i _; rewrite yE; eexists.
Qed.
End Setup.
