From Coq Require Import Reals Lra Psatz.
From mathcomp Require Import all_ssreflect ssralg matrix mxalgebra.
From Coquelicot Require Import Complex.
From Verif Require Import Cplx Mx Spec SpecSolve SpecField ModelTM ModelSMM ModelSMM2D SpecSMM2D ProofFlux ProofEff ProofEnergy1D ProofEnergy2D ProofEnd
  ProofSubstrate ProofWellSolve ProofField ProofBVP ProofBVP2 ProofFilmSolve SpecSMM ProofSMM ProofSMM2 ProofSMM2D ProofSMM2D2 ProofSMM2D3 ProofSMM2D4.

Set Implicit Arguments.
Unset Strict Implicit.
Unset Printing Implicit Defensive.
Local Open Scope ring_scope.
Import GRing.Theory.

(** ** One order at azimuth 45 degrees on a bare interface between index 1 and index nb *)
Section One.
Variable eig : forall n, 'M[C]_n -> 'rV[C]_n * 'M[C]_n.
Variables (k0 th nb : R) (kx ky kxa kya : nat -> C).
Hypothesis hth : (0 < th < PI / 2)%coqR.
Hypothesis hnb : (1 < nb)%coqR.
Hypothesis ex : kx 0%N = RtoC (1 * sin th * cos (PI / 4)).
Hypothesis ey : ky 0%N = RtoC (1 * sin th * sin (PI / 4)).
Hypothesis exa : kxa 0%N = kx 0%N.
Hypothesis eya : kya 0%N = ky 0%N.

Lemma c4 : (0 < cos (PI / 4))%coqR.
Proof. by apply: cos_gt_0; have := PI_RGT_0; lra. Qed.
Lemma s4 : sin (PI / 4) = cos (PI / 4).
Proof. by rewrite sin_cos_PI4. Qed.
Lemma cc4 : (cos (PI / 4) * cos (PI / 4) = 1 / 2)%coqR.
Proof. by have := sin2_cos2 (PI / 4); rewrite /Rsqr s4; lra. Qed.
Lemma sth : (0 < sin th)%coqR. Proof. by apply: sin_gt_0; have := PI_RGT_0; lra. Qed.
Lemma cth : (0 < cos th)%coqR. Proof. by apply: cos_gt_0; lra. Qed.

Lemma one0 i : (i < 1)%N -> i = 0%N. Proof. by case: i. Qed.
Lemma rx1 i : (i < 1)%N -> exists x : R, kx i = RtoC x.
Proof. by move/one0=> ->; rewrite ex; eexists. Qed.
Lemma ry1 i : (i < 1)%N -> exists x : R, ky i = RtoC x.
Proof. by move/one0=> ->; rewrite ey; eexists. Qed.
Lemma off1 : off_axes 1 kx ky.
Proof.
have h1 := sth; have h2 := c4; have h : (1 * sin th * cos (PI / 4) <> 0)%coqR by nra.
by move=> i /one0 ->; rewrite ex ey s4; split=> e; apply: h; case: e.
Qed.
Lemma prop1 i x y : (i < 1)%N -> kx i = RtoC x -> ky i = RtoC y -> (x * x + y * y < 1)%coqR.
Proof.
move/one0=> ->; rewrite ex ey => - [] <- [] <-; rewrite s4.
have := cc4; have := cth; have := sin2_cos2 th; rewrite /Rsqr; set S := sin th; set Q := cos th; set P := cos _ => h1 h2 h3.
have -> : (1 * S * P * (1 * S * P) + 1 * S * P * (1 * S * P) = 2 * (S * S) * (P * P))%coqR by ring.
by rewrite h3; nra.
Qed.

Let c := fun i => cos_varphi (kx i) (ky i).
Let s := fun i => sin_varphi (kx i) (ky i).

Lemma half_cs : nrm2 (c 0%N) = (1 / 2)%coqR /\ nrm2 (s 0%N) = (1 / 2)%coqR.
Proof.
have [a [b [ea eb h1 h2]]] := dirsR rx1 ry1 (@ord0 0).
have k := h2 _ _ ex ey; rewrite s4 in k.
have e : a = b.
  have h3 := sth; have h4 := c4; apply: (Rmult_eq_reg_r (1 * sin th * cos (PI / 4))) => //; nra.
rewrite -/(c 0%N) -/(s 0%N) in ea eb *.
by rewrite (ea : c 0%N = _) (eb : s 0%N = _) !nrm2_R -e; rewrite -e in h1; lra.
Qed.

Lemma bare_te : exists d : diffraction 1, [/\ smm_2d eig 0 kx ky kxa kya k0 (RtoC th) (RtoC (PI / 4)) (RtoC 1) (RtoC nb) [::] = Some d
  & (total (de_ri d) + total (de_ti d) < 1)%coqR].
Proof.
have [S hS] := bare_device k0 rx1 ry1 hnb off1 prop1.
rewrite /smm_2d /= hS /reqb; case: (Req_EM_T 0 0) => // _ /=.
have hso := sourceE (PI / 4) Rlt_0_1 hth true; rewrite hso.
have [sg hsg hsrc] := source_inc rx1 ry1 (ltnSn 0) Rlt_0_1 hth ex ey true.
have esrc := hsrc _ _ hso.
eexists; split; first by [].
rewrite /total !big_ord_recl !big_ord0 !Rplus_0_r /= !de_form esrc.
(* the fields *)
have b1 : (1 <= 1)%coqR by lra. have bb : (1 <= nb)%coqR by lra.
have ez1 : kz_of (RtoC 1) (kx (@ord0 0)) (ky (@ord0 0)) = RtoC 1 * ccos (RtoC th).
  have hm := hmid (n := 1) (kx := kx) (ky := ky) ex ey.
  exact (kz_mid Rlt_0_1 hth hm (i := @ord0 0) (erefl _)).
have [z2 z20 ez2] := kz_pos rx1 ry1 prop1 (@ord0 0) bb.
pose z1 := cos th; have z10 : (0 < z1)%coqR := cth.
have ez1' : kz_of (RtoC 1) (kx (@ord0 0)) (ky (@ord0 0)) = RtoC z1 by rewrite ez1 ccos_real mul1r.
pose r := ((z1 - z2) / (z1 + z2))%coqR; pose t := (2 * z1 / (z1 + z2))%coqR.
set ix := inc_xy 1 kx ky th (RtoC (PI / 2)).
have ixE : ix = e_xy c s (fun=> 1) (fun=> 0).
  apply: e_xy_eq => i; have -> : i == (1 %/ 2)%N :> nat by case: i => [[]].
  - by rewrite csin_real sin_PI2 mulr1.
  - by rewrite !ccos_real cos_PI2 !mul0r oppr0.
have exy0 (x : R) : RtoC x *: ix = e_xy c s (fun=> RtoC x) (fun=> 0).
  by rewrite ixE /e_xy scale_col_mx; congr col_mx; apply/colP => i; rewrite !mxE; mring.
have [e1 e2] : scatters S ix (RtoC r *: ix) (RtoC t *: ix) 0.
  apply/(device_direct hS).
  rewrite /between /= addr0 subr0.
  have i0 (i : 'I_1) : i = ord0 by case: i => [[]] //= p; apply: val_inj.
  split.
    have -> : ix + RtoC r *: ix = RtoC (1 + r) *: ix by rewrite RtoC_add scalerDl scale1r.
    by congr (RtoC _ *: _); rewrite /r /t; field; lra.
  have -> : ix - RtoC r *: ix = RtoC (1 - r) *: ix by rewrite RtoC_sub scalerBl scale1r.
  rewrite !exy0 !(V_rot rx1 ry1 off1 prop1) //; apply: h_xy_eq => i; rewrite ?mulr0 // (i0 i) ez1' ez2.
  rewrite !mulNr -!mulrA -!RtoC_mul; congr (- (_ * RtoC _)); rewrite /r /t; field; lra.
rewrite -/ix !mulmx0 !addr0 in e1 e2 *.
have sg1 : nrm2 sg = 1%coqR by case: hsg => ->; rewrite /nrm2 /Re /Im /=; ring.
rewrite -!scalemxAr -e1 -e2 !exy0 /e_xy !scale_col_mx !col_mxKu !col_mxKd !mxE !mulr0 !sub0r !addr0.
rewrite !nrm2MM sg1.
have nrmN (x : C) : nrm2 (- x)%R = nrm2 x by case: x => a b; rewrite /nrm2 /Re /Im /=; ring.
have [hc hs] := half_cs.
have ek1 : kz_2d (RtoC 1) kxa kya 0 = RtoC z1 by rewrite /kz_2d exa eya.
have ek2 : kz_2d (RtoC nb) kxa kya 0 = RtoC z2 by rewrite /kz_2d exa eya.
have nn0 : (nb * nb <> 0)%coqR by nra.
have W0 : (1 * cos th <> 0)%coqR by rewrite /z1 in z10; lra.
rewrite !nrmN !nrm2MM (hc : nrm2 (c (@ord0 0)) = _) (hs : nrm2 (s (@ord0 0)) = _) ek1 ek2 !nrm2_R ccos_real -RtoC_mul !expr2 -!RtoC_mul.
rewrite !Re_divR //; last lra.
rewrite -![Re (RtoC _)]/(_ : R) -/z1.
have hq : (/ (nb * nb) < 1)%coqR by rewrite -Rinv_1; apply: Rinv_lt_contravar; nra.
have zz : (0 < z1 + z2)%coqR by lra.
have rt : (r * r + t * t * z2 / z1 = 1)%coqR by rewrite /r /t; field; lra.
have tp : (0 < t * t * z2 / z1)%coqR.
  have t0 : (0 < t)%coqR by rewrite /t; apply: Rdiv_lt_0_compat; lra.
  by apply: Rdiv_lt_0_compat => //; apply: Rmult_lt_0_compat => //; apply: Rmult_lt_0_compat.
have -> : (1 * (1 / 2 * (r * r)) * (z1 / (1 * z1)) + 1 * (1 / 2 * (r * r)) * (z1 / (1 * 1) / (1 * z1)) +
  (1 * (1 / 2 * (t * t)) * (z2 / (1 * z1)) + 1 * (1 / 2 * (t * t)) * (z2 / (nb * nb) / (1 * z1))) =
  (r * r + t * t * z2 / z1) - (1 - / (nb * nb)) / 2 * (t * t * z2 / z1))%coqR by field; lra.
rewrite rt; nra.
Qed.
End One.

(** ** With the attributes of the solver *)
Definition g2 : setup := Setup (RtoC 1) (RtoC 2) (RtoC (PI / 4)) (Some (RtoC (PI / 4))) (RtoC (PI / 2)) 0 0 0 1 1 [::].
Lemma g2_phys : physical g2.
Proof.
have := PI_RGT_0 => hp; split => /=.
- by exists 1%coqR => //; lra.
- by exists (PI / 4)%coqR => //; lra.
- by move=> p [<-]; eexists.
- exact: Rlt_0_1.
- exact: Rlt_0_1.
Qed.
Lemma g2_theta : (Re (theta g2) < pi32)%coqR.
Proof. by have := ProofSetup.pi32_gt; have := PI_RGT_0; rewrite /Re /=; lra. Qed.
Lemma g2_kx : smm_kx g2 1 0%N = RtoC (1 * sin (PI / 4) * cos (PI / 4)) /\ smm_ky g2 1 0%N = RtoC (1 * sin (PI / 4) * sin (PI / 4)).
Proof.
by split; rewrite /smm_kx /smm_ky /tile_x /tile_y /smm_k /= /phi_val /= ?ccos_real !csin_real -!RtoC_mul -RtoC_sub /order /=;
  congr RtoC; rewrite /Rdiv; ring.
Qed.
Lemma g2_kt : kx_tiled g2 1 0%N = smm_kx g2 1 0%N /\ ky_tiled g2 1 0%N = smm_ky g2 1 0%N.
Proof.
have [-> ->] := g2_kx; have h := g2_theta.
have es : sin_theta g2 = csin (theta g2) by rewrite /sin_theta; case: (Rle_dec _ _) => // h'; lra.
rewrite /kx_tiled /ky_tiled /tile_x /tile_y /kx_vector /ky_vector es.
by split; rewrite /= /phi_val /= ?ccos_real !csin_real -!RtoC_mul -RtoC_add conjR /order /=; congr RtoC; rewrite /Rdiv; ring.
Qed.
Lemma g2_th : (0 < PI / 4 < PI / 2)%coqR. Proof. by have := PI_RGT_0; lra. Qed.
Lemma g2_run eig : exists d, smm_solve_2d eig (s := g2) 1 [::] = Some d /\ (total (de_ri d) + total (de_ti d) < 1)%coqR.
Proof.
have [e1 e2] := g2_kx; have [e3 e4] := g2_kt.
have h2 : (1 < 2)%coqR by lra.
by have [d [hd ht]] := bare_te eig (k0_of 1) g2_th h2 e1 e2 e3 e4; exists d.
Qed.
