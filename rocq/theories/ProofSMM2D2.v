From Coq Require Import Reals Lra Psatz.
From mathcomp Require Import all_ssreflect ssralg matrix mxalgebra.
From Coquelicot Require Import Complex.
From Verif Require Import Cplx Mx Spec SpecSolve SpecField ModelTM ModelSMM ModelSMM2D SpecSMM2D ProofFlux ProofEff ProofEnergy1D ProofEnergy2D ProofEnd
  ProofSubstrate ProofWellSolve ProofField ProofBVP ProofBVP2 ProofFilmSolve SpecSMM ProofSMM ProofSMM2 ProofSMM2D.

Set Implicit Arguments.
Unset Strict Implicit.
Unset Printing Implicit Defensive.
Local Open Scope ring_scope.
Import GRing.Theory.

Lemma e_xyB n (c s : nat -> C) (a b a' b' : 'I_n -> C) : e_xy c s a b - e_xy c s a' b' = e_xy c s (fun i => a i - a' i) (fun i => b i - b' i).
Proof. by rewrite /e_xy opp_col_mx add_col_mx; congr col_mx; apply/colP => i; rewrite !mxE; mring. Qed.
Lemma e_xyD n (c s : nat -> C) (a b a' b' : 'I_n -> C) : e_xy c s a b + e_xy c s a' b' = e_xy c s (fun i => a i + a' i) (fun i => b i + b' i).
Proof. by rewrite /e_xy add_col_mx; congr col_mx; apply/colP => i; rewrite !mxE; mring. Qed.

Lemma kz_sq (nn x y : R) : let z := kz_of (RtoC nn) (RtoC x) (RtoC y) in z * z = RtoC nn ^+ 2 - RtoC x ^+ 2 - RtoC y ^+ 2.
Proof. by rewrite /= /kz_of -conjM csqrt_sqr !expr2 -!RtoC_mul -!RtoC_sub conjR. Qed.

Section Agree.
Variable pinv : forall n, 'M[C]_n -> 'M[C]_n.
Variable eig : forall n, 'M[C]_n -> 'rV[C]_n * 'M[C]_n.
Variable n : nat.
Variables (kx ky : nat -> C) (k0 : R) (th nt nb : R).
Hypothesis rx : forall i, (i < n)%N -> exists x : R, kx i = RtoC x.
Hypothesis ry : forall i, (i < n)%N -> exists x : R, ky i = RtoC x.
Hypothesis nt0 : (0 < nt)%coqR.
Hypothesis nb0 : nb <> 0%coqR.
Hypothesis hth : (0 < th < PI / 2)%coqR.
Hypothesis hoff : off_axes n kx ky.
Hypothesis hgt : off_grazing n (RtoC nt) kx ky.
Hypothesis hgb : off_grazing n (RtoC nb) kx ky.
Hypothesis hmid : kx (n %/ 2)%N ^+ 2 + ky (n %/ 2)%N ^+ 2 = RtoC (nt * sin th) ^+ 2.
Let c := fun i => cos_varphi (kx i) (ky i).
Let s := fun i => sin_varphi (kx i) (ky i).

Lemma rvx : real_vec n kx.
Proof. by move=> i /rx [x ->]; rewrite conjR. Qed.
Lemma rvy : real_vec n ky.
Proof. by move=> i /ry [x ->]; rewrite conjR. Qed.

Lemma kz2 nn (i : 'I_n) : let z := kz_of (RtoC nn) (kx i) (ky i) in z * z = RtoC nn ^+ 2 - kx i ^+ 2 - ky i ^+ 2.
Proof. by have [x ->] := rx (ltn_ord i); have [y ->] := ry (ltn_ord i); exact: kz_sq. Qed.
Lemma kz_n0 nn (i : 'I_n) : off_grazing n (RtoC nn) kx ky -> kz_of (RtoC nn) (kx i) (ky i) != 0.
Proof.
move=> h; apply/eqP => e; have := kz2 nn i; rewrite /= e mul0r => h0; apply: (h i (ltn_ord i)).
have -> : RtoC nn ^+ 2 = (RtoC nn ^+ 2 - kx i ^+ 2 - ky i ^+ 2) + (kx i ^+ 2 + ky i ^+ 2) by rewrite !expr2; mring.
by rewrite -h0 add0r.
Qed.

Lemma half_V nn (es ep : 'I_n -> C) : nn <> 0%coqR -> off_grazing n (RtoC nn) kx ky ->
  homog2_V n (RtoC nn ^+ 2) kx ky *m e_xy c s es ep =
  h_xy c s (fun i => - (ci * kz_of (RtoC nn) (kx i) (ky i) * es i)) (fun i => ci * RtoC nn ^+ 2 / kz_of (RtoC nn) (kx i) (ky i) * ep i).
Proof.
move=> n0 hg; apply: homog2_rot.
- exact: varphi_directions rvx rvy.
- by rewrite expf_neq0 //; apply: RtoC_neq0.
- by move=> i; have [h1 h2] := hoff (ltn_ord i); rewrite mulf_neq0 //; apply/eqP.
- by move=> i; exact: kz2.
- by move=> i; exact: kz_n0.
Qed.

Definition inc_xy (p : C) : 'cV[C]_(n + n) :=
  let d (i : 'I_n) : C := if i == (n %/ 2)%N :> nat then 1 else 0 in
  e_xy c s (fun i => csin p * d i) (fun i => - (ccos p * ccos (RtoC th) * d i)).

Lemma kz_mid (i : 'I_n) : i = (n %/ 2)%N :> nat -> kz_of (RtoC nt) (kx i) (ky i) = RtoC nt * ccos (RtoC th).
Proof.
move=> ei; have e2 : kx i ^+ 2 + ky i ^+ 2 = RtoC (nt * sin th) ^+ 2 by rewrite ei.
have ht : (0 <= th < PI / 2)%coqR by lra.
by rewrite /kz_of -addrA -opprD e2 (kz_center (x := RtoC (nt * sin th)) nt0 ht (erefl _)) ccos_real RtoC_mul.
Qed.

Lemma above_split p (r : diffraction n) : above_sp (RtoC nt) (RtoC th) p kx ky c s (R_s r) (R_p r) =
  (inc_xy p + refl_xy (RtoC nt) kx ky c s r, homog2_V n (RtoC nt ^+ 2) kx ky *m (inc_xy p - refl_xy (RtoC nt) kx ky c s r)).
Proof.
have n0 : RtoC nt != 0 by apply: RtoC_neq0; lra.
have n20 : RtoC nt ^+ 2 != 0 by rewrite expf_neq0.
rewrite /inc_xy /refl_xy e_xyD e_xyB half_V //; last lra.
rewrite /above_sp; congr pair.
apply: h_xy_eq => i; have z0 := kz_n0 i hgt.
- case: ifP => [/eqP ei|_]; last by rewrite !mulr0; mring.
  have ez := kz_mid ei.
  rewrite ez; mring.
- have m1 : ci * RtoC nt ^+ 2 / kz_of (RtoC nt) (kx i) (ky i) * (ci / RtoC nt ^+ 2 * kz_of (RtoC nt) (kx i) (ky i)) = -1.
    rewrite -ci2; set Z := kz_of _ _ _ in z0 *; set N := RtoC nt ^+ 2 in n20 *.
    rewrite (_ : ci * N / Z * (ci / N * Z) = ci * ci * ((N / N) * (Z / Z))); last by mring.
    by rewrite !mulfV // !mulr1.
  rewrite opprK mulrDr mulrA m1 mulN1r.
  case: ifP => [/eqP ei|_]; last by rewrite !mulr0 oppr0 mulr0; mring.
  have ez := kz_mid ei.
  rewrite ez in z0 *; congr (_ - _).
  have c0 : ccos (RtoC th) != 0 by apply: contraNneq z0 => ->; rewrite mulr0.
  rewrite !mulr1 invfM; set N := RtoC nt in n0 *; set K := ccos (RtoC th) in c0 *.
  rewrite (_ : ci * N ^+ 2 * (N^-1 * K^-1) * - (ccos p * K) = - (ci * N * ccos p) * ((N / N) * (K / K))); last by rewrite expr2; mring.
  by rewrite !mulfV // !mulr1.
Qed.

Lemma below_split (r : diffraction n) : below_sp (RtoC nb) kx ky c s (T_s r) (T_p r) =
  (trans_xy (RtoC nb) kx ky c s r, homog2_V n (RtoC nb ^+ 2) kx ky *m trans_xy (RtoC nb) kx ky c s r).
Proof.
have n0 : RtoC nb != 0 by apply: RtoC_neq0.
have n20 : RtoC nb ^+ 2 != 0 by rewrite expf_neq0.
rewrite /trans_xy half_V // /below_sp; congr pair.
apply: h_xy_eq => i; have z0 := kz_n0 i hgb; first by mring.
set Z := kz_of _ _ _ in z0 *; set N := RtoC nb ^+ 2 in n20 *.
rewrite (_ : ci * N / Z * (ci / N * Z * T_p r i ord0) = ci * ci * ((N / N) * (Z / Z)) * T_p r i ord0); last by mring.
by rewrite !mulfV // !mulr1 ci2 mulN1r.
Qed.

(** For each incidence, the scattering matrix takes the incident field to the fields of the transfer-matrix solver. *)
Lemma device_2d psi (ls : seq (layer n)) r infos sl Vg S :
  rcwa_2d pinv eig false kx ky k0 psi (RtoC th) (RtoC nt) (RtoC nb) ls = Some (r, infos) -> smm_slabs eig kx ky ls = Some sl ->
  device k0 1%:M Vg (homog2_V n (RtoC nt ^+ 2) kx ky) (homog2_V n (RtoC nb ^+ 2) kx ky) sl = Some S ->
  forall p d, (p, d) = (psi, res r) \/ (p, d) = (RtoC (PI / 2), res_te_inc r) \/ (p, d) = (RtoC 0, res_tm_inc r) ->
  refl_xy (RtoC nt) kx ky c s d = S11 S *m inc_xy p /\ trans_xy (RtoC nb) kx ky c s d = S21 S *m inc_xy p.
Proof.
rewrite /rcwa_2d /transfer_sp_1; case: ifP => // _.
case hs: (stack_with _ _ _) => [[[[F G] T] is']|] //.
case h4: (transfer_sp_4 _ _ _ _ _ _ _ _ _ _ _) => [r4|] //; have [uA ->] := transfer_sp_4_some h4.
case=> <- _ hsl hS; have hcs := varphi_rot rvx rvy; rewrite -/c -/s in hcs hs.
have key p : let d := (extract_sp (solveRT F G (kz_2d (RtoC nt) kx ky) p (RtoC th) (RtoC nt)) T (kz_2d (RtoC nt) kx ky) (kz_2d (RtoC nb) kx ky) (RtoC th) (RtoC nt) (RtoC nb)).1 in
    refl_xy (RtoC nt) kx ky c s d = S11 S *m inc_xy p /\ trans_xy (RtoC nb) kx ky c s d = S21 S *m inc_xy p.
  have [e1 e2] := extract_face (RtoC th) (RtoC nb) hcs T (kz_2d (RtoC nb) kx ky) p uA.
  move: e1 e2; set d := extract_sp _ _ _ _ _ _ _ => e1 e2.
  have ht := stack_through_2d hcs hs hsl d.2.
  have eb : below_sp (RtoC nb) kx ky c s (T_s d.1) (T_p d.1) = face (RotE n c s) (RotHi n c s) (F0_sp n kx ky (RtoC nb)) (G0_sp n kx ky (RtoC nb)) (T *m d.2).
    by rewrite -e2 -belowE_sp col_mxKu col_mxKd.
  rewrite above_split /face in e1; rewrite below_split /face in eb; case: e1 => a1 a2; case: eb => b1 b2.
  have hb : between k0 (homog2_V n (RtoC nt ^+ 2) kx ky) (homog2_V n (RtoC nb ^+ 2) kx ky) sl (inc_xy p) (refl_xy (RtoC nt) kx ky c s d.1)
      (trans_xy (RtoC nb) kx ky c s d.1) 0.
    by rewrite /between a1 a2 addr0 subr0 b2 b1; exact: ht.
  have [e3 e4] := (device_direct hS _ _ _ _).2 hb.
  by rewrite !mulmx0 !addr0 in e3 e4.
move=> p d [[-> ->]|[[-> ->]|[-> ->]]]; exact: key.
Qed.
End Agree.
