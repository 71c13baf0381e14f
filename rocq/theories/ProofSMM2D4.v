From Coq Require Import Reals Lra Psatz.
From mathcomp Require Import all_ssreflect ssralg matrix mxalgebra.
From Coquelicot Require Import Complex.
From Verif Require Import Cplx Mx Spec SpecSolve SpecField ModelTM ModelSMM ModelSMM2D SpecSMM2D ProofFlux ProofEff ProofEnergy1D ProofEnergy2D ProofEnd
  ProofSubstrate ProofWellSolve ProofField ProofBVP ProofBVP2 ProofFilmSolve SpecSMM ProofSMM ProofSMM2 ProofSMM2D ProofSMM2D2 ProofSMM2D3 ProofAbsorb ProofAbsorb3 ProofWell.

Set Implicit Arguments.
Unset Strict Implicit.
Unset Printing Implicit Defensive.
Local Open Scope ring_scope.
Import GRing.Theory.

(** ** A bare interface under index 1 *)
Lemma half_unit n (c s : nat -> C) (M : 'M[C]_(n + n)) (a b : 'I_n -> C) : (forall i : 'I_n, c i * c i + s i * s i = 1) ->
  (forall i, a i != 0) -> (forall i, b i != 0) ->
  (forall es ep, M *m e_xy c s es ep = h_xy c s (fun i => a i * es i) (fun i => b i * ep i)) -> M \in unitmx.
Proof.
move=> cs a0 b0 h; apply: unit_inj => v hv.
pose es (i : 'I_n) := c i * dsubmx v i ord0 - s i * usubmx v i ord0.
pose ep (i : 'I_n) := c i * usubmx v i ord0 + s i * dsubmx v i ord0.
have ev : v = e_xy c s es ep.
  rewrite -[v in LHS]vsubmxK /e_xy; congr col_mx; apply/colP => i; rewrite [RHS]mxE /es /ep.
  - rewrite (_ : _ - _ = (c i * c i + s i * s i) * usubmx v i ord0); last by mring.
    by rewrite cs mul1r.
  - rewrite (_ : _ + _ = (c i * c i + s i * s i) * dsubmx v i ord0); last by mring.
    by rewrite cs mul1r.
have hz := hv; rewrite {1}ev h in hz.
have [h1 h2] : (forall i, es i = 0) /\ (forall i, ep i = 0).
  have k (i : 'I_n) : c i * (a i * es i) - s i * (b i * ep i) = 0 /\ s i * (a i * es i) + c i * (b i * ep i) = 0.
    have e1 := congr1 (fun x => usubmx x i ord0) hz; have e2 := congr1 (fun x => dsubmx x i ord0) hz.
    by move: e1 e2; rewrite /= /h_xy col_mxKu col_mxKd !mxE.
  split=> i; have [k1 k2] := k i.
  - apply: (mulfI (a0 i)); rewrite mulr0 -[LHS]mul1r -(cs i).
    rewrite [LHS](_ : _ = c i * (c i * (a i * es i) - s i * (b i * ep i)) + s i * (s i * (a i * es i) + c i * (b i * ep i))); last by mring.
    by rewrite k1 k2 !mulr0 addr0.
  - apply: (mulfI (b0 i)); rewrite mulr0 -[LHS]mul1r -(cs i).
    rewrite [LHS](_ : _ = c i * (s i * (a i * es i) + c i * (b i * ep i)) - s i * (c i * (a i * es i) - s i * (b i * ep i))); last by mring.
    by rewrite k1 k2 !mulr0 subrr.
rewrite ev /e_xy -[0 in RHS]vsubmxK; congr col_mx; apply/colP => i; rewrite !mxE h1 h2 !mulr0 ?subrr ?addr0 //.
Qed.

Lemma h_xyD n (c s : nat -> C) (a b a' b' : 'I_n -> C) : h_xy c s a b + h_xy c s a' b' = h_xy c s (fun i => a i + a' i) (fun i => b i + b' i).
Proof. by rewrite /h_xy add_col_mx; congr col_mx; apply/colP => i; rewrite !mxE; mring. Qed.

Section Bare.
Variable n : nat.
Variables (kx ky : nat -> C) (k0 : R) (th ph nb : R).
Hypothesis rx : forall i, (i < n)%N -> exists x : R, kx i = RtoC x.
Hypothesis ry : forall i, (i < n)%N -> exists x : R, ky i = RtoC x.
Hypothesis nb0 : (1 < nb)%coqR.
Hypothesis hoff : off_axes n kx ky.
Hypothesis hprop : forall i x y, (i < n)%N -> kx i = RtoC x -> ky i = RtoC y -> (x * x + y * y < 1)%coqR.
Let c := fun i => cos_varphi (kx i) (ky i).
Let s := fun i => sin_varphi (kx i) (ky i).
Let V e := homog2_V n e kx ky.

Lemma kz_pos nn (i : 'I_n) : (1 <= nn)%coqR -> exists2 z, (0 < z)%coqR & kz_of (RtoC nn) (kx i) (ky i) = RtoC z.
Proof.
move=> h; have [x ex] := rx (ltn_ord i); have [y ey] := ry (ltn_ord i); have hp := hprop (ltn_ord i) ex ey.
have p : (0 < nn * nn - x * x - y * y)%coqR by nra.
exists (sqrt (nn * nn - x * x - y * y)); first by apply: sqrt_lt_R0.
rewrite /kz_of ex ey !expr2 -!RtoC_mul -!RtoC_sub csqrt_nonneg ?conjR //; lra.
Qed.

Lemma graz nn : (1 <= nn)%coqR -> off_grazing n (RtoC nn) kx ky.
Proof.
move=> h i hi; have [x ex] := rx hi; have [y ey] := ry hi; have hp := hprop hi ex ey.
by rewrite ex ey !expr2 -!RtoC_mul -RtoC_add => - []; nra.
Qed.

Lemma cs1 (i : 'I_n) : c i * c i + s i * s i = 1.
Proof. by have [_ _ h] := varphi_rot (rvx rx) (rvy ry); exact: h. Qed.

Lemma V_rot nn es ep : (1 <= nn)%coqR -> V (RtoC nn ^+ 2) *m e_xy c s es ep =
  h_xy c s (fun i => - (ci * kz_of (RtoC nn) (kx i) (ky i)) * es i) (fun i => ci * RtoC nn ^+ 2 / kz_of (RtoC nn) (kx i) (ky i) * ep i).
Proof.
move=> h; rewrite (half_V rx ry hoff) //; last exact: graz; last lra.
by apply: h_xy_eq => i //; rewrite mulNr.
Qed.

Lemma ciR z : z <> 0%coqR -> ci * RtoC z != 0.
Proof. by move=> z0; rewrite mulf_neq0 ?RtoC_neq0 //; exact: ci_neq0. Qed.

Lemma V_unit nn : (1 <= nn)%coqR -> V (RtoC nn ^+ 2) \in unitmx.
Proof.
move=> h; apply: (half_unit cs1 _ _ (fun es ep => V_rot es ep h)) => i; have [z z0 ->] := kz_pos i h.
- by rewrite oppr_eq0 ciR //; lra.
- rewrite mulf_neq0 ?invr_neq0 ?RtoC_neq0 //; last lra.
  by rewrite expr2 -RtoC_mul ciR //; nra.
Qed.
Lemma V2_unit nn mm : (1 <= nn)%coqR -> (1 <= mm)%coqR -> V (RtoC nn ^+ 2) + V (RtoC mm ^+ 2) \in unitmx.
Proof.
move=> h h'; apply: (half_unit (a := fun i => - (ci * kz_of (RtoC nn) (kx i) (ky i)) - (ci * kz_of (RtoC mm) (kx i) (ky i)))
  (b := fun i => ci * RtoC nn ^+ 2 / kz_of (RtoC nn) (kx i) (ky i) + ci * RtoC mm ^+ 2 / kz_of (RtoC mm) (kx i) (ky i)) cs1).
- move=> i; have [z z0 ->] := kz_pos i h; have [z' z0' ->] := kz_pos i h'.
  by rewrite -opprD oppr_eq0 -mulrDr -RtoC_add ciR //; lra.
- move=> i; have [z z0 ->] := kz_pos i h; have [z' z0' ->] := kz_pos i h'.
  rewrite !expr2 -!RtoC_mul -!RtoC_inv; [|lra|lra].
  rewrite -!mulrA -mulrDr -!RtoC_mul -RtoC_add.
  apply: ciR; apply: Rgt_not_eq.
  by apply: Rplus_lt_0_compat; apply: Rmult_lt_0_compat; try nra; apply: Rinv_0_lt_compat.
- by move=> es ep; rewrite mulmxDl !V_rot // h_xyD; apply: h_xy_eq => i; mring.
Qed.

Lemma Vg_one : V 1 = V (RtoC 1 ^+ 2).
Proof. by rewrite expr1n. Qed.

Lemma bare_device : exists S, device k0 1%:M (V 1) (V (RtoC 1 ^+ 2)) (V (RtoC nb ^+ 2)) [::] = Some S.
Proof.
rewrite Vg_one; have u1 := V_unit (Rle_refl 1).
have hb : (1 <= nb)%coqR by lra.
have u2 := V2_unit (Rle_refl 1) hb.
rewrite /device /ab_half /np_inv u1 /= mulVmx //.
have e2 : (1%:M + 1%:M : 'M[C]_(n + n)) = (RtoC 2)%:M by rewrite -raddfD /=; congr _%:M; cext.
have u3 : (1%:M + 1%:M : 'M[C]_(n + n)) \in unitmx by rewrite e2 unitmxE det_scalar unitfE expf_neq0 // RtoC_neq0 //; lra.
rewrite /s_rt /np_inv u3 subrr mulmx0 mul0mx.
have u4 : 1%:M + invmx (V (RtoC 1 ^+ 2)) *m V (RtoC nb ^+ 2) \in unitmx.
  by rewrite -[1%:M](mulVmx u1) -mulmxDr unitmx_mul unitmx_inv u1.
rewrite u4 /star /np_inv /= mul0mx !mulmx0 !subr0 unitmx1; by eexists.
Qed.
End Bare.
