(** The 2D scattering-matrix functions against the transfer-matrix solver. *)
From Coq Require Import Reals Lra Psatz.
From mathcomp Require Import all_ssreflect ssralg matrix mxalgebra.
From Coquelicot Require Import Complex.
From Verif Require Import Cplx Mx Spec SpecSolve SpecField ModelTM ModelSMM ModelSMM2D ProofFlux ProofEff ProofEnergy1D ProofEnergy2D ProofEnd
  ProofSubstrate ProofWellSolve ProofField ProofBVP ProofBVP2 ProofFilmSolve SpecSMM ProofSMM ProofSMM2.

Set Implicit Arguments.
Unset Strict Implicit.
Unset Printing Implicit Defensive.
Local Open Scope ring_scope.
Import GRing.Theory.

Lemma np_inv1 n : np_inv (1%:M : 'M[C]_n) = Some 1%:M.
Proof. by rewrite /np_inv unitmx1 invmx1. Qed.

Section Modes.
Variable pinv : forall n, 'M[C]_n -> 'M[C]_n.
Variable eig : forall n, 'M[C]_n -> 'rV[C]_n * 'M[C]_n.
Variable n : nat.
Variables (kx ky : nat -> C).
Let Kx := diagf n kx.
Let Ky := diagf n ky.

Lemma diagfC (f g : nat -> C) : diagf n f *m diagf n g = diagf n g *m diagf n f.
Proof. by rewrite /diagf; exact: FcFs. Qed.

Lemma smm_PE (z : 'M[C]_n) : smm_P Kx Ky z = - OmL Kx Ky z.
Proof. by rewrite /smm_P /OmL opp_block_mx !opprK !opprB !mulNmx addrC. Qed.
Lemma smm_QE (x y : 'M[C]_n) : smm_Q Kx Ky x y 1%:M = - OmR Kx Ky x y.
Proof. by rewrite /smm_Q /OmR opp_block_mx !mulmx1 !opprB !mulNmx opprK [- (Kx *m Kx) + _]addrC [- x + _]addrC. Qed.
Lemma smm_PQ (x y z : 'M[C]_n) : smm_P Kx Ky z *m smm_Q Kx Ky x y 1%:M = OmL Kx Ky z *m OmR Kx Ky x y.
Proof. by rewrite smm_PE smm_QE mulNmx mulmxN opprK. Qed.

Lemma wv_is_tmm (x y z : 'M[C]_n) W V q : smm_wv eig kx ky x y z = Some (W, V, q) ->
  transfer_2d_2 pinv eig false kx ky x y z = Some (W, - V, q).
Proof.
rewrite /smm_wv; case: np_inv => [_|] //; rewrite np_inv1 -/Kx -/Ky smm_PQ (OmLR _ _ _ (diagfC kx ky)) smm_QE /transfer_2d_2 -/Kx -/Ky.
case: (eig _) => lam w; rewrite /np_inv /meeinv; case: ifP => // u [<- <- <-].
by rewrite -[block_mx _ _ _ _]/(OmR Kx Ky x y) !mulNmx opprK.
Qed.

(** The layer modes are those of the transfer-matrix solver; the magnetic ones have the opposite sign. *)
Lemma wv_iff (x y z : 'M[C]_n) W V q : z \in unitmx ->
  smm_wv eig kx ky x y z = Some (W, V, q) <-> transfer_2d_2 pinv eig false kx ky x y z = Some (W, - V, q).
Proof.
move=> uz; split; first exact: wv_is_tmm.
rewrite /smm_wv {1}/np_inv uz np_inv1 -/Kx -/Ky smm_PQ (OmLR _ _ _ (diagfC kx ky)) smm_QE /transfer_2d_2 -/Kx -/Ky.
case: (eig _) => lam w; rewrite /np_inv /meeinv; case: ifP => // u [<- e <-]; congr (Some (_, _, _)).
by apply: oppr_inj; rewrite -e -[block_mx _ _ _ _]/(OmR Kx Ky x y) !mulNmx opprK.
Qed.
End Modes.

Section Stack.
Variable pinv : forall n, 'M[C]_n -> 'M[C]_n.
Variable eig : forall n, 'M[C]_n -> 'rV[C]_n * 'M[C]_n.
Variable n : nat.
Variables (kx ky c s : nat -> C) (k0 : R).
Hypothesis hcs : rot_ok n c s.
Notation RE := (RotE n c s).
Notation RH := (RotHi n c s).

Lemma stack_through_2d F0 G0 (ls : seq (layer n)) F G T infos sl :
  stack_with (step_2d pinv eig false kx ky c s k0) ls (F0, G0, 1%:M, [::]) = Some (F, G, T, infos) ->
  smm_slabs eig kx ky ls = Some sl ->
  forall t : 'cV[C]_(n + n), SpecSMM.through k0 sl (RE *m (F *m t)) (- (RH *m (G *m t))) (RE *m (F0 *m (T *m t))) (- (RH *m (G0 *m (T *m t)))).
Proof.
elim: ls F G T infos sl => [|l ls IH] F G T infos sl /=; first by case=> <- <- <- _ [<-] t /=; rewrite mul1mx.
case E: (stack_with _ _ _) => [[[[F1 G1] T1] infos1]|] //; rewrite /step_2d.
case hw: (smm_wv _ _ _ _ _ _) => [[[W V] q]|] //; rewrite (wv_is_tmm pinv hw).
case E1: (smm_slabs _ _ _ _) => [sl1|] //; rewrite /transfer_2d_3 big_2d_rot Xmat_row.
case E2: layer_update => [[[[[F' G'] T'] Ai] B]|] // [<- <- <- _] [<-] t /=.
have [e1 e2 e3 e4 e5] := layer_update_through E2 t.
rewrite smm_XE; exists t, (B *m (Ai *m Xmat k0 q (thick l) *m t)).
have kE (v : 'cV[C]_(n + n)) : RE *m (RE *m v) = v by rewrite mulmxA rot_E_K // mul1mx.
have kH (v : 'cV[C]_(n + n)) : RH *m (RotH n c s *m v) = v by rewrite mulmxA rot_H_K // mul1mx.
split.
- by rewrite e1 -mulmxA kE.
- by rewrite e2 -!mulmxA kH mulNmx opprK.
have := IH _ _ _ _ _ E E1 (Ai *m Xmat k0 q (thick l) *m t).
by rewrite -e3 -e4 -e5 -!mulmxA kE kH mulNmx opprK.
Qed.
End Stack.

(** ** Half-spaces *)
Lemma perturb_neq0 : perturbation != 0.
Proof.
rewrite /perturbation; apply/eqP => /(congr1 fst) e; change ((/ 10 ^ 10)%coqR = 0%coqR) in e; move: e.
by apply: Rinv_neq_0_compat; apply: pow_nonzero; lra.
Qed.

Section Half.
Variable n : nat.
Variables (kx ky c s : nat -> C) (e : C).
Hypothesis hd : directions n kx ky c s.
Hypothesis e0 : e != 0.
Hypothesis hxy : forall i : 'I_n, kx i * ky i != 0.
Let kz i := conj (csqrt (e - kx i ^+ 2 - ky i ^+ 2)).
Hypothesis hkz : forall i : 'I_n, kz i * kz i = e - kx i ^+ 2 - ky i ^+ 2.
Hypothesis hz : forall i : 'I_n, kz i != 0.

(** The magnetic field of a down-going wave. *)
Lemma homog2_rot (es ep : 'I_n -> C) :
  homog2_V n e kx ky *m e_xy c s es ep = h_xy c s (fun i => - (ci * kz i * es i)) (fun i => ci * e / kz i * ep i).
Proof.
rewrite /homog2_V -mulmxA /e_xy /h_xy mul_block_col !mul0mx addr0 add0r /homog2_Q mul_block_col.
have i0 : ci != 0 by exact: ci_neq0.
have pE x : e * (e^-1 * x) = x by rewrite mulrA divff // mul1r.
have iV : ci^-1 = - ci by apply: (mulfI i0); rewrite mulfV // mulrN ci2 opprK.
congr col_mx; apply/colP => i; rewrite mxE /diagf !diag_mulE ![in LHS]mxE [in RHS]mxE; have [_ h2 _ _ _] := hd i; rewrite !pE /homog2_kz /orp.
- rewrite (negbTE (hxy i)) -/(kz i) (negbTE (hz i)) invfM iV.
  have hk := hkz i; have hz0 := hz i; move: hk h2; move: (kx i) (ky i) (c i) (s i) (es i) (ep i) => X Y cc ss a b hk h2.
  have hi := mulfV hz0; move: hi hk; move: (kz i) (kz i)^-1 => Z Zi hi hk.
  have ee : e = Z * Z + X ^+ 2 + Y ^+ 2 by rewrite hk; mring.
  have k0 : cc * Y - ss * X = 0 by rewrite h2 subrr.
  rewrite ee; transitivity (cc * - (ci * (Z * Z * Zi) * a) - ss * (ci * (Z * Z + X ^+ 2 + Y ^+ 2) * Zi * b) - ci * Zi * (b * X + a * Y) * (cc * Y - ss * X)).
    by rewrite !expr2; cring.
  by rewrite k0 mulr0 subr0 -(mulrA Z) hi mulr1.
- have nxy : - (ky i * kx i) != 0 by rewrite oppr_eq0 mulrC.
  rewrite (negbTE nxy) -/(kz i) (negbTE (hz i)) invfM iV.
  have hk := hkz i; have hz0 := hz i; move: hk h2; move: (kx i) (ky i) (c i) (s i) (es i) (ep i) => X Y cc ss a b hk h2.
  have hi := mulfV hz0; move: hi hk; move: (kz i) (kz i)^-1 => Z Zi hi hk.
  have ee : e = Z * Z + X ^+ 2 + Y ^+ 2 by rewrite hk; mring.
  have k0 : cc * Y - ss * X = 0 by rewrite h2 subrr.
  rewrite ee; transitivity (ss * - (ci * (Z * Z * Zi) * a) + cc * (ci * (Z * Z + X ^+ 2 + Y ^+ 2) * Zi * b) + ci * Zi * (a * X - b * Y) * (cc * Y - ss * X)).
    by rewrite !expr2; cring.
  by rewrite k0 mulr0 addr0 -(mulrA Z) hi mulr1.
Qed.
End Half.
