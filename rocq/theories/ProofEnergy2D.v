(** Energy conservation of the conical and 2D solvers. *)
From Coq Require Import Reals Lra Psatz.
From mathcomp Require Import all_ssreflect ssralg matrix mxalgebra.
From Coquelicot Require Import Complex.
From Verif Require Import Cplx Mx ModelTM ProofFlux ProofEnergy1D.

Set Implicit Arguments.
Unset Strict Implicit.
Unset Printing Implicit Defensive.
Local Open Scope ring_scope.
Import GRing.Theory.

Lemma adj_block m1 m2 n1 n2 (A : 'M[C]_(m1, n1)) (B : 'M[C]_(m1, n2)) (D : 'M[C]_(m2, n1)) (E : 'M[C]_(m2, n2)) :
  adj (block_mx A B D E) = block_mx (adj A) (adj D) (adj B) (adj E).
Proof. by rewrite /adj tr_block_mx map_block_mx. Qed.
Lemma adj_col m1 m2 n (A : 'M[C]_(m1, n)) (B : 'M[C]_(m2, n)) : adj (col_mx A B) = row_mx (adj A) (adj B).
Proof. by rewrite /adj tr_col_mx map_row_mx. Qed.

(** The signs of the s and p power terms. *)
Definition Ssp n : 'M[C]_(n + n) := block_mx (- 1%:M) 0 0 1%:M.
Definition Jxy n : 'M[C]_(n + n) := block_mx 0 1%:M (- 1%:M) 0.

Lemma adj_Ssp n : adj (Ssp n) = Ssp n.
Proof. by rewrite /Ssp adj_block adjN !adj1 !adj0. Qed.

Lemma Xmat_row n k0 (q : 'rV[C]_(n + n)) d : big_X k0 q d = Xmat k0 q d.
Proof.
rewrite /big_X /Xmat -diag_mx_row; congr diag_mx.
apply/rowP => j; rewrite !mxE; case: splitP => k e; rewrite !mxE.
- by congr (cexp (_ * _ _ _ * _)); apply: val_inj.
- by congr (cexp (_ * _ _ _ * _)); apply: val_inj.
Qed.

Lemma conical_is_2d n (W1 W2 V11 V12 V21 V22 : 'M[C]_n) c s :
  conical_big (row_mx W1 W2) (block_mx V11 V12 V21 V22) c s =
  big_2d (block_mx 0 W2 V11 V12) (block_mx W1 0 V21 V22) c s.
Proof.
rewrite /conical_big /big_2d !block_mxKul !block_mxKur !block_mxKdl !block_mxKdr row_mxKl row_mxKr.
by rewrite !mulmx0 !subr0 !add0r.
Qed.

(** c, s real with c^2 + s^2 = 1 on every order. *)
Definition rot_ok n (c s : nat -> C) :=
  [/\ real_vec n c, real_vec n s & forall i, (i < n)%N -> c i * c i + s i * s i = 1].

Section Rot.
Variables (n : nat) (c s : nat -> C).
Hypothesis hcs : rot_ok n c s.
Let Fc := diagf n c.
Let Fs := diagf n s.

Definition RotE : 'M[C]_(n + n) := block_mx (- Fs) Fc Fc Fs.
Definition RotH : 'M[C]_(n + n) := block_mx Fc Fs (- Fs) Fc.

Lemma big_2d_rot (W V : 'M[C]_(n + n)) : big_2d W V c s = (RotE *m W, RotH *m V).
Proof.
rewrite /big_2d -{9}(submxK W) -{9}(submxK V) /RotE /RotH !mulmx_block !mulNmx.
congr (block_mx _ _ _ _, block_mx _ _ _ _); by rewrite addrC.
Qed.

Lemma FF1 : Fc *m Fc + Fs *m Fs = 1%:M.
Proof.
have [_ _ h] := hcs; rewrite /Fc /Fs !diagfM diagfD -diagf1; exact: diagf_eq.
Qed.
Lemma FcFs : Fc *m Fs = Fs *m Fc.
Proof. by rewrite /Fc /Fs !diagfM; apply: diagf_eq => i _; rewrite mulrC. Qed.

Lemma rot_J : adj RotE *m Ssp n *m RotH = Jxy n.
Proof.
have [rc rs _] := hcs.
have hc : adj Fc = Fc by apply: herm_diag.
have hs : adj Fs = Fs by apply: herm_diag.
rewrite /RotE /RotH /Ssp /Jxy adj_block !adjN hc hs !mulmx_block.
rewrite !(mulmx0, mulmx1, mulmxN, mulNmx, add0r, addr0, opprK) -FcFs.
congr block_mx.
- by rewrite subrr.
- by rewrite addrC FF1.
- by rewrite -opprD FF1.
- by rewrite addNr.
Qed.

Lemma rot_E_K : RotE *m RotE = 1%:M.
Proof.
rewrite /RotE mulmx_block !(mulNmx, mulmxN) opprK -FcFs.
rewrite [Fs *m Fs + _]addrC FF1 addNr. rewrite -scalar_mx_block.
 by [].
Qed.

End Rot.

(** ** Modal equations *)
Section Modal.
Variable n : nat.
Variables (Kx Ky Ex Ey Ei : 'M[C]_n).

Definition OmR : 'M[C]_(n + n) := block_mx (- Kx *m Ky) (Kx *m Kx - Ey) (Ex - Ky *m Ky) (Ky *m Kx).
Definition OmL : 'M[C]_(n + n) :=
  block_mx (- (Kx *m Ei *m Ky)) (Kx *m Ei *m Kx - 1%:M) (1%:M - Ky *m Ei *m Ky) (Ky *m Ei *m Kx).

Hypothesis KK : Kx *m Ky = Ky *m Kx.

Lemma OmLR : OmL *m OmR = block_mx
      (Ky *m Ky + (Kx *m Ei *m Kx - 1%:M) *m Ex) (Kx *m (Ei *m Ky *m Ey - Ky))
      (Ky *m (Ei *m Kx *m Ex - Kx)) (Kx *m Kx + (Ky *m Ei *m Ky - 1%:M) *m Ey).
Proof.
have e1 : Kx *m Ei *m Ky *m Kx *m Ky = Kx *m Ei *m Kx *m Ky *m Ky.
  by rewrite -[_ *m Ky *m Kx]mulmxA -KK mulmxA.
have e2 : Kx *m Ei *m Ky *m Kx *m Kx = Kx *m Ei *m Kx *m Ky *m Kx.
  by rewrite -[_ *m Ky *m Kx]mulmxA -KK mulmxA.
have e3 : Ky *m Ei *m Ky *m Kx *m Ky = Ky *m Ei *m Kx *m Ky *m Ky.
  by rewrite -[_ *m Ky *m Kx]mulmxA -KK mulmxA.
have e4 : Ky *m Ei *m Kx *m Ky *m Kx = Ky *m Ei *m Ky *m Kx *m Kx.
  by rewrite -[_ *m Kx *m Ky]mulmxA KK mulmxA.
rewrite /OmL /OmR mulmx_block.
rewrite !(mulmxDl, mulmxDr, mulmxBl, mulmxBr, mulNmx, mulmxN, mul1mx, opprK, mulmxA).
congr block_mx.
- rewrite e1; mxab.
- rewrite e2 -KK; mxab.
- rewrite e3 -KK; mxab.
- rewrite e4; mxab.
Qed.

Hypotheses (hKx : herm Kx) (hKy : herm Ky) (hEx : herm Ex) (hEy : herm Ey) (hEi : herm Ei).

Lemma JOmR_herm : herm (Jxy n *m OmR).
Proof.
rewrite /herm /Jxy /OmR mulmx_block !(mul0mx, mul1mx, mulNmx, add0r, addr0, opprK).
rewrite adj_block !adjN !adjB !adjM hKx hKy hEx hEy; congr block_mx; by rewrite KK.
Qed.

Lemma OmLJ_herm : herm (adj OmL *m Jxy n).
Proof.
rewrite /herm /Jxy /OmL adj_block mulmx_block !(mulmx0, mulmx1, mulmxN, add0r, addr0).
rewrite adj_block !(adjN, adjB, adjM, adj1, adjK) hKx hKy hEi !mulmxA ?opprB ?opprK.
by congr block_mx; rewrite ?mulmxA.
Qed.

Lemma modal_flux (W V : 'M[C]_(n + n)) (q : 'rV[C]_(n + n)) :
  OmL *m V = W *m diag_mx q -> OmR *m W = V *m diag_mx q ->
  herm (adj W *m Jxy n *m V *m diag_mx q) /\ herm (adj (diag_mx q) *m (adj W *m Jxy n *m V)).
Proof.
move=> eL eR; split.
- rewrite -mulmxA -eR !mulmxA -[_ *m Jxy n *m OmR]mulmxA.
  apply: herm_cong; exact: JOmR_herm.
- rewrite !mulmxA -adjM -eL adjM -[adj V *m _ *m _]mulmxA.
  apply: herm_cong; exact: OmLJ_herm.
Qed.

End Modal.

(** The conical modal matrices satisfy the same first-order equations when ky is common to all orders and epz_conv_i is the
    inverse of epy_conv (which holds for a y-uniform layer). *)
Section ModalConical.
Variable n : nat.
Variables (Kx Ex Ey Ei W1 W2 : 'M[C]_n) (ky : C) (q1 q2 : 'rV[C]_n).
Let Ky : 'M[C]_n := ky%:M.
Let A := Kx *m Kx - Ey.
Let B := Kx *m Ei *m Kx - 1%:M.
Let Q1 := diag_mx q1.
Let Q2 := diag_mx q2.
Hypotheses (uA : A \in unitmx) (uB : B \in unitmx) (EE : Ei *m Ey = 1%:M).
Hypothesis e1 : (Ky *m Ky + A) *m W1 = W1 *m (Q1 *m Q1).
Hypothesis e2 : (Ky *m Ky + B *m Ex) *m W2 = W2 *m (Q2 *m Q2).
Let Ai := invmx A.
Let Bi := invmx B.
Let V11 := Ai *m W1 *m Q1.
Let V12 := Ky *m Ai *m Kx *m W2.
Let V21 := Ky *m Bi *m Kx *m Ei *m W1.
Let V22 := Bi *m W2 *m Q2.
Let cW : 'M[C]_(n + n) := block_mx 0 W2 V11 V12.
Let cV : 'M[C]_(n + n) := block_mx W1 0 V21 V22.
Let q := row_mx q1 q2.

Lemma EE' : Ey *m Ei = 1%:M. Proof. exact: mulmx1C EE. Qed.

Lemma KxA : B *m Kx = Kx *m Ei *m A.
Proof. by rewrite /A /B mulmxBl mulmxBr mul1mx !mulmxA -[Kx *m Ei *m Ey]mulmxA EE mulmx1. Qed.
Lemma AKx : A *m Ei *m Kx = Kx *m B.
Proof. by rewrite /A /B !mulmxBl mulmxBr mulmx1 EE' mul1mx !mulmxA. Qed.
Lemma BiKx : Bi *m Kx *m Ei = Kx *m Ai.
Proof.
have h : Kx *m Ei = B *m Kx *m Ai by rewrite KxA mulmxK.
by rewrite -mulmxA h !mulmxA mulVmx // mul1mx.
Qed.
Lemma EiKxBi : Ei *m Kx *m Bi = Ai *m Kx.
Proof.
have h : Ei *m Kx = Ai *m Kx *m B by rewrite -mulmxA -AKx !mulmxA mulVmx // mul1mx.
by rewrite h mulmxK.
Qed.
Lemma KyC (M : 'M[C]_n) : Ky *m M = M *m Ky. Proof. by rewrite /Ky mul_scalar_mx mul_mx_scalar. Qed.

Lemma con_R : OmR Kx Ky Ex Ey *m cW = cV *m diag_mx q.
Proof.
rewrite /OmR /cW /cV /q diag_mx_row !mulmx_block !(mulmx0, mul0mx, addr0, add0r).
congr block_mx.
- by rewrite /V11 !mulmxA mulmxV // mul1mx.
- rewrite -/A /V12 !mulmxA -[A *m Ky]KyC -!mulmxA [A *m (Ai *m _)]mulmxA mulmxV // mul1mx.
  by rewrite !mulmxA !mulNmx [Ky *m Kx]KyC addNr.
- have h : Ky *m Bi *m Kx *m Ei = Ky *m Kx *m Ai by rewrite -[Ky *m Kx *m Ai]mulmxA -BiKx !mulmxA.
  by rewrite /V11 /V21 h !mulmxA.
- have -> : V22 *m diag_mx q2 = Bi *m ((Ky *m Ky + B *m Ex) *m W2) by rewrite e2 /V22 !mulmxA.
  rewrite /V12.
  have h : Kx *m Ai *m Kx = 1%:M + Bi.
    by rewrite -BiKx -!mulmxA [Kx *m (Ei *m Kx)]mulmxA -[Kx *m Ei *m Kx](subrK 1%:M) -/B mulmxDr mulVmx // mulmx1.
  have -> : Ky *m Kx *m (Ky *m Ai *m Kx *m W2) = Ky *m Ky *m (Kx *m Ai *m Kx) *m W2.
    by rewrite !mulmxA -[Ky *m Kx *m Ky]mulmxA -[Kx *m Ky]KyC !mulmxA.
  rewrite h -/Bi mulmxDl !mulmxDr mulmxBl mulmxDl mulmx1 !mulmxA.
  rewrite mulVmx // mul1mx -[Bi *m Ky]KyC -[Ky *m Bi *m Ky]mulmxA -[Bi *m Ky]KyC !mulmxA.
  mxab.
Qed.

Lemma con_L : OmL Kx Ky Ei *m cV = cW *m diag_mx q.
Proof.
rewrite /OmL /cW /cV /q diag_mx_row !mulmx_block !(mulmx0, mul0mx, addr0, add0r) -/B.
congr block_mx.
- rewrite /V21 !mulmxA -[B *m Ky]KyC -[Ky *m B *m Bi]mulmxA mulmxV // mulmx1.
  by rewrite -[Kx *m Ei *m Ky]KyC !mulmxA mulNmx addNr.
- by rewrite /V22 !mulmxA mulmxV // mul1mx.
- have -> : V11 *m diag_mx q1 = Ai *m ((Ky *m Ky + A) *m W1) by rewrite e1 /V11 !mulmxA.
  rewrite /V21.
  have h : Ei *m Kx *m Bi *m Kx *m Ei = Ei + Ai.
    rewrite -[_ *m Kx *m Ei]mulmxA -[_ *m Bi *m _]mulmxA [Bi *m _]mulmxA BiKx !mulmxA -[Ei *m Kx *m Kx]mulmxA.
    by rewrite -[Kx *m Kx](subrK Ey) -/A mulmxDr EE mulmxDl mul1mx -mulmxA mulmxV // mulmx1.
  have -> : Ky *m Ei *m Kx *m (Ky *m Bi *m Kx *m Ei *m W1) = Ky *m Ky *m (Ei *m Kx *m Bi *m Kx *m Ei) *m W1.
    by rewrite !mulmxA -[Ky *m Ei *m Kx *m Ky]mulmxA -[Kx *m Ky]KyC !mulmxA -[Ky *m Ei *m Ky]mulmxA -[Ei *m Ky]KyC !mulmxA.
  have hA : Ai *m A = 1%:M by rewrite mulVmx.
  rewrite h.
  have -> : Ai *m ((Ky *m Ky + A) *m W1) = Ai *m Ky *m Ky *m W1 + W1.
    by rewrite [(_ + A) *m W1]mulmxDl mulmxDr [Ai *m (A *m W1)]mulmxA hA mul1mx !mulmxA.
  rewrite [(1%:M - _) *m W1]mulmxBl mul1mx [Ky *m Ky *m (Ei + Ai)]mulmxDr mulmxDl.
  rewrite -[Ai *m Ky]KyC -[Ky *m Ai *m Ky]mulmxA -[Ai *m Ky]KyC !mulmxA.
  rewrite -[Ky *m Ei *m Ky]mulmxA -[Ei *m Ky]KyC !mulmxA.
  mxab.
- by rewrite /V22 /V12 !mulmxA -[Ky *m Ei *m Kx]mulmxA -[Ky *m _ *m Bi]mulmxA EiKxBi !mulmxA.
Qed.

End ModalConical.


(** ** Flux through the stack *)
Lemma diagf_comm n f g : diagf n f *m diagf n g = diagf n g *m diagf n f.
Proof. by rewrite !diagfM; apply: diagf_eq => i _; rewrite mulrC. Qed.

Section Stack.
Variable pinv : forall n, 'M[C]_n -> 'M[C]_n.
Variable eig : forall n, 'M[C]_n -> 'rV[C]_n * 'M[C]_n.
Hypothesis heig : eig_ok eig.
Variable n : nat.
Variables (kxt kyt c s : nat -> C).
Let Kx := diagf n kxt.
Let Ky := diagf n kyt.

Lemma modal_2d (l : layer n) W V q :
  transfer_2d_2 pinv eig false kxt kyt (epx l) (epy l) (epzi l) = Some (W, V, q) ->
  OmL Kx Ky (epzi l) *m V = W *m diag_mx q /\ OmR Kx Ky (epx l) (epy l) *m W = V *m diag_mx q.
Proof.
rewrite /transfer_2d_2 -/Kx -/Ky.
rewrite -(OmLR (epx l) (epy l) (epzi l) (diagf_comm n kxt kyt)) -/Kx -/Ky.
have := heig (OmL Kx Ky (epzi l) *m OmR Kx Ky (epx l) (epy l)).
case: (eig _) => lam U hU; rewrite /= in hU.
case hQ: (meeinv pinv false (diag_mx (sqrtv lam))) => [Qi|] //; have [uQ ->] := meeinv_some hQ.
case=> <- <- <-; split; last by rewrite mulmxKV.
rewrite -[X in OmL _ _ _ *m (X *m _ *m _)]/(OmR Kx Ky (epx l) (epy l)) !mulmxA.
by rewrite hU -sqrtv_sqr !mulmxA mulmxK.
Qed.

Definition y_uniform (l : layer n) := epzi l *m epy l = 1%:M.

Lemma modal_conical (ky0 : C) (l : layer n) W V q :
  (forall i, (i < n)%N -> kyt i = ky0) -> y_uniform l ->
  transfer_1d_conical_2 pinv eig false kxt kyt (epx l) (epy l) (epzi l) = Some (W, V, q) ->
  exists cW cV : 'M[C]_(n + n), conical_big W V c s = big_2d cW cV c s /\
  OmL Kx Ky (epzi l) *m cV = cW *m diag_mx q /\ OmR Kx Ky (epx l) (epy l) *m cW = cV *m diag_mx q.
Proof.
move=> hky hEE; rewrite /transfer_1d_conical_2 -/Kx -/Ky.
have eKy : Ky = ky0%:M.
  by apply/matrixP => i j; rewrite !mxE hky.
set A := Kx *m Kx - epy l; set B := Kx *m epzi l *m Kx - 1%:M.
have := heig (Ky *m Ky + A); case: (eig _) => l1 W1 h1; rewrite /= in h1.
have := heig (Ky *m Ky + B *m epx l); case: (eig _) => l2 W2 h2; rewrite /= in h2.
case hA: (meeinv pinv false A) => [Ai|] //; have [uA ->] := meeinv_some hA.
case hB: (meeinv pinv false B) => [Bi|] //; have [uB ->] := meeinv_some hB.
case=> <- <- <-.
rewrite -sqrtv_sqr eKy in h1; rewrite -sqrtv_sqr eKy in h2.
rewrite conical_is_2d eKy.
eexists _, _; split; [by []|split].
- exact: con_L uA uB hEE h1.
- exact: con_R uA uB hEE h2.
Qed.

Hypothesis hcs : rot_ok n c s.
Hypothesis rkx : real_vec n kxt.
Hypothesis rky : real_vec n kyt.

Lemma sp_flux_step (l : layer n) k0 (W V bW bV : 'M[C]_(n + n)) q (F G T F' G' T' Ai B : 'M[C]_(n + n)) :
  lossless l ->
  OmL Kx Ky (epzi l) *m V = W *m diag_mx q -> OmR Kx Ky (epx l) (epy l) *m W = V *m diag_mx q ->
  big_2d W V c s = (bW, bV) ->
  layer_update pinv false bW bV (big_X k0 q (thick l)) F G T = Some (F', G', T', Ai, B) ->
  exists P, T' = T *m P /\ flux (Ssp n) F' G' = adj P *m flux (Ssp n) F G *m P.
Proof.
move=> [hx hy hz] eL eR; rewrite big_2d_rot => -[<- <-] h3.
have [[uW uV uA eA eB] [-> -> ->]] := layer_update_some h3.
have [m1 m2] := modal_flux (herm_diag rkx) (herm_diag rky) hx hy hz eL eR.
have eM : adj (RotE n c s *m W) *m Ssp n *m (RotH n c s *m V) = adj W *m Jxy n *m V.
  by rewrite adjM !mulmxA -[adj W *m _ *m _]mulmxA -[adj W *m _ *m RotH n c s]mulmxA rot_J.
rewrite -eM in m1 m2.
rewrite Xmat_row.
exists (Ai *m Xmat k0 q (thick l)); split; first by rewrite mulmxA.
exact: (flux_step k0 (thick l) m1 m2 uW uV uA eA eB).
Qed.

Lemma flux_stack_2d k0 (ls : seq (layer n)) F G T is0 F' G' T' is1 :
  (forall l, List.In l ls -> lossless l) ->
  stack_with (step_2d pinv eig false kxt kyt c s k0) ls (F, G, T, is0) = Some (F', G', T', is1) ->
  exists P, T' = T *m P /\ flux (Ssp n) F' G' = adj P *m flux (Ssp n) F G *m P.
Proof.
elim: ls F' G' T' is1 => [|l ls IH] F' G' T' is1 hl /=.
  by case=> <- <- <- _; exists 1%:M; rewrite mulmx1 adj1 mul1mx mulmx1.
case hs: (stack_with _ _ _) => [[[[F1 G1] T1] is']|] //.
have [|P [eT eF]] := IH _ _ _ _ _ hs; first by move=> l' h; apply: hl; right.
rewrite /step_2d; case h2: (transfer_2d_2 _ _ _ _ _ _ _ _) => [[[W V] q]|] //.
rewrite /transfer_2d_3; case eb: (big_2d W V c s) => [bW bV].
case h3: (layer_update _ _ _ _ _ _ _ _) => [[[[[F2 G2] T2] Ai] B]|] // -[<- <- <- _].
have [eL eR] := modal_2d h2.
have [P' [eT' eF']] := sp_flux_step (hl l (or_introl erefl)) eL eR eb h3.
exists (P *m P'); split; first by rewrite eT' eT mulmxA.
by rewrite eF' eF adjM !mulmxA.
Qed.

Lemma flux_stack_conical ky0 k0 (ls : seq (layer n)) F G T is0 F' G' T' is1 :
  (forall i, (i < n)%N -> kyt i = ky0) ->
  (forall l, List.In l ls -> lossless l /\ y_uniform l) ->
  stack_with (step_conical pinv eig false kxt kyt c s k0) ls (F, G, T, is0) = Some (F', G', T', is1) ->
  exists P, T' = T *m P /\ flux (Ssp n) F' G' = adj P *m flux (Ssp n) F G *m P.
Proof.
move=> hky; elim: ls F' G' T' is1 => [|l ls IH] F' G' T' is1 hl /=.
  by case=> <- <- <- _; exists 1%:M; rewrite mulmx1 adj1 mul1mx mulmx1.
case hs: (stack_with _ _ _) => [[[[F1 G1] T1] is']|] //.
have [|P [eT eF]] := IH _ _ _ _ _ hs; first by move=> l' h; apply: hl; right.
rewrite /step_conical; case h2: (transfer_1d_conical_2 _ _ _ _ _ _ _ _) => [[[W V] q]|] //.
rewrite /transfer_1d_conical_3; case eb: (conical_big W V c s) => [bW bV].
case h3: (layer_update _ _ _ _ _ _ _ _) => [[[[[F2 G2] T2] Ai] B]|] // -[<- <- <- _].
have [hl1 hl2] := hl l (or_introl erefl).
have [cW [cV [ec [eL eR]]]] := modal_conical hky hl2 h2.
rewrite eb in ec.
have [P' [eT' eF']] := sp_flux_step hl1 eL eR (esym ec) h3.
exists (P *m P'); split; first by rewrite eT' eT mulmxA.
by rewrite eF' eF adjM !mulmxA.
Qed.

End Stack.

(** ** cos/sin of varphi *)
Lemma real_div (x y : C) : conj x = x -> conj y = y -> conj (x / y) = x / y.
Proof. by move=> hx hy; rewrite conjM conjV hx hy. Qed.

Lemma varphi_rot n (kxt kyt : nat -> C) :
  real_vec n kxt -> real_vec n kyt ->
  rot_ok n (fun i => cos_varphi (kxt i) (kyt i)) (fun i => sin_varphi (kxt i) (kyt i)).
Proof.
move=> rx ry.
have key : forall i, (i < n)%N -> kxt i != 0 -> exists t : R, kyt i / kxt i = RtoC t.
  move=> i hi _; exists (Re (kyt i / kxt i)); apply: conj_real; apply: real_div; [exact: ry|exact: rx].
have sq : forall t : R, csqrt (1 + RtoC t ^+ 2) = RtoC (sqrt (1 + t * t)) /\ sqrt (1 + t * t) <> 0%coqR
    /\ (sqrt (1 + t * t) * sqrt (1 + t * t) = 1 + t * t)%coqR.
  move=> t; have h : (0 < 1 + t * t)%coqR by nra.
  rewrite -csqrt_nonneg; last lra.
  rewrite RtoC_add RtoC_mul expr2; split => //; split; last by rewrite sqrt_sqrt; lra.
  by have := sqrt_lt_R0 _ h; lra.
split=> i hi.
- rewrite /cos_varphi; case: eqP => [_|/eqP nz]; first exact: conj0.
  have [t ->] := key i hi nz; have [-> [h _]] := sq t.
  by rewrite -RtoC_inv // conjR.
- rewrite /sin_varphi; case: eqP => [_|/eqP nz].
    by case: Rlt_dec => ?; rewrite ?conjN conj1.
  have [t ->] := key i hi nz; have [-> [h _]] := sq t.
  by rewrite -RtoC_div // conjR.
- rewrite /cos_varphi /sin_varphi; case: eqP => [_|/eqP nz].
    by case: Rlt_dec => ?; rewrite mulr0 add0r ?mulrNN mulr1.
  have [t ->] := key i hi nz; have [-> [h h2]] := sq t.
  rewrite -RtoC_inv // -!RtoC_mul -RtoC_add; congr RtoC.
  have -> : (/ sqrt (1 + t * t) * / sqrt (1 + t * t) + t * / sqrt (1 + t * t) * (t * / sqrt (1 + t * t))
     = (1 + t * t) / (sqrt (1 + t * t) * sqrt (1 + t * t)))%coqR by field.
  rewrite h2; field; nra.
Qed.

(** ** Boundary terms *)
Section BoundarySp.
Variables (n : nat) (hn : (0 < n)%N).

Lemma sum_delta (x : C) : \sum_(i < n) x * delta_i0 n i ord0 = x.
Proof.
rewrite (bigD1 (cidx hn)) //= cent /= eqxx mulr1 big1 ?addr0 // => i ne.
rewrite cent; case: eqP => [e|]; last by rewrite mulr0.
by case/eqP: ne; apply: val_inj.
Qed.

Lemma top_flux_a (kc w : R) (a : C) (kz : nat -> C) (Rv f g : 'cV[C]_n) :
  kz (n %/ 2)%N = RtoC kc ->
  (forall i, f i ord0 = Rv i ord0 + a * delta_i0 n i ord0) ->
  (forall i : 'I_n, g i ord0 = RtoC w * (ci * RtoC kc * a * delta_i0 n i ord0 - ci * kz i * Rv i ord0)) ->
  (adj f *m g - adj g *m f) ord0 ord0 =
  2%:R * ci * (RtoC w * (RtoC kc * RtoC (nrm2 a) - \sum_(i < n) RtoC (nrm2 (Rv i ord0)) * RtoC (Re (kz i)))).
Proof.
move=> hk hf hg.
rewrite mxE [X in _ + X]mxE !dot_sum -sumrB.
rewrite -(sum_delta (RtoC kc * RtoC (nrm2 a))).
rewrite -sumrB !big_distrr /=; apply: eq_bigr => i _.
rewrite hf hg cent; have -> : (2%:R : C) = 1 + 1 by [].
case: eqP => [e|_].
- rewrite -e in hk; rewrite hk Re_RtoC -!mul_conj !(conjD, conjM, conjN, conj1, conjR, conjI).
  mring.
- rewrite -!mul_conj !(conjD, conjM, conjN, conj0, conjR, conjI).
  rewrite Re_half /half.
  have : (1 + 1) * RtoC (1/2) = 1 by rewrite -!RtoC_add -RtoC_mul; congr RtoC; field.
  set h := RtoC (1/2) => h2.
  transitivity (- ((1 + 1) * h) * ci * RtoC w * (kz i + conj (kz i)) * Rv i ord0 * conj (Rv i ord0)).
    rewrite h2; mring.
  mring.
Qed.

Lemma weight_flux (w : nat -> C) (t g : 'cV[C]_n) :
  (forall i : 'I_n, g i ord0 = ci * w i * t i ord0) ->
  (adj t *m g - adj g *m t) ord0 ord0 = 2%:R * ci * \sum_(i < n) RtoC (nrm2 (t i ord0)) * RtoC (Re (w i)).
Proof.
move=> hg; rewrite mxE [X in _ + X]mxE !dot_sum -sumrB big_distrr /=; apply: eq_bigr => i _.
rewrite hg -mul_conj !conjM conjI Re_half /half; have -> : (2%:R : C) = 1 + 1 by [].
have : (1 + 1) * RtoC (1/2) = 1 by rewrite -!RtoC_add -RtoC_mul; congr RtoC; field.
set h := RtoC (1/2) => h2.
transitivity (((1 + 1) * h) * ci * (w i + conj (w i)) * t i ord0 * conj (t i ord0)).
  rewrite h2; mring.
mring.
Qed.

Lemma flux_split (fs fp gs gp : 'cV[C]_n) :
  adj (col_mx fs fp) *m Ssp n *m col_mx gs gp - adj (col_mx gs gp) *m adj (Ssp n) *m col_mx fs fp =
  - (adj fs *m gs - adj gs *m fs) - (adj gp *m fp - adj fp *m gp).
Proof.
rewrite adj_Ssp !adj_col /Ssp !mul_row_block !mul_row_col !(mulmx0, mulmx1, addr0, add0r, mulmxN, mulNmx).
mxab.
Qed.

Lemma final_rows (F G : 'M[C]_(n + n)) (kz : nat -> C) (nt th psi : R) (RT : 'cV[C]_((n + n) + (n + n))) :
  final_A F G kz (RtoC nt) *m RT = final_B n (RtoC psi) (RtoC th) (RtoC nt) ->
  let Rs := usubmx (usubmx RT) in let Rp := dsubmx (usubmx RT) in let T1 := dsubmx RT in
  let d0 := delta_i0 n in let Kz := diagf n kz in
  F *m T1 = col_mx (Rs + RtoC (sin psi) *: d0)
                   ((- ci / RtoC nt ^+ 2) *: Kz *m Rp - (RtoC (cos psi) * RtoC (cos th)) *: d0) /\
  G *m T1 = col_mx ((- ci) *: Kz *m Rs + (ci * RtoC (sin psi) * RtoC nt * RtoC (cos th)) *: d0)
                   (Rp + (ci * RtoC nt * RtoC (cos psi)) *: d0).
Proof.
move=> h Rs Rp T1 d0 Kz.
move: h; rewrite -{1}(vsubmxK RT) -{1}(vsubmxK (usubmx RT)) -/Rs -/Rp -/T1.
rewrite /final_A mul_block_col !mul_block_col !(mul1mx, mul0mx, addr0, add0r) !mulNmx.
rewrite /final_B !csin_real !ccos_real -/d0 -/Kz => /eq_col_mx[h1 h2]; split.
- move/(canRL (subrK _)): h1 => h1.
  have -> : F *m T1 = col_mx Rs ((- ci / RtoC nt ^+ 2) *: Kz *m Rp) -
     col_mx ((- RtoC (sin psi)) *: d0) ((RtoC (cos psi) * RtoC (cos th)) *: d0).
    by rewrite h1 addrAC subrr add0r.
  by rewrite opp_col_mx add_col_mx scaleNr opprK.
- move/(canRL (subrK _)): h2 => h2.
  have -> : G *m T1 = col_mx ((- ci) *: Kz *m Rs) Rp -
     col_mx ((- ci * RtoC (sin psi) * RtoC nt * RtoC (cos th)) *: d0) ((- ci * RtoC nt * RtoC (cos psi)) *: d0).
    by rewrite h2 addrAC subrr add0r.
  by rewrite opp_col_mx add_col_mx !mulNr !scaleNr !opprK.
Qed.

End BoundarySp.

Lemma sumR_add n (f g : 'I_n -> R) : sumR (fun i => (f i + g i)%coqR) = (sumR f + sumR g)%coqR.
Proof.
rewrite /sumR; elim/big_rec3: _ => [|i y1 y2 y3 _ ->]; ring.
Qed.

Lemma sum_de n (A : 'cV[C]_n) (w : nat -> C) (kc : R) : kc <> 0%coqR ->
  RtoC (sumR (fun i : 'I_n => Re (A i ord0 * conj (A i ord0) * RtoC (Re (w i / RtoC kc))))) =
  (\sum_(i < n) RtoC (nrm2 (A i ord0)) * RtoC (Re (w i))) * RtoC (/ kc).
Proof.
move=> hk; rewrite /sumR (big_morph RtoC RtoC_add (erefl (RtoC 0))) big_distrl /=.
apply: eq_bigr => i _; rewrite de_eq //.
by rewrite -!RtoC_mul Re_RtoC.
Qed.

Section EnergySp.
Variables (n : nat) (hn : (0 < n)%N) (nt th : R) (nb : C).
Hypotheses (hnt : (0 < nt)%coqR) (hth : (0 <= th < PI / 2)%coqR).
Variables (kzt kzb : nat -> C).
Hypothesis hkz : kzt (n %/ 2)%N = RtoC (nt * cos th).

Lemma energy_extract (F G T P : 'M[C]_(n + n)) (psi : R) :
  T = P ->
  flux (Ssp n) F G = adj P *m flux (Ssp n) (block_mx (1%:M : 'M[C]_n) 0 0 ((ci / nb ^+ 2) *: diagf n kzb))
          (block_mx (ci *: diagf n kzb) 0 0 (1%:M : 'M[C]_n)) *m P ->
  final_A F G kzt (RtoC nt) \in unitmx ->
  let r := (extract_sp (invmx (final_A F G kzt (RtoC nt)) *m final_B n (RtoC psi) (RtoC th) (RtoC nt)) T kzt kzb
              (RtoC th) (RtoC nt) nb).1 in
  (sumR (de_ri r) + sumR (de_ti r) = 1)%coqR.
Proof.
move=> -> eF uA; rewrite /extract_sp.
set RT := invmx _ *m _.
have eRT : final_A F G kzt (RtoC nt) *m RT = final_B n (RtoC psi) (RtoC th) (RtoC nt) by rewrite /RT mulKVmx.
have [eq1 eq2] := final_rows eRT.
set Rs := usubmx (usubmx RT) in eq1 eq2 *; set Rp := dsubmx (usubmx RT) in eq1 eq2 *.
set T1 := dsubmx RT in eq1 eq2 *; cbn zeta; rewrite [X in X = _]/=.
set Ts := usubmx (P *m T1); set Tp := dsubmx (P *m T1).
have c0 : (0 < cos th)%coqR by apply: cos_gt_0; lra.
have kc0 : (0 < nt * cos th)%coqR by apply: Rmult_lt_0_compat.
have kcn : (nt * cos th)%coqR <> 0%coqR by lra.
have ntnz : RtoC nt != 0 by apply: RtoC_neq0; lra.
have nt2 : RtoC nt ^+ 2 = RtoC (nt * nt) by rewrite expr2 RtoC_mul.
have fl : (adj T1 *m flux (Ssp n) F G *m T1) ord0 ord0 =
   - (2%:R * ci * (RtoC 1 * (RtoC (nt * cos th) * RtoC (nrm2 (RtoC (sin psi))) -
            \sum_(i < n) RtoC (nrm2 (Rs i ord0)) * RtoC (Re (kzt i)))))
   - (2%:R * ci * (RtoC (/ (nt * nt)) * (RtoC (nt * cos th) * RtoC (nrm2 (ci * RtoC nt * RtoC (cos psi))) -
            \sum_(i < n) RtoC (nrm2 (Rp i ord0)) * RtoC (Re (kzt i))))).
  rewrite flux_vec eq1 eq2 flux_split mxE [X in X + _ = _]mxE [X in _ + X = _]mxE; congr (- _ - _).
  - apply: top_flux_a => // i; first by rewrite !mxE.
    rewrite mxE -scalemxAl mxE /diagf mul_diag_mx !mxE [RtoC (nt * _)]RtoC_mul.
    case: (_ == _ :> nat); mring.
  - apply: top_flux_a => // i; first by rewrite !mxE.
    rewrite mxE -scalemxAl mxE /diagf mul_diag_mx !mxE [RtoC (nt * cos _)]RtoC_mul.
    have -> : - ci / RtoC nt ^+ 2 = - ci * RtoC (/ (nt * nt)) by rewrite nt2 -RtoC_inv //; nra.
    have e : RtoC (/ (nt * nt)) * (ci * (RtoC nt * RtoC (cos th)) * (ci * RtoC nt * RtoC (cos psi))) =
        - (RtoC (cos psi) * RtoC (cos th)).
      transitivity ((ci * ci) * (RtoC (/ (nt * nt)) * RtoC (nt * nt)) * (RtoC (cos psi) * RtoC (cos th))).
        rewrite RtoC_mul; cring.
      rewrite ci2 -RtoC_mul Rinv_l ?mulr1 ?mulN1r //; nra.
    case: (_ == _ :> nat).
    + rewrite !mulr1 mulrBr e; mring.
    + rewrite !mulr0 subr0 sub0r; mring.
have fl0 : (adj T1 *m flux (Ssp n) F G *m T1) ord0 ord0 =
   - (2%:R * ci * \sum_(i < n) RtoC (nrm2 (Ts i ord0)) * RtoC (Re (kzb i)))
   - (2%:R * ci * \sum_(i < n) RtoC (nrm2 (Tp i ord0)) * RtoC (Re (kzb i / nb ^+ 2))).
  have -> : adj T1 *m flux (Ssp n) F G *m T1 =
    adj (P *m T1) *m flux (Ssp n) (block_mx (1%:M : 'M[C]_n) 0 0 ((ci / nb ^+ 2) *: diagf n kzb))
          (block_mx (ci *: diagf n kzb) 0 0 (1%:M : 'M[C]_n)) *m (P *m T1).
    by rewrite eF adjM !mulmxA.
  rewrite -(vsubmxK (P *m T1)) -/Ts -/Tp flux_vec !mul_block_col !(mul1mx, mul0mx, addr0, add0r).
  rewrite flux_split mxE [X in X + _ = _]mxE [X in _ + X = _]mxE; congr (- _ - _).
  - by apply: weight_flux => i; rewrite -scalemxAl mxE /diagf mul_diag_mx !mxE; mring.
  - apply: (weight_flux (w := fun i => kzb i / nb ^+ 2)) => i.
    by rewrite -scalemxAl mxE /diagf mul_diag_mx !mxE; set y := (nb ^+ 2)^-1; mring.
have bal : RtoC (nt * cos th) = \sum_(i < n) RtoC (nrm2 (Rs i ord0)) * RtoC (Re (kzt i))
   + RtoC (/ (nt * nt)) * (\sum_(i < n) RtoC (nrm2 (Rp i ord0)) * RtoC (Re (kzt i)))
   + \sum_(i < n) RtoC (nrm2 (Ts i ord0)) * RtoC (Re (kzb i))
   + \sum_(i < n) RtoC (nrm2 (Tp i ord0)) * RtoC (Re (kzb i / nb ^+ 2)).
  move: fl; rewrite fl0.
  set S1 := \sum_(i < n) _; set S2 := \sum_(i < n) _; set S3 := \sum_(i < n) _; set S4 := \sum_(i < n) _.
  move/eqP; rewrite -!opprD eqr_opp -!mulrDr => /eqP/(mulfI two_i_neq0) h.
  have e1 : RtoC (nrm2 (RtoC (sin psi))) = RtoC (sin psi * sin psi).
    by congr RtoC; rewrite /nrm2 Re_RtoC Im_RtoC; ring.
  have e2 : RtoC (/ (nt * nt)) * RtoC (nrm2 (ci * RtoC nt * RtoC (cos psi))) = RtoC (cos psi * cos psi).
    rewrite -RtoC_mul; congr RtoC; rewrite /nrm2 /ci /Ci !ReM !ImM !Re_RtoC !Im_RtoC /Re /Im /=.
    field; lra.
  have e3 : RtoC (sin psi * sin psi) + RtoC (cos psi * cos psi) = 1.
    by rewrite -RtoC_add; congr RtoC; exact: (sin2_cos2 psi).
  rewrite -[LHS]mulr1 -e3 -e2 -e1 -[_ + S1 + S2]addrA h; cring.
rewrite !ccos_real -!RtoC_mul.
pose dd (A : 'cV[C]_n) (w : nat -> C) := fun i : 'I_n =>
  Re (A i ord0 * conj (A i ord0) * RtoC (Re (w i / RtoC (nt * cos th)))).
rewrite (sumR_add (dd Rs kzt) (dd Rp (fun i => kzt i / RtoC nt ^+ 2))).
rewrite (sumR_add (dd Ts kzb) (dd Tp (fun i => kzb i / nb ^+ 2))).
apply: RtoC_inj; rewrite !RtoC_add /dd.
rewrite (sum_de Rs kzt kcn) (sum_de Rp (fun i => kzt i / RtoC nt ^+ 2) kcn) (sum_de Ts kzb kcn)
        (sum_de Tp (fun i => kzb i / nb ^+ 2) kcn).
have -> : \sum_(i < n) RtoC (nrm2 (Rp i ord0)) * RtoC (Re (kzt i / RtoC nt ^+ 2)) =
   RtoC (/ (nt * nt)) * (\sum_(i < n) RtoC (nrm2 (Rp i ord0)) * RtoC (Re (kzt i))).
  rewrite big_distrr /=; apply: eq_bigr => i _.
  rewrite nt2 Re_div_real; last by nra. rewrite /Rdiv RtoC_mul; mring.
rewrite -!mulrDl !addrA -bal -RtoC_mul; congr RtoC; field; lra.
Qed.

End EnergySp.

Section EnergySpTop.
Variable pinv : forall n, 'M[C]_n -> 'M[C]_n.
Variable eig : forall n, 'M[C]_n -> 'rV[C]_n * 'M[C]_n.
Hypothesis heig : eig_ok eig.

Definition energy_ok n (r : diffraction n) := (sumR (de_ri r) + sumR (de_ti r) = 1)%coqR.
Definition energy_ok3 n (r : sp_result n) :=
  [/\ energy_ok (res r), energy_ok (res_te_inc r) & energy_ok (res_tm_inc r)].

Lemma kz2_center nt th (x y : C) :
  (0 < nt)%coqR -> (0 <= th < PI / 2)%coqR ->
  x ^+ 2 + y ^+ 2 = RtoC (nt * sin th) ^+ 2 ->
  conj (csqrt (RtoC nt ^+ 2 - x ^+ 2 - y ^+ 2)) = RtoC (nt * cos th).
Proof.
move=> h1 h2 h; have := kz_center h1 h2 (erefl (RtoC (nt * sin th) ^+ 2)).
by rewrite -h opprD addrA.
Qed.

(** The three results are the same extraction applied to three polarisation angles. *)
Definition solveRT n (F G : 'M[C]_(n + n)) (kt : nat -> C) psi th nt : 'cV[C]_((n + n) + (n + n)) :=
  invmx (final_A F G kt nt) *m final_B n psi th nt.

Lemma transfer_sp_4_some n (F G T : 'M[C]_(n + n)) kt kb psi th nt nb r :
  transfer_sp_4 pinv false F G T kt kb psi th nt nb = Some r ->
  final_A F G kt nt \in unitmx /\
  let go p := extract_sp (solveRT F G kt p th nt) T kt kb th nt nb in
  r = SpResult (go psi).1 (go (RtoC (PI / 2))).1 (go (RtoC 0)).1 (go psi).2 (go (RtoC (PI / 2))).2 (go (RtoC 0)).2.
Proof.
rewrite /transfer_sp_4.
case hA: (meeinv pinv false (final_A F G _ _)) => [Ai|] //; have [uA ->] := meeinv_some hA.
by case=> <-; split.
Qed.

Theorem energy_rcwa_2d n kxt kyt k0 (nt th psi : R) (nb : C) (ls : seq (layer n)) r infos :
  (0 < n)%N -> (0 < nt)%coqR -> (0 <= th < PI / 2)%coqR ->
  real_vec n kxt -> real_vec n kyt ->
  kxt (n %/ 2)%N ^+ 2 + kyt (n %/ 2)%N ^+ 2 = RtoC (nt * sin th) ^+ 2 ->
  (forall l, List.In l ls -> lossless l) ->
  rcwa_2d pinv eig false kxt kyt k0 (RtoC psi) (RtoC th) (RtoC nt) nb ls = Some (r, infos) ->
  energy_ok3 r.
Proof.
move=> hn hnt hth rx ry hc hl.
have hkz := kz2_center hnt hth hc.
rewrite /rcwa_2d /transfer_sp_1; case: ifP => // _.
case hs: (stack_with _ _ _) => [[[[F G] T] is']|] //.
have [P [eT eF]] := flux_stack_2d heig (varphi_rot rx ry) rx ry hl hs; rewrite mul1mx in eT.
case h4: (transfer_sp_4 _ _ _ _ _ _ _ _ _ _ _) => [r4|] //; have [uA ->] := transfer_sp_4_some h4.
case=> <- _.
have e (p : R) := energy_extract hn hnt hth hkz p eT eF uA.
by split; [exact: (e psi) | exact: (e (PI / 2)%coqR) | exact: (e 0%coqR)].
Qed.

Theorem energy_rcwa_conical n kxt kyt ky0 k0 (nt th psi : R) (nb : C) (ls : seq (layer n)) r infos :
  (0 < n)%N -> (0 < nt)%coqR -> (0 <= th < PI / 2)%coqR ->
  real_vec n kxt -> real_vec n kyt -> (forall i, (i < n)%N -> kyt i = ky0) ->
  kxt (n %/ 2)%N ^+ 2 + kyt (n %/ 2)%N ^+ 2 = RtoC (nt * sin th) ^+ 2 ->
  (forall l, List.In l ls -> lossless l /\ y_uniform l) ->
  rcwa_conical pinv eig false kxt kyt k0 (RtoC psi) (RtoC th) (RtoC nt) nb ls = Some (r, infos) ->
  energy_ok3 r.
Proof.
move=> hn hnt hth rx ry hky hc hl.
have hkz := kz2_center hnt hth hc.
rewrite /rcwa_conical /transfer_sp_1; case: ifP => // _.
case hs: (stack_with _ _ _) => [[[[F G] T] is']|] //.
have [P [eT eF]] := flux_stack_conical heig (varphi_rot rx ry) rx ry hky hl hs; rewrite mul1mx in eT.
case h4: (transfer_sp_4 _ _ _ _ _ _ _ _ _ _ _) => [r4|] //; have [uA ->] := transfer_sp_4_some h4.
case=> <- _.
have e (p : R) := energy_extract hn hnt hth hkz p eT eF uA.
by split; [exact: (e psi) | exact: (e (PI / 2)%coqR) | exact: (e 0%coqR)].
Qed.

End EnergySpTop.
