(** Energy conservation of the 1D solver. *)
From Coq Require Import Reals Lra Psatz.
From mathcomp Require Import all_ssreflect ssralg matrix mxalgebra.
From Coquelicot Require Import Complex.
From Verif Require Import Cplx Mx ModelTM ProofFlux.

Set Implicit Arguments.
Unset Strict Implicit.
Unset Printing Implicit Defensive.
Local Open Scope ring_scope.
Import GRing.Theory.

(** What is assumed of [np.linalg.eig]: the returned pairs are eigenpairs. *)
Definition eig_ok (eig : forall n, 'M[C]_n -> 'rV[C]_n * 'M[C]_n) : Prop :=
  forall n (A : 'M[C]_n), A *m (eig n A).2 = (eig n A).2 *m diag_mx (eig n A).1.

Lemma reqb_refl x : reqb x x.
Proof. by rewrite /reqb; case: Req_EM_T. Qed.
Lemma reqb10 : reqb 1 0 = false.
Proof. by rewrite /reqb; case: Req_EM_T => // h; lra. Qed.
Lemma reqbP x y : reqb x y -> x = y.
Proof. by rewrite /reqb; case: Req_EM_T. Qed.

Lemma sqrtv_sqr n (v : 'rV[C]_n) : diag_mx (sqrtv v) *m diag_mx (sqrtv v) = diag_mx v.
Proof.
rewrite mulmx_diag; congr diag_mx; apply/rowP => j; rewrite !mxE csqrt_sqr //.
Qed.

Definition lossless n (l : layer n) := [/\ herm (epx l), herm (epy l) & herm (epzi l)].

Definition real_vec n (k : nat -> C) := forall i, (i < n)%N -> conj (k i) = k i.

Lemma herm_diag n k : real_vec n k -> herm (diagf n k).
Proof. by move=> h; rewrite /herm adj_diagf; apply: diagf_eq => i li; rewrite h. Qed.

Lemma herm_cong n m (A : 'M[C]_n) (B : 'M[C]_(n, m)) : herm A -> herm (adj B *m A *m B).
Proof. by move=> h; rewrite /herm !adjM adjK h mulmxA. Qed.
Lemma hermD n (A B : 'M[C]_n) : herm A -> herm B -> herm (A + B).
Proof. by rewrite /herm adjD => -> ->. Qed.
Lemma hermN n (A : 'M[C]_n) : herm A -> herm (- A).
Proof. by rewrite /herm adjN => ->. Qed.
Lemma hermB n (A B : 'M[C]_n) : herm A -> herm B -> herm (A - B).
Proof. by move=> hA hB; apply: hermD => //; apply: hermN. Qed.
Lemma herm1 n : herm (1%:M : 'M[C]_n).
Proof. exact: adj1. Qed.
Lemma hermMM n (A : 'M[C]_n) : herm A -> herm (A *m A).
Proof. by rewrite /herm adjM => ->. Qed.
Lemma herm_sandwich n (A B : 'M[C]_n) : herm A -> herm B -> herm (A *m B *m A).
Proof. by rewrite /herm !adjM => -> ->; rewrite mulmxA. Qed.

Section Energy1D.
Variable pinv : forall n, 'M[C]_n -> 'M[C]_n.
Variable eig : forall n, 'M[C]_n -> 'rV[C]_n * 'M[C]_n.
Hypothesis heig : eig_ok eig.

(** Modal facts produced by [transfer_1d_2]: exactly what the flux lemma needs. *)
Lemma modal_1d pol n kx (l : layer n) W V q :
  real_vec n kx -> lossless l ->
  transfer_1d_2 pinv eig false pol kx (epx l) (epy l) (epzi l) = Some (W, V, q) ->
  herm (adj W *m 1%:M *m V *m diag_mx q) /\ herm (adj (diag_mx q) *m (adj W *m 1%:M *m V)).
Proof.
move=> rk [hx hy hz]; rewrite /transfer_1d_2 !mulmx1.
have hK := herm_diag rk.
case: ifP => [_|_].
  have := heig (diagf n kx *m diagf n kx - epy l).
  case: (eig _) => lam U /= hU [<- <- <-]; split.
  - have -> : adj U *m (U *m diag_mx (sqrtv lam)) *m diag_mx (sqrtv lam)
       = adj U *m (diagf n kx *m diagf n kx - epy l) *m U.
      by rewrite -!mulmxA sqrtv_sqr hU.
    by apply: herm_cong; apply: hermB => //; apply: hermMM.
  - by rewrite mulmxA -adjM -[adj _]mulmx1; apply: herm_cong; exact: herm1.
case: ifP => // _.
set B := _ - 1%:M.
have hB : herm B by apply: hermB (herm1 _); apply: herm_sandwich.
have := heig (epx l *m B).
case: (eig _) => lam U /= hU.
case hE: (meeinv pinv false (epx l)) => [Ei|] //; have [uE ->] := meeinv_some hE; case=> <- <- <-; split.
- have -> : adj U *m (invmx (epx l) *m U *m diag_mx (sqrtv lam)) *m diag_mx (sqrtv lam) = adj U *m B *m U.
    rewrite -!mulmxA sqrtv_sqr -hU !mulmxA -[adj U *m _ *m epx l]mulmxA mulVmx // mulmx1 //.
  exact: herm_cong.
- set Q := diag_mx _; set V' := _ *m Q.
  have e : U *m Q = epx l *m V' by rewrite /V' -mulmxA mulKVmx.
  by rewrite mulmxA -adjM e adjM hx; apply: herm_cong.
Qed.

Lemma flux_stack_1d pol n kx k0 (ls : seq (layer n)) F G T is0 F' G' T' is1 :
  real_vec n kx -> (forall l, List.In l ls -> lossless l) ->
  stack_with (step_1d pinv eig false pol kx k0) ls (F, G, T, is0) = Some (F', G', T', is1) ->
  exists P, T' = T *m P /\ flux 1%:M F' G' = adj P *m flux 1%:M F G *m P.
Proof.
move=> rk; elim: ls F' G' T' is1 => [|l ls IH] F' G' T' is1 hl /=.
  by case=> <- <- <- _; exists 1%:M; rewrite mulmx1 adj1 mul1mx mulmx1.
case hs: (stack_with _ _ _) => [[[[F1 G1] T1] is']|] //.
have [|P [eT eF]] := IH _ _ _ _ _ hs; first by move=> l' h; apply: hl; right.
rewrite /step_1d; case h2: (transfer_1d_2 _ _ _ _ _ _ _ _) => [[[W V] q]|] //.
rewrite /transfer_1d_3.
case h3: (layer_update _ _ _ _ _ _ _ _) => [[[[[F2 G2] T2] Ai] B]|] // -[<- <- <- _].
have [[uW uV uA eA eB] [-> -> ->]] := layer_update_some h3.
have [m1 m2] := modal_1d rk (hl l (or_introl erefl)) h2.
exists (P *m (Ai *m Xmat k0 q (thick l))); split; first by rewrite eT !mulmxA.
rewrite (flux_step k0 (thick l) m1 m2 uW uV uA eA eB) eF.
by rewrite [adj (P *m _)]adjM !mulmxA.
Qed.

End Energy1D.

(** ** Boundary terms *)

Lemma flux_vec n (S F G : 'M[C]_n) (v : 'cV[C]_n) :
  adj v *m flux S F G *m v = adj (F *m v) *m S *m (G *m v) - adj (G *m v) *m adj S *m (F *m v).
Proof. by rewrite /flux mulmxBr mulmxBl !adjM !mulmxA. Qed.

Lemma dot_sum n (u v : 'cV[C]_n) : (adj u *m v) ord0 ord0 = \sum_i conj (u i ord0) * v i ord0.
Proof. by rewrite mxE; apply: eq_bigr => i _; rewrite adjE. Qed.

Lemma kz_center nt th (x : C) :
  (0 < nt)%coqR -> (0 <= th < PI / 2)%coqR ->
  x ^+ 2 = RtoC (nt * sin th) ^+ 2 ->
  conj (csqrt (RtoC nt ^+ 2 - x ^+ 2)) = RtoC (nt * cos th).
Proof.
move=> hn ht ->.
have -> : RtoC nt ^+ 2 - RtoC (nt * sin th) ^+ 2 = RtoC ((nt * cos th) * (nt * cos th)).
  rewrite !expr2 -!RtoC_mul -RtoC_sub; congr RtoC.
  have := sin2_cos2 th; rewrite /Rsqr => e.
  have -> : (nt * nt - nt * sin th * (nt * sin th) = nt * nt * (1 - sin th * sin th))%coqR by ring.
  have -> : (1 - sin th * sin th = cos th * cos th)%coqR by lra.
  ring.
have c0 : (0 < cos th)%coqR by apply: cos_gt_0; lra.
rewrite csqrt_nonneg; last by apply: Rle_0_sqr.
by rewrite sqrt_square ?conjR //; apply: Rmult_le_pos; lra.
Qed.

Definition sumR n (f : 'I_n -> R) : R := \big[Rplus/0%coqR]_(i < n) f i.

Lemma sumR_Re n (f : 'I_n -> C) : sumR (fun i => Re (f i)) = Re (\sum_i f i).
Proof. by rewrite Re_sum. Qed.

Lemma cent n (i : 'I_n) : delta_i0 n i ord0 = (if i == (n %/ 2)%N :> nat then 1 else 0).
Proof. by rewrite mxE. Qed.

Lemma Re_half (z : C) : RtoC (Re z) = half * (z + conj z).
Proof. rewrite /half; cext; field. Qed.

Section Boundary.
Variables (n : nat) (nt th : R).
Hypothesis (hnt : (0 < nt)%coqR) (hth : (0 <= th < PI / 2)%coqR) (hn : (0 < n)%N).

Let kc := (nt * cos th)%coqR.

Lemma kc_gt0 : (0 < kc)%coqR.
Proof. by apply: Rmult_lt_0_compat => //; apply: cos_gt_0; lra. Qed.

Definition cidx : 'I_n := Ordinal (ltn_Pdiv (isT : 1 < 2)%N hn).

(** Reflected side: with [f = R + delta] and [g = w (a kc delta - a' R)]-like boundary values,
    the flux is the incident power minus the reflected one. [w] is 1 (TE) or 1/n_top^2 (TM), real. *)
Lemma top_flux (w : R) (kz : nat -> C) (Rv f g : 'cV[C]_n) :
  kz (n %/ 2)%N = RtoC kc ->
  (forall i, f i ord0 = Rv i ord0 + delta_i0 n i ord0) ->
  (forall i : 'I_n, g i ord0 = RtoC w * (ci * RtoC kc * delta_i0 n i ord0 - ci * kz i * Rv i ord0)) ->
  (adj f *m g - adj g *m f) ord0 ord0 =
  2%:R * ci * RtoC w * (RtoC kc - \sum_(i < n) RtoC (nrm2 (Rv i ord0)) * RtoC (Re (kz i))).
Proof.
move=> hk hf hg.
rewrite mxE [X in _ + X]mxE !dot_sum -sumrB.
have -> : RtoC kc = \sum_(i < n) RtoC kc * delta_i0 n i ord0.
  rewrite (bigD1 cidx) //= cent /= eqxx mulr1 big1 ?addr0 // => i ne.
  rewrite cent; case: eqP => [e|]; last by rewrite mulr0.
  by case/eqP: ne; apply: val_inj.
rewrite -sumrB big_distrr /=; apply: eq_bigr => i _.
rewrite hf hg cent; case: eqP => [e|_].
- rewrite -e in hk; rewrite hk Re_RtoC.
  rewrite -!mul_conj !(conjD, conjM, conjN, conj1, conjR, conjI).
  have -> : (2%:R : C) = 1 + 1 by []. cring.
- rewrite -!mul_conj !(conjD, conjM, conjN, conj0, conjR, conjI).
  have -> : RtoC (Re (kz i)) = half * (kz i + conj (kz i)).
    exact: Re_half.
  rewrite /half; have -> : (2%:R : C) = 1 + 1 by [].
  have : (1 + 1) * RtoC (1/2) = 1 by rewrite -!RtoC_add -RtoC_mul; congr RtoC; field.
  set h := RtoC (1/2) => h2.
  rewrite !addr0 !mulr0 !sub0r.
  transitivity (- ((1 + 1) * h) * ci * RtoC w * (kz i + conj (kz i)) * Rv i ord0 * conj (Rv i ord0)).
    rewrite h2; cring.
  cring.
Qed.

(** Transmitted side. *)
Lemma bot_flux (w : nat -> C) (t : 'cV[C]_n) :
  (adj t *m flux 1%:M 1%:M (ci *: diagf n w) *m t) ord0 ord0 =
  2%:R * ci * \sum_(i < n) RtoC (nrm2 (t i ord0)) * RtoC (Re (w i)).
Proof.
rewrite flux_vec adj1 !mulmx1 mul1mx.
rewrite mxE [X in _ + X]mxE !dot_sum -sumrB big_distrr /=; apply: eq_bigr => i _.
have -> : (ci *: diagf n w *m t) i ord0 = ci * w i * t i ord0.
  by rewrite -scalemxAl mxE /diagf mul_diag_mx !mxE mulrA.
have -> : RtoC (Re (w i)) = half * (w i + conj (w i)).
  exact: Re_half.
rewrite -mul_conj !conjM conjI /half; have -> : (2%:R : C) = 1 + 1 by [].
have : (1 + 1) * RtoC (1/2) = 1 by rewrite -!RtoC_add -RtoC_mul; congr RtoC; field.
set h := RtoC (1/2) => h2.
transitivity (((1 + 1) * h) * ci * (w i + conj (w i)) * t i ord0 * conj (t i ord0)).
  rewrite h2; cring.
cring.
Qed.

End Boundary.

Lemma Re_div_real (z : C) (r : R) : r <> 0%coqR -> Re (z / RtoC r) = (Re z / r)%coqR.
Proof. by move=> h; rewrite -RtoC_inv // mulrC ReZ /Rdiv Rmult_comm. Qed.

Lemma de_eq (a : C) (z : C) (r : R) : r <> 0%coqR ->
  Re (a * conj a * RtoC (Re (z / RtoC r))) = Re (RtoC (nrm2 a) * RtoC (Re z) * RtoC (/ r)).
Proof.
move=> h; rewrite mul_conj -!RtoC_mul !Re_RtoC Re_div_real //; rewrite /Rdiv; ring.
Qed.

Lemma two_i_neq0 : 2%:R * ci != 0.
Proof.
apply/eqP => h; have := congr1 Im h.
rewrite -[2%:R]/(1 + 1) -RtoC_add ImM Re_RtoC Im_RtoC /ci /Ci /Re /Im /= => e; lra.
Qed.

(** Summing the efficiencies of a flux balance. *)
Lemma balance_sum n (kc wr : R) (Rv Tv : 'cV[C]_n) (kz wb : nat -> C) :
  (0 < kc)%coqR -> (0 < wr)%coqR ->
  RtoC wr * (RtoC kc - \sum_(i < n) RtoC (nrm2 (Rv i ord0)) * RtoC (Re (kz i)))
     = \sum_(i < n) RtoC (nrm2 (Tv i ord0)) * RtoC (Re (wb i)) ->
  Rplus (sumR (fun i => Re (Rv i ord0 * conj (Rv i ord0) * RtoC (Re (kz i / RtoC kc)))))
    (sumR (fun i => Re (Tv i ord0 * conj (Tv i ord0) * RtoC (Re (wb i / RtoC (wr * kc)))))) = 1%coqR.
Proof.
move=> hk hw h.
have kn : kc <> 0%coqR by lra.
have wkn : (wr * kc)%coqR <> 0%coqR by nra.
rewrite !sumR_Re.
have -> : Re (\sum_(i < n) Rv i ord0 * conj (Rv i ord0) * RtoC (Re (kz i / RtoC kc)))
  = Re ((\sum_(i < n) RtoC (nrm2 (Rv i ord0)) * RtoC (Re (kz i))) * RtoC (/ kc)).
  by rewrite big_distrl /= !Re_sum; apply: eq_bigr => i _; rewrite de_eq.
have -> : Re (\sum_(i < n) Tv i ord0 * conj (Tv i ord0) * RtoC (Re (wb i / RtoC (wr * kc))))
  = Re ((\sum_(i < n) RtoC (nrm2 (Tv i ord0)) * RtoC (Re (wb i))) * RtoC (/ (wr * kc))).
  by rewrite big_distrl /= !Re_sum; apply: eq_bigr => i _; rewrite de_eq.
rewrite -h -ReD.
have -> : forall s : C, s * RtoC (/ kc) + RtoC wr * (RtoC kc - s) * RtoC (/ (wr * kc)) = 1.
  move=> s; rewrite RtoC_inv // RtoC_inv // RtoC_mul.
  have k0 := RtoC_neq0 kn; have w0 : RtoC wr != 0 by apply: RtoC_neq0; lra.
  rewrite invfM // mulrBr !mulrBl.
  have -> : RtoC wr * RtoC kc * ((RtoC wr)^-1 * (RtoC kc)^-1) = 1.
    by rewrite mulrACA !mulfV // mulr1.
  have -> : RtoC wr * s * ((RtoC wr)^-1 * (RtoC kc)^-1) = s * (RtoC kc)^-1.
    by rewrite [RtoC wr * s]mulrC mulrA mulfK.
  by rewrite addrCA subrr addr0.
by [].
Qed.

Section EnergyTop.
Variable pinv : forall n, 'M[C]_n -> 'M[C]_n.
Variable eig : forall n, 'M[C]_n -> 'rV[C]_n * 'M[C]_n.
Hypothesis heig : eig_ok eig.

Lemma col_entry n (A : 'M[C]_n) (v : 'cV[C]_n) (c : C) k i :
  ((c *: diagf n k) *m v) i ord0 = c * k i * v i ord0.
Proof. by rewrite -scalemxAl mxE /diagf mul_diag_mx !mxE mulrA. Qed.

(** The G matrix the substrate starts the recursion with. *)
Definition start_G (pol : R) n (kzb : nat -> C) (nb : C) : 'M[C]_n :=
  if reqb pol 0 then ci *: diagf n kzb else ci *: diagf n (fun i => kzb i / nb ^+ 2).

(** Energy balance for any wave numbers in the two half-spaces. *)
Lemma energy_core_1d pol n kx k0 (nt th : R) (nb : C) kzt kzb (ls : seq (layer n)) F G T is' r T1 :
  (0 < n)%N -> (0 < nt)%coqR -> (0 <= th < PI / 2)%coqR ->
  real_vec n kx -> kzt (n %/ 2)%N = RtoC (nt * cos th) ->
  (forall l, List.In l ls -> lossless l) ->
  stack_with (step_1d pinv eig false pol kx k0) ls (1%:M, start_G pol n kzb nb, 1%:M, [::]) = Some (F, G, T, is') ->
  transfer_1d_4 pinv false pol F G T kzt kzb (RtoC th) (RtoC nt) nb = Some (r, T1) ->
  (sumR (de_ri r) + sumR (de_ti r) = 1)%coqR.
Proof.
move=> hn hnt hth rk hkz hl; rewrite /start_G.
have c0 : (0 < cos th)%coqR by apply: cos_gt_0; lra.
have kc0 : (0 < nt * cos th)%coqR by apply: Rmult_lt_0_compat.
have nt2 : RtoC nt ^+ 2 = RtoC (nt * nt) by rewrite expr2 RtoC_mul.
case: ifP => [/reqbP ->|h0'].
  move=> hs; have [P [eT eF]] := flux_stack_1d heig rk hl hs; rewrite mul1mx in eT.
  rewrite /transfer_1d_4 reqb_refl.
  set Kz := diagf n (kzt).
  case hM: (meeinv _ _ (G + ci *: Kz *m F)) => [M|] //; have [uM ->] := meeinv_some hM.
  case=> <- _ /=; rewrite !ccos_real -!RtoC_mul.
  set t1 := _ *m (_ + _).
  have eq1 : (G + ci *: Kz *m F) *m t1 =
     ci *: Kz *m delta_i0 n + (ci * RtoC nt * RtoC (cos th)) *: delta_i0 n by rewrite /t1 mulKVmx.
  have := balance_sum (n := n) (kc := nt * cos th) (wr := 1) (Rv := F *m t1 - delta_i0 n)
    (Tv := T *m t1) (kz := kzt) (wb := kzb) kc0 Rlt_0_1.
  rewrite Rmult_1_l; apply.
  apply: (mulfI two_i_neq0); rewrite mulrA.
  rewrite -(top_flux hn (f := F *m t1) (g := G *m t1) hkz); last first.
  - move=> i; have := congr1 (fun A : 'cV_n => A i ord0) eq1.
    rewrite mulmxDl mxE -mulmxA col_entry // [RHS]mxE col_entry //.
    rewrite [X in _ = _ + X]mxE => h.
    rewrite [X in RtoC 1 * (_ - _ * X)]mxE [X in RtoC 1 * (_ - _ * (_ + X))]mxE.
    move/(canRL (addrK _)): h => ->; rewrite RtoC_mul; mring.
  - by move=> i; rewrite [X in _ = X + _]mxE [X in _ = _ + X + _]mxE subrK.
  have -> : T *m t1 = P *m t1 by rewrite eT.
  rewrite -bot_flux.
  have -> : adj (P *m t1) *m flux 1%:M 1%:M (ci *: diagf n (kzb)) *m (P *m t1)
      = adj t1 *m flux 1%:M F G *m t1.
    by rewrite eF adjM !mulmxA.
  by rewrite flux_vec adj1 !mulmx1.
move=> hs; have [P [eT eF]] := flux_stack_1d heig rk hl hs; rewrite mul1mx in eT.
rewrite /transfer_1d_4 h0'.
case: ifP => // /reqbP _.
set Kz := diagf n (kzt).
case hM: (meeinv _ _ (G + ((ci / RtoC nt ^+ 2) *: Kz) *m F)) => [M|] //; have [uM ->] := meeinv_some hM.
case=> <- _ /=; rewrite !ccos_real -!RtoC_mul -RtoC_div; last lra.
set t1 := _ *m (_ + _).
have eq1 : (G + ((ci / RtoC nt ^+ 2) *: Kz) *m F) *m t1 =
   ((ci / RtoC nt ^+ 2) *: Kz) *m delta_i0 n + (ci * RtoC (cos th) / RtoC nt) *: delta_i0 n
   by rewrite /t1 mulKVmx.
have w0 : (0 < / (nt * nt))%coqR by apply: Rinv_0_lt_compat; nra.
have := balance_sum (n := n) (kc := nt * cos th) (wr := / (nt * nt)) (Rv := F *m t1 - delta_i0 n)
  (Tv := T *m t1) (kz := kzt) (wb := fun i => kzb i / nb ^+ 2) kc0 w0.
have -> : (/ (nt * nt) * (nt * cos th) = cos th / nt)%coqR by field; lra.
apply.
have ntnz : RtoC nt != 0 by apply: RtoC_neq0; lra.
apply: (mulfI two_i_neq0); rewrite mulrA.
rewrite -(top_flux hn (f := F *m t1) (g := G *m t1) hkz); last first.
- move=> i; have := congr1 (fun A : 'cV_n => A i ord0) eq1.
  rewrite mulmxDl mxE -mulmxA col_entry // [RHS]mxE col_entry //.
  rewrite [X in _ = _ + X]mxE => h.
  rewrite [X in RtoC _ * (_ - _ * X)]mxE [X in RtoC _ * (_ - _ * (_ + X))]mxE.
  move/(canRL (addrK _)): h => ->.
  have -> : ci * RtoC (cos th) / RtoC nt = RtoC (/ (nt * nt)) * ci * RtoC (nt * cos th).
    rewrite RtoC_inv; last nra. rewrite !RtoC_mul invfM.
    transitivity (ci * RtoC (cos th) / RtoC nt * (RtoC nt / RtoC nt)); first by rewrite mulfV // mulr1.
    set y := (RtoC nt)^-1; cring.
  have -> : ci / RtoC nt ^+ 2 = RtoC (/ (nt * nt)) * ci by rewrite nt2 -RtoC_inv 1?mulrC //; nra.
  mring.
- by move=> i; rewrite [X in _ = X + _]mxE [X in _ = _ + X + _]mxE subrK.
have -> : T *m t1 = P *m t1 by rewrite eT.
rewrite -(bot_flux (fun i => kzb i / nb ^+ 2)).
have -> : adj (P *m t1) *m flux 1%:M 1%:M (ci *: diagf n (fun i => kzb i / nb ^+ 2)) *m (P *m t1)
    = adj t1 *m flux 1%:M F G *m t1.
  by rewrite eF adjM !mulmxA.
by rewrite flux_vec adj1 !mulmx1.
Qed.


Theorem energy_rcwa_1d pol n kx k0 (nt th : R) (nb : C) (ls : seq (layer n)) r T1 infos :
  (0 < n)%N -> (0 < nt)%coqR -> (0 <= th < PI / 2)%coqR ->
  real_vec n kx -> kx (n %/ 2)%N = RtoC (nt * sin th) ->
  (forall l, List.In l ls -> lossless l) ->
  rcwa_1d pinv eig false pol kx k0 (RtoC th) (RtoC nt) nb ls = Some (r, T1, infos) ->
  (sumR (de_ri r) + sumR (de_ti r) = 1)%coqR.
Proof.
move=> hn hnt hth rk hc hl.
have hkz : kz_1d (RtoC nt) kx (n %/ 2)%N = RtoC (nt * cos th).
  by rewrite /kz_1d; apply: kz_center => //; rewrite hc.
rewrite /rcwa_1d; case e: (transfer_1d_1 _ _ _ _ _) => [[[[[kzt kzb] F0] G0] T0]|] //.
case hs: (stack_with _ _ _) => [[[[F G] T] is']|] //.
case h4: (transfer_1d_4 _ _ _ _ _ _ _ _ _ _ _) => [[r' T1']|] // [<- _ _].
have [e1 e2 e3 e4 e5] : [/\ kzt = kz_1d (RtoC nt) kx, F0 = 1%:M, G0 = start_G pol n kzb nb, T0 = 1%:M & True].
  move: e; rewrite /transfer_1d_1 /start_G; case: ifP => _; first by case=> <- <- <- <- <-.
  by case: ifP => // _; case=> <- <- <- <- <-.
rewrite e1 in h4; rewrite e2 e3 e4 in hs.
exact: (energy_core_1d hn hnt hth rk hkz hl hs h4).
Qed.

End EnergyTop.
