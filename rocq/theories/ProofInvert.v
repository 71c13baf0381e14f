(** The Fourier factorisation of a dielectric never meets a singular matrix. *)
From Coq Require Import Reals Lra Lia FunctionalExtensionality.
From Coquelicot Require Import Complex RInt Hierarchy.
From mathcomp Require Import all_ssreflect ssralg ssrint matrix.
From Verif Require Import Cplx Mx Spec SpecFourier ModelTM SpecSolve ModelFourier SpecLayer ProofFourier ProofConv ProofCell
  ProofLayer ProofRules ProofWell ProofEff.

Set Implicit Arguments.
Unset Strict Implicit.
Unset Printing Implicit Defensive.
Local Open Scope ring_scope.
Import GRing.Theory.

(** ** Coercive matrices *)

Definition form n (A : 'M[C]_n) (v : 'I_n -> C) : C := \sum_i \sum_j conj (v i) * A i j * v j.
Definition norms n (v : 'I_n -> C) : R := \big[Rplus/0%coqR]_(i < n) nrm2 (v i).
Definition coercive n (u : C) (A : 'M[C]_n) : Prop :=
  exists2 mu, (0 < mu)%coqR & forall v, (mu * norms v <= Re (u * form A v)%R)%coqR.

Lemma norms_ge0 n (v : 'I_n -> C) : (0 <= norms v)%coqR.
Proof. by apply: sumR_ge0 => i; apply: nrm2_ge0. Qed.

Lemma formE n (A : 'M[C]_n) (v : 'cV[C]_n) : form A (fun i => v i ord0) = (adj v *m A *m v) ord0 ord0.
Proof.
rewrite -mulmxA mxE; apply: eq_bigr => i _; rewrite adjE mxE mulr_sumr.
by apply: eq_bigr => j _; rewrite mulrA.
Qed.

Lemma form1 n (v : 'I_n -> C) : form 1%:M v = RtoC (norms v).
Proof.
rewrite /form (eq_bigr (fun i => RtoC (nrm2 (v i)))); last first.
  move=> i _; rewrite (bigD1 i) //= mxE eqxx mulr1 mulrC mul_conj big1 ?addr0 // => j hj.
  by rewrite mxE eq_sym (negbTE hj) mulr0 mul0r.
by rewrite /norms; elim/big_ind2: _ => // x y z t -> ->; rewrite RtoC_add.
Qed.

Lemma formB n (A B : 'M[C]_n) v : form (A - B) v = form A v - form B v.
Proof.
rewrite /form -sumrB; apply: eq_bigr => i _; rewrite -sumrB; apply: eq_bigr => j _.
by rewrite !mxE mulrBr mulrBl.
Qed.
Lemma formZ n (A : 'M[C]_n) k v : form (k *: A) v = k * form A v.
Proof.
rewrite /form mulr_sumr; apply: eq_bigr => i _; rewrite mulr_sumr; apply: eq_bigr => j _.
by rewrite !mxE [conj _ * _]mulrCA -!mulrA.
Qed.

Lemma coercive_unit n u (A : 'M[C]_n) : coercive u A -> A \in unitmx.
Proof.
case=> mu hmu h; apply: unit_inj => v hv.
have := h (fun i => v i ord0); rewrite formE -mulmxA hv mulmx0 mxE mulr0 (_ : Re 0 = 0%coqR) // => h0.
have h1 := norms_ge0 (fun i => v i ord0).
have e : (norms (fun i => v i ord0) <= 0)%coqR by nra.
apply/matrixP => i j; rewrite (ord1 j) mxE.
have := sumR_eq0 (fun i => nrm2_ge0 (v i ord0)) e i.
exact: nrm2_eq0.
Qed.

Lemma nrm2D (x y : C) : (nrm2 (x + y)%R <= 2 * nrm2 x + 2 * nrm2 y)%coqR.
Proof.
rewrite /nrm2 ReD ImD; have := Rle_0_sqr (Re x - Re y); have := Rle_0_sqr (Im x - Im y); rewrite /Rsqr; lra.
Qed.
Lemma nrm2M (x y : C) : nrm2 (x * y)%R = (nrm2 x * nrm2 y)%coqR.
Proof. by rewrite /nrm2 ReM ImM; ring. Qed.

Lemma norms_ge n (v : 'I_n -> C) i : (nrm2 (v i) <= norms v)%coqR.
Proof.
rewrite /norms; elim: n v i => [v []|n IH v i]; first by [].
rewrite big_ord_recl; case: (unliftP ord0 i) => [j ->|->].
  by have := IH (fun j => v (lift ord0 j)) j; have := nrm2_ge0 (v ord0); lra.
have : (0 <= norms (fun j => v (lift ord0 j)))%coqR by apply: norms_ge0.
rewrite /norms; set z := \big[_/_]_(_ < _) _; lra.
Qed.

Lemma row_bound n (a : 'I_n -> C) : exists2 K, (0 <= K)%coqR &
  forall w : 'I_n -> C, (nrm2 (\sum_j a j * w j)%R <= K * norms w)%coqR.
Proof.
suff H (s : seq 'I_n) : exists2 K, (0 <= K)%coqR & forall w : 'I_n -> C, (nrm2 (\sum_(j <- s) a j * w j)%R <= K * norms w)%coqR.
  exact: H.
elim: s => [|j s [K hK IH]].
  exists 0%coqR; first lra.
  by move=> w; rewrite big_nil /nrm2 (_ : Re 0 = 0%coqR) // (_ : Im 0 = 0%coqR) //; lra.
exists (2 * nrm2 (a j) + 2 * K)%coqR; first by have := nrm2_ge0 (a j); lra.
move=> w; rewrite big_cons.
have h1 := nrm2D (a j * w j) (\sum_(j <- s) a j * w j); have h2 := IH w; have h3 := norms_ge w j; have h4 := nrm2_ge0 (a j).
have h5 := Rmult_le_compat_l _ _ _ h4 h3; rewrite nrm2M in h1.
set X := nrm2 (_ + _) in h1 *; set Y := nrm2 (\sum_(_ <- _) _) in h1 h2; lra.
Qed.

Lemma sumR_le n (f g : 'I_n -> R) : (forall i, f i <= g i)%coqR ->
  (\big[Rplus/0%coqR]_(i < n) f i <= \big[Rplus/0%coqR]_(i < n) g i)%coqR.
Proof. by move=> h; elim/big_ind2: _ => [|x y z t hx hy|i _]; [lra | lra | exact: h]. Qed.

Lemma mat_bound n (A : 'M[C]_n) : exists2 K, (0 < K)%coqR &
  forall w : 'cV[C]_n, (norms (fun i => (A *m w)%R i ord0) <= K * norms (fun i => w i ord0))%coqR.
Proof.
suff H (s : seq 'I_n) : exists2 K, (0 <= K)%coqR & forall w : 'cV[C]_n,
    (\big[Rplus/0%coqR]_(i <- s) nrm2 ((A *m w)%R i ord0) <= K * norms (fun i => w i ord0))%coqR.
  have [K hK h] := H (index_enum _); exists (K + 1)%coqR; first lra.
  move=> w; have h1 : (norms (fun i => (A *m w)%R i ord0) <= K * norms (fun i => w i ord0))%coqR by exact: (h w).
  by have h2 := norms_ge0 (fun i => w i ord0); lra.
elim: s => [|i s [K hK IH]].
  by exists 0%coqR => [|w]; rewrite ?big_nil; lra.
have [K' hK' h'] := row_bound (fun j => A i j).
exists (K' + K)%coqR; first lra.
move=> w; rewrite big_cons; have := h' (fun j => w j ord0); have := IH w.
rewrite [(A *m w) i ord0]mxE.
by set z := \big[_/_]_(_ <- _) _; set t := norms _; set y := nrm2 _; lra.
Qed.

Lemma coercive_inv n u (A : 'M[C]_n) : coercive u A -> coercive (conj u) (invmx A).
Proof.
move=> hc; have ua := coercive_unit hc; case: hc => mu hmu h.
have [K hK hb] := mat_bound A.
exists (mu / K)%coqR; first by apply: Rmult_lt_0_compat => //; apply: Rinv_0_lt_compat.
move=> f; pose v : 'cV[C]_n := \col_i f i; pose w := invmx A *m v.
have vE : v = A *m w by rewrite /w invmx_lK.
have -> : form (invmx A) f = conj (form A (fun i => w i ord0)).
  have -> : form (invmx A) f = form (invmx A) (fun i => v i ord0).
    by apply: eq_bigr => i _; apply: eq_bigr => j _; rewrite !mxE.
  have fc (B : 'M[C]_n) (z : 'cV[C]_n) : conj ((adj z *m B *m z) ord0 ord0) = (adj z *m adj B *m z) ord0 ord0.
    by rewrite -adjE !adjM adjK mulmxA.
  by rewrite !formE fc vE adjM -!mulmxA (mulKmx ua).
rewrite -conjM Re_conj.
have := hb w; have -> : norms (fun i => (A *m w) i ord0) = norms f.
  by rewrite -vE; apply: eq_bigr => i _; rewrite mxE.
have := h (fun i => w i ord0); set M := norms _; set N := norms _ => h1 h2.
have : (mu / K * N <= mu / K * (K * M))%coqR.
  have hq : (0 < mu / K)%coqR by apply: Rmult_lt_0_compat => //; apply: Rinv_0_lt_compat.
  by apply: Rmult_le_compat_l; lra.
have -> : (mu / K * (K * M) = mu * M)%coqR by field; lra.
lra.
Qed.

(** ** Transforms preserve positivity *)

Lemma collapse N m (g : 'I_N -> 'I_m) (Y : 'M[C]_m) (w : 'I_N -> C) :
  \sum_i \sum_j conj (w i) * Y (g i) (g j) * w j = form Y (fun r => \sum_(i | g i == r) w i).
Proof.
rewrite /form (partition_big g xpredT) //=; apply: eq_bigr => r _.
rewrite (eq_bigr (fun i => \sum_c \sum_(j | g j == c) conj (w i) * Y r c * w j)); last first.
  move=> i /eqP <-; rewrite (partition_big g xpredT) //=; apply: eq_bigr => c _.
  by apply: eq_bigr => j /eqP <-.
rewrite exchange_big /=; apply: eq_bigr => c _.
rewrite rmorph_sum !mulr_suml; apply: eq_bigr => i _.
by rewrite mulr_sumr.
Qed.

(** Sampled with orders [k], pixel matrices [Y a] of one sign give a matrix of that sign. *)
Definition gather (t : transform) N m (k : 'I_N -> nat) (g : 'I_N -> 'I_m) (Y : nat -> 'M[C]_m) : 'M[C]_N :=
  \matrix_(i, j) ocoef t (fun a => Y a (g i) (g j)) (k i) (k j).
Definition keeps_sign (t : transform) (n ff : nat) : Prop :=
  forall N m (k : 'I_N -> nat) (g : 'I_N -> 'I_m) (Y : nat -> 'M[C]_m) u, (forall i, (k i < ff)%N) ->
  (forall a P, (a < n)%N -> (0 <= Re (u * form (Y a) P)%R)%coqR) ->
  forall v, (0 <= Re (u * form (gather t k g Y) v)%R)%coqR.

Definition ph (th : R) (k : nat) : C := cexp (- ci * RtoC (th * INR k)%coqR).
Lemma phB th r c : cexp (- ci * RtoC (th * (INR c - INR r))%coqR) = conj (ph th r) * ph th c.
Proof.
rewrite /ph -cexp_conj -cexpD conjM conjN conjI conjR opprK; congr cexp.
by rewrite (_ : th * (INR c - INR r) = th * INR c - th * INR r)%coqR; [rewrite RtoC_sub; cring | ring].
Qed.

Lemma fft_keeps_sign n ff : (ff <= n)%N -> keeps_sign (fft_transform n) n ff.
Proof.
move=> hn N m k g Y u hk hY v.
have hk' i : (k i < n)%N by exact: leq_trans hn.
case: (posnP n) => n0.
  have e : form (gather (fft_transform n) k g Y) v = 0.
    by rewrite /form big1 // => i _; have := hk' i; rewrite n0.
  by rewrite e mulr0 (_ : Re 0 = 0%coqR) //; lra.
have nR : (0 < INR n)%coqR by apply: lt_0_INR; apply/leP.
pose th (a : nat) := (2 * PI * INR a / INR n)%coqR.
have -> : form (gather (fft_transform n) k g Y) v =
  RtoC (/ INR n) * \sum_(a < n) form (Y a) (fun r => \sum_(i | g i == r) v i * ph (th a) (k i)).
  rewrite (eq_bigr (fun a : 'I_n => \sum_i \sum_j conj (v i * ph (th a) (k i)) * Y a (g i) (g j) * (v j * ph (th a) (k j)))); last first.
    by move=> a _; rewrite -collapse.
  rewrite exchange_big mulr_sumr; apply: eq_bigr => i _.
  rewrite exchange_big mulr_sumr; apply: eq_bigr => j _.
  rewrite mxE fft_ocoef // /dft RtoC_inv; last lra.
  set q := (RtoC (INR n))^-1; rewrite [LHS](_ : _ = q * (conj (v i) * (\sum_(a < n) Y a (g i) (g j) * cexp (- ci * RtoC (2 * PI * (INR (k j) - INR (k i)) * INR a / INR n))) * v j)); last by cring.
  congr (_ * _); rewrite mulr_sumr mulr_suml; apply: eq_bigr => a _.
  have -> : (2 * PI * (INR (k j) - INR (k i)) * INR a / INR n = th a * (INR (k j) - INR (k i)))%coqR.
    by rewrite /th; field; lra.
  by rewrite phB conjM; cring.
rewrite mulrCA ReZ; apply: Rmult_le_pos; first by apply: Rlt_le; apply: Rinv_0_lt_compat.
rewrite mulr_sumr Re_sum; apply: sumR_ge0 => a; exact: hY.
Qed.

Lemma cint_add f g a b u v : cintegral f a b u -> cintegral g a b v -> cintegral (fun t => f t + g t) a b (u + v).
Proof.
move=> [h1 h2] [h3 h4]; split.
  rewrite ReD; apply: is_RInt_ext; last exact: (@is_RInt_plus R_NormedModule _ _ _ _ _ _ h1 h3).
  by move=> t _; rewrite ReD.
rewrite ImD; apply: is_RInt_ext; last exact: (@is_RInt_plus R_NormedModule _ _ _ _ _ _ h2 h4).
by move=> t _; rewrite ImD.
Qed.

Lemma cint_zero a b : cintegral (fun _ => 0) a b 0.
Proof.
have h := cint_scal 0 (cint_primitive a b primitive_one); by rewrite !mul0r in h.
Qed.

Lemma cint_sum I (s : seq I) (f : I -> R -> C) a b (v : I -> C) : (forall i, cintegral (f i) a b (v i)) ->
  cintegral (fun t => \sum_(i <- s) f i t) a b (\sum_(i <- s) v i).
Proof.
move=> h; elim: s => [|i s IH].
  by rewrite big_nil; apply: cint_ext (cint_zero a b) => t _; rewrite big_nil.
by rewrite big_cons; apply: cint_ext (cint_add (h i) IH) => t _; rewrite big_cons.
Qed.

Lemma cint_ge0 f a b v : (a <= b)%coqR -> cintegral f a b v -> (forall t, (a < t < b)%coqR -> (0 <= Re (f t))%coqR) ->
  (0 <= Re v)%coqR.
Proof. by move=> hab [h1 _] h; apply: is_RInt_ge_0 h1 h. Qed.

Lemma cfs_keeps_sign x p fto : covers x p -> keeps_sign (cfs_transform x fto) (size x) fto.*2.+1.
Proof.
move=> hx N m k g Y u hk hY v.
have lx : last 0%coqR x = p by case: hx.
have p0 : (0 < p)%coqR by case: hx.
pose th (t : R) := (2 * PI * t / p)%coqR.
pose Yt t := Y (find (rlt t) x).
pose P t := (fun r => \sum_(i | g i == r) v i * ph (th t) (k i)).
have F : cintegral (fun t => u * form (Yt t) (P t)) 0 p (u * (RtoC p * form (gather (cfs_transform x fto) k g Y) v)).
  apply: cint_scal.
  apply: (cint_ext (f := fun t => \sum_i \sum_j (conj (v i) * v j) * (Yt t (g i) (g j) * cexp (- ci * RtoC (th t * (INR (k j) - INR (k i))))))).
    move=> t _; rewrite -collapse; apply: eq_bigr => i _; apply: eq_bigr => j _.
    by rewrite phB conjM; cring.
  rewrite /form mulr_sumr; apply: cint_sum => i; rewrite mulr_sumr; apply: cint_sum => j.
  rewrite mxE cfs_ocoef // lx.
  have := cint_scal (conj (v i) * v j) (cfs_fourier fto (fun a => Y a (g i) (g j)) (k j + fto.*2 - k i) hx).
  rewrite [X in cintegral _ _ _ X -> _](_ : _ = RtoC p * (conj (v i) * cfs x p fto (fun a => Y a (g i) (g j)) (k j + fto.*2 - k i) * v j)); last by cring.
  apply: cint_ext => t _; congr (_ * (_ * cexp (_ * RtoC _))).
  by rewrite mode_swap // /th; field; lra.
have := cint_ge0 (Rlt_le _ _ p0) F.
rewrite mulrCA ReZ => h.
have {}h : (0 <= p * Re (u * form (gather (cfs_transform x fto) k g Y) v)%R)%coqR.
  by apply: h => t ht; apply: hY; apply: covers_find hx _; lra.
nra.
Qed.

(** ** Linear transforms *)
Definition linear_t (t : transform) : Prop := forall (f g : nat -> C) s r c,
  ocoef t (fun a => f a - s * g a) r c = ocoef t f r c - s * ocoef t g r c.
Lemma fft_linear n : linear_t (fft_transform n).
Proof.
move=> f g s r c; rewrite /ocoef /=; set k := odflt _ _; rewrite /fft mulr_sumr -sumrB; apply: eq_bigr => j _.
by rewrite mulrBl mulrBl !mulrA.
Qed.
Lemma cfs_linear x fto : linear_t (cfs_transform x fto).
Proof.
move=> f g s r c; rewrite /ocoef /=; set k := odflt _ _; rewrite /cfs; case: eqP => _;
  rewrite [s * (_ / _)]mulrA -mulrBl; congr (_ / _); rewrite mulr_sumr -sumrB; apply: eq_bigr => j _; cring.
Qed.

Lemma common_bound n (Q : nat -> R -> Prop) : (forall a mu mu', (mu' <= mu)%coqR -> Q a mu -> Q a mu') ->
  (forall a, (a < n)%N -> exists2 mu, (0 < mu)%coqR & Q a mu) ->
  exists2 mu, (0 < mu)%coqR & forall a, (a < n)%N -> Q a mu.
Proof.
move=> mono; elim: n => [|n IH] h; first by exists 1%coqR; [lra|].
have [m1 h1 h1'] := IH (fun a ha => h a (ltnW ha)); have [m2 h2 h2'] := h n (ltnSn n).
exists (Rmin m1 m2); first exact: Rmin_pos.
move=> a; rewrite ltnS leq_eqVlt => /orP [/eqP ->|ha]; first by apply: mono h2'; exact: Rmin_r.
by apply: mono (h1' a ha); exact: Rmin_l.
Qed.

Lemma ReB (x y : C) : Re (x - y)%R = (Re x - Re y)%coqR. Proof. by []. Qed.

Lemma gather_coercive t n ff N m (k : 'I_N -> nat) (g : 'I_N -> 'I_m) (Y : nat -> 'M[C]_m) u :
  keeps_sign t n ff -> linear_t t -> unital t ff -> nrm2 u = 1%coqR ->
  (forall i, (k i < ff)%N) -> (forall i j, g i = g j -> k i = k j -> i = j) ->
  (forall a, (a < n)%N -> coercive u (Y a)) -> coercive u (gather t k g Y).
Proof.
move=> hs hl hu u1 hk hinj hY.
have mono a mu mu' : (mu' <= mu)%coqR ->
  (forall v, (mu * norms v <= Re (u * form (Y a) v)%R)%coqR) -> (forall v, (mu' * norms v <= Re (u * form (Y a) v)%R)%coqR).
  by move=> h h' v; have := h' v; have := norms_ge0 v; nra.
have [mu hmu h] := common_bound mono hY.
exists mu => // v.
pose s := RtoC mu * conj u.
have us x : u * (s * x) = RtoC mu * x.
  by rewrite /s mulrA [u * _]mulrCA mul_conj u1 (_ : RtoC 1 = 1) // mulr1.
have := hs N m k g (fun a => Y a - s *: 1%:M) u hk.
have -> : gather t k g (fun a => Y a - s *: 1%:M) = gather t k g Y - s *: 1%:M.
  apply/matrixP => i j; rewrite !mxE.
  have -> : (fun a => (Y a - s *: 1%:M) (g i) (g j)) = (fun a => Y a (g i) (g j) - s * (fun _ => (1%:M : 'M[C]_m) (g i) (g j)) a).
    by apply: functional_extensionality => a; rewrite !mxE.
  rewrite hl hu //; congr (_ - s * _); rewrite mxE.
  case: eqP => [e1|e1]; last by case: eqP => // e2; rewrite e2 in e1.
  case: eqP => [e2|e2]; case: eqP => [e3|e3] //; first by case: e3; apply: hinj.
  by rewrite e3 in e2.
move=> H; have {H} := H _ v.
rewrite formB formZ form1 mulrBr us -RtoC_mul => H.
suff : (0 <= Re (u * form (gather t k g Y) v - RtoC (mu * norms v)%coqR)%R)%coqR by rewrite ReB /= (_ : Re (RtoC _) = (mu * norms v)%coqR) //; lra.
apply: H => a P ha; rewrite formB formZ form1 mulrBr us -RtoC_mul ReB (_ : Re (RtoC _) = (mu * norms P)%coqR) //.
by have := h a ha P; lra.
Qed.

(** ** Layers *)

(** All values lie strictly on one side of a line through 0. *)
Definition half_plane (u : C) (ny nx : nat) (cell : nat -> nat -> C) : Prop :=
  forall b a, (b < ny)%N -> (a < nx)%N -> (0 < Re (u * cell b a)%R)%coqR.

Lemma coercive_scalar u (z : C) : (0 < Re (u * z)%R)%coqR -> coercive u (z%:M : 'M[C]_1).
Proof.
move=> h; exists (Re (u * z)%R) => // v; rewrite -scalemx1 formZ form1.
have -> : u * (z * RtoC (norms v)) = RtoC (norms v) * (u * z) by rewrite mulrA mulrC.
rewrite ReZ.
by apply: Req_le; ring.
Qed.

Lemma half_plane_inv u (z : C) : (0 < Re (u * z)%R)%coqR -> (0 < Re (conj u * z^-1)%R)%coqR /\ z != 0.
Proof.
move=> h; have z0 : z != 0 by apply/eqP => e; move: h; rewrite e mulr0 (_ : Re 0 = 0%coqR) //; lra.
split=> //.
have n0 : (0 < nrm2 z)%coqR.
  have := nrm2_ge0 z; case: (Req_EM_T (nrm2 z) 0) => [/nrm2_eq0 e|]; last lra.
  by rewrite e eqxx in z0.
have -> : z^-1 = RtoC (/ nrm2 z) * conj z.
  rewrite RtoC_inv; last lra.
  by rewrite -mul_conj invfM -mulrA mulVf ?mulr1 // conj_eq0.
rewrite mulrCA ReZ -conjM Re_conj; apply: Rmult_lt_0_compat => //; exact: Rinv_0_lt_compat.
Qed.

Section Layer.
Variables (tx ty : transform) (nx ny : nat) (cell : nat -> nat -> C) (fto_x fto_y : nat) (u : C).
Let ff_x := fto_x.*2.+1.
Let ff_y := fto_y.*2.+1.
Hypotheses (ix : in_range tx ff_x) (iy : in_range ty ff_y) (rx : reads tx nx)
  (sx : keeps_sign tx nx ff_x) (sy : keeps_sign ty ny ff_y) (lx : linear_t tx) (ly : linear_t ty)
  (ux : unital tx ff_x) (uy : unital ty ff_y) (u1 : nrm2 u = 1%coqR) (hp : half_plane u ny nx cell).

Lemma cu1 : nrm2 (conj u) = 1%coqR.
Proof. by rewrite -u1 /nrm2 Re_conj Im_conj; ring. Qed.

Lemma toep_y_coercive cy a : (a < nx)%N ->
  coercive (if cy then u else conj u) (toep_y ty cell cy fto_y a).
Proof.
move=> ha.
pose z b := if cy then cell b a else (cell b a)^-1.
have -> : toep_y ty cell cy fto_y a = gather ty (fun i : 'I_ff_y => val i) (fun _ => ord0) (fun b => (z b)%:M : 'M[C]_1).
  apply/matrixP => i j; rewrite !mxE; congr ocoef.
  by apply: functional_extensionality => b; rewrite mxE.
apply: (gather_coercive sy ly uy) => //.
- by case: (cy); rewrite ?cu1.
- by move=> i; exact: ltn_ord.
- by move=> i j _ /val_inj.
move=> b hb; apply: coercive_scalar; rewrite /z; have h := hp hb ha.
by case: cy {z} => //; case: (half_plane_inv h).
Qed.

Lemma toep_xy_coercive cx cy : cx || cy ->
  coercive (if cx then u else conj u) (toep_xy tx ty cell cx cy fto_x fto_y).
Proof.
move=> hcc.
have lt i : (i < ff_y * ff_x)%N -> (i %/ ff_x < ff_y)%N := @flat_div _ _ i.
have -> : toep_xy tx ty cell cx cy fto_x fto_y =
  gather tx (fun i : 'I_(ff_y * ff_x) => (i %% ff_x)%N) (fun i => Ordinal (lt i (ltn_ord i)))
     (fact_y ty cell cx cy fto_y).
  apply/matrixP => i j; rewrite !mxE; congr ocoef.
  by apply: functional_extensionality => a; rewrite -entE.
apply: (gather_coercive sx lx ux).
- by case: cx {hcc}; rewrite ?cu1.
- by move=> i; rewrite ltn_mod.
- move=> i j [e1] e2; apply: val_inj; rewrite /= (divn_eq i ff_x) (divn_eq j ff_x).
  by rewrite e1 e2.
move=> a ha; rewrite /fact_y; have := toep_y_coercive cy ha.
case: cx cy hcc => -[] //= _; first by move/coercive_inv; rewrite conjK.
by move/coercive_inv.
Qed.

Lemma four2d_defined cx cy : cx || cy ->
  exists2 M, four2d tx ty nx ny cell cx cy fto_x fto_y = Some M & coercive u M.
Proof.
move=> hcc; rewrite four2dE //.
rewrite ifF; last first.
  case: cy {hcc} => //=; apply/negbTE/hasPn => a; rewrite mem_iota /= => ha.
  apply/hasPn => b; rewrite mem_iota /= => hb; by case: (half_plane_inv (hp hb ha)).
rewrite ifF; last first.
  apply/negP => /andP [_] /negP; apply; apply/allP => a; rewrite mem_iota /= => ha.
  exact: coercive_unit (toep_y_coercive cy ha).
have := toep_xy_coercive hcc; case: cx hcc => hcc hc; first by eexists; [reflexivity|].
by rewrite /np_inv (coercive_unit hc); eexists; [reflexivity|]; have := coercive_inv hc; rewrite conjK.
Qed.
End Layer.

Lemma three_defined pinv n (f : bool -> bool -> option 'M[C]_n) u :
  (forall cx cy, cx || cy -> exists2 M, f cx cy = Some M & coercive u M) ->
  exists ex ey ez, [/\ three_convs pinv false f = Some (ex, ey, invmx ez), f true true = Some ez,
    coercive u ex, coercive u ey & coercive u ez].
Proof.
move=> h; rewrite /three_convs.
have [z ez hz] := h true true isT; have [y ey hy] := h true false isT; have [x ex hx] := h false true isT.
by exists x, y, z; rewrite ez ey ex /meeinv (coercive_unit hz).
Qed.

Lemma continuous_defined pinv fto_x fto_y l u : (0 < rows l)%N -> (0 < cols l)%N -> nrm2 u = 1%coqR ->
  all_px (fun n => 0 < Re (u * n ^+ 2)%R)%coqR l ->
  exists ex ey ez, [/\ conv_continuous pinv false fto_x fto_y l = Some (ex, ey, invmx ez),
    coercive u ex, coercive u ey & coercive u ez].
Proof.
move=> hr hc u1 h; rewrite /conv_continuous.
have hl := all_pick_rows (all_pick_cols (all_flip h)).
move: (compression_ok hr hc) hl; rewrite /=.
set x := ends _ _; set y := ends _ _ => -[cx cy _ _] hl.
have px0 : last 0%coqR x <> 0%coqR by case: cx => _ ->; lra.
have py0 : last 0%coqR y <> 0%coqR by case: cy => _ ->; lra.
have [|ex [ey [ez [e1 _ h1 h2 h3]]]] := @three_defined pinv _ (fun cx0 cy0 => cfs2d (eps_of (pick_rows (pick_cols (flipud l)))) x y cx0 cy0 fto_x fto_y) u.
  move=> a b hab; apply: four2d_defined => //; try exact: cfs_in_range; try exact: cfs_reads; try exact: cfs_linear; try exact: cfs_unital.
  - exact: cfs_keeps_sign cx.
  - exact: cfs_keeps_sign cy.
  by move=> i j hi hj; apply: hl; [move: hi | move: hj]; rewrite /= /ends size_map.
by exists ex, ey, ez.
Qed.

Lemma vector_defined pinv fto_x fto_y l x y pxx pyy u : covers x pxx -> covers y pyy -> rows l = size y -> cols l = size x ->
  nrm2 u = 1%coqR -> all_px (fun n => 0 < Re (u * n ^+ 2)%R)%coqR l ->
  exists ex ey ez, [/\ conv_vector pinv false fto_x fto_y (l, x, y) = Some (ex, ey, invmx ez),
    coercive u ex, coercive u ey & coercive u ez].
Proof.
move=> cx cy er ec u1 h; rewrite /conv_vector.
have px0 : last 0%coqR x <> 0%coqR by case: cx => _ ->; lra.
have py0 : last 0%coqR y <> 0%coqR by case: cy => _ ->; lra.
have [|ex [ey [ez [e1 _ h1 h2 h3]]]] := @three_defined pinv _ (fun cx0 cy0 => cfs2d (eps_of l) x y cx0 cy0 fto_x fto_y) u.
  move=> a b hab; apply: four2d_defined => //; try exact: cfs_in_range; try exact: cfs_reads; try exact: cfs_linear; try exact: cfs_unital.
  - exact: cfs_keeps_sign cx.
  - exact: cfs_keeps_sign cy.
  by move=> i j hi hj; apply: h; rewrite ?er ?ec.
by exists ex, ey, ez.
Qed.

Lemma discrete_defined pinv e fto_x fto_y l u : (0 < rows l)%N -> (0 < cols l)%N -> nrm2 u = 1%coqR ->
  all_px (fun n => 0 < Re (u * n ^+ 2)%R)%coqR l ->
  exists ex ey ez, [/\ conv_discrete pinv false e fto_x fto_y l = Some (ex, ey, invmx ez),
    coercive u ex, coercive u ey & coercive u ez].
Proof.
move=> hr hc u1 h; rewrite /conv_discrete.
have [h1 h2] := enlarge_size e fto_x fto_y hr hc.
have hl := all_enlarge (e := e) (fto_x := fto_x) (fto_y := fto_y) h.
set l' := enlarge _ _ _ _ in h1 h2 hl *.
have [|ex [ey [ez [e1 _ k1 k2 k3]]]] := @three_defined pinv _ (fun cx0 cy0 => dfs2d (rows l') (cols l') (eps_of l') cx0 cy0 fto_x fto_y) u.
  have hx : (fto_x.*2.+1 <= cols l')%N by apply: dbl_lt.
  have hy : (fto_y.*2.+1 <= rows l')%N by apply: dbl_lt.
  move=> a b hab; apply: four2d_defined => //; try exact: fft_in_range; try exact: fft_reads; try exact: fft_linear; try exact: fft_unital; exact: fft_keeps_sign.
by exists ex, ey, ez.
Qed.

Lemma coercive_definite n u (A : 'M[C]_n) : coercive u A -> definite u A.
Proof.
case=> mu hmu h v v0; have := h (fun i => v i ord0); rewrite formE -/(adj v) => h1.
have h2 := norms_ge0 (fun i => v i ord0).
apply: Rlt_le_trans h1; apply: Rmult_lt_0_compat => //.
case: (Rle_lt_dec (norms (fun i => v i ord0)) 0) => // h3; case: v0.
apply/matrixP => i j; rewrite (ord1 j) mxE.
exact: nrm2_eq0 (sumR_eq0 (fun i => nrm2_ge0 (v i ord0)) h3 i).
Qed.
