From Coq Require Import Reals Lra Psatz FunctionalExtensionality.
From mathcomp Require Import all_ssreflect ssralg matrix mxalgebra.
From Coquelicot Require Import Complex.
From Verif Require Import Cplx Mx ModelTM ModelGrad SpecGrad.

Set Implicit Arguments.
Unset Strict Implicit.
Unset Printing Implicit Defensive.
Local Open Scope ring_scope.
Import GRing.Theory.

(** ** Pairings are traces *)
Lemma tr_adj m n (X Y : 'M[C]_(m, n)) : \tr (adj X *m Y) = \sum_i \sum_j conj (X i j) * Y i j.
Proof.
rewrite /mxtrace; under eq_bigr => j _ do rewrite mxE.
by rewrite exchange_big /=; apply: eq_bigr => i _; apply: eq_bigr => j _; rewrite !mxE.
Qed.
Lemma torch_dotE m n (g d : 'M[C]_(m, n)) : torch_dot g d = Re (\tr (adj g *m d)).
Proof. by rewrite tr_adj Re_sum; apply: eq_bigr => i _; rewrite Re_sum. Qed.
Lemma jax_dotE m n (g d : 'M[C]_(m, n)) : jax_dot g d = torch_dot (map_mx conj g) d.
Proof. by apply: eq_bigr => i _; apply: eq_bigr => j _; rewrite mxE conjK. Qed.
Lemma torch_dot_real m n (g d : 'M[C]_(m, n)) : real_matrix d -> torch_dot (real_mx g) d = torch_dot g d.
Proof.
move=> h; apply: eq_bigr => i _; apply: eq_bigr => j _; rewrite mxE.
by have := h i j; case: (d i j) (g i j) => a b [c e]; rewrite /Re /Im /= => ->; ring.
Qed.
Lemma real_conj m n (g : 'M[C]_(m, n)) : map_mx conj (real_mx g) = real_mx (map_mx conj g).
Proof. by apply/matrixP => i j; rewrite !mxE conjR. Qed.

Lemma gap_conj eps d : (0 < nrm2 d + eps)%coqR -> conj (gap eps d) * d = RtoC (nrm2 d / (nrm2 d + eps)).
Proof.
move=> h; have e : (Cmod d ^ 2 = nrm2 d)%coqR.
  rewrite /Cmod pow2_sqrt /nrm2 /Re /Im; first by case: d {h} => a b /=; ring.
  by case: d {h} => a b /=; nra.
rewrite /gap e conjM conjV conjR RtoC_div; last lra.
by rewrite mulrAC [conj d * d]mulrC mul_conj.
Qed.

(** ** The backward pass *)
Section Backward.
Variables (n : nat) (eps : R) (A : 'M[C]_n) (lam : 'rV[C]_n) (W : 'M[C]_n) (gl : 'rV[C]_n) (gW : 'M[C]_n).
Hypothesis hA : diagonalises A lam W.
Hypothesis hW : W \in unitmx.

Lemma adj_unit (X : 'M[C]_n) : (adj X \in unitmx) = (X \in unitmx).
Proof. by rewrite /adj map_unitmx unitmx_tr. Qed.
Lemma adj_inv (X : 'M[C]_n) : adj (invmx X) = invmx (adj X).
Proof. by rewrite /adj trmx_inv map_invmx. Qed.

Let core := diag_mx gl + times (eig_F eps lam) (adj W *m gW).
Lemma backwardE real_in : eig_backward eps real_in lam W gl gW =
  Some (if real_in then real_mx (invmx (adj W) *m core *m adj W) else invmx (adj W) *m core *m adj W).
Proof. by rewrite /eig_backward adj_unit hW. Qed.

Section Perturb.
Variables (dA : 'M[C]_n) (dlam : 'rV[C]_n) (dW : 'M[C]_n).
Hypothesis h1 : first_order A lam W dA dlam dW.
Let K := invmx W *m dW.

Lemma invWA : invmx W *m A = diag_mx lam *m invmx W.
Proof. by rewrite -[diag_mx lam](mulKmx hW) -hA -!mulmxA mulmxV // mulmx1. Qed.

Lemma similar : invmx W *m dA *m W = diag_mx dlam + (K *m diag_mx lam - diag_mx lam *m K).
Proof.
have e : dA *m W = dW *m diag_mx lam + W *m diag_mx dlam - A *m dW by rewrite -h1 addrK.
rewrite -mulmxA e mulmxBr mulmxDr mulKmx // !mulmxA invWA /K -!mulmxA; mxab.
Qed.

Lemma similarE i j : (invmx W *m dA *m W) i j = dlam ord0 i *+ (i == j) + (lam ord0 j - lam ord0 i) * K i j.
Proof.
rewrite similar; move: K => K'; rewrite mul_mx_diag mul_diag_mx !mxE; congr (_ + _).
by move: (K' i j) => x; rewrite mulrBl; congr (_ - _); exact: mulrC.
Qed.

Definition weight (i j : 'I_n) : R := (nrm2 (lam ord0 j - lam ord0 i)%R / (nrm2 (lam ord0 j - lam ord0 i)%R + eps))%coqR.

Lemma pair_eig : (forall i j, i != j -> (0 < nrm2 (lam ord0 j - lam ord0 i)%R + eps)%coqR) ->
  torch_dot (invmx (adj W) *m core *m adj W) dA =
  (torch_dot gl dlam + \big[Rplus/0%coqR]_(i < n) \big[Rplus/0%coqR]_(j < n | i != j)
     (weight i j * Re (conj ((adj W *m gW) i j) * K i j)%R))%coqR.
Proof.
move=> hp.
rewrite !torch_dotE.
have -> : \tr (adj (invmx (adj W) *m core *m adj W) *m dA) = \tr (adj core *m (invmx W *m dA *m W)).
  by rewrite !adjM adjK adj_inv adjK -!mulmxA mxtrace_mulC !mulmxA.
rewrite tr_adj.
have -> : \sum_i \sum_j conj (core i j) * (invmx W *m dA *m W) i j =
   \sum_i (conj (gl ord0 i) * dlam ord0 i + \sum_(j | i != j) RtoC (weight i j) * (conj ((adj W *m gW) i j) * K i j)).
  apply: eq_bigr => i _; rewrite (bigD1 i) //=; congr (_ + _).
    by rewrite similarE eqxx subrr mul0r addr0 /core !mxE eqxx mul0r addr0.
  apply: eq_big => j; first by rewrite eq_sym.
  move=> ji; have ij : i == j = false by rewrite eq_sym; exact: negbTE.
  have ec : core i j = gap eps (lam ord0 j - lam ord0 i) * (adj W *m gW) i j.
    by rewrite /core mxE [diag_mx _ _ _]mxE ij mulr0n add0r mxE [eig_F _ _ _ _]mxE ij.
  rewrite similarE ij mulr0n add0r ec conjM.
  have := hp i j; rewrite ij => /(_ isT) /gap_conj e; rewrite /weight -e.
  move: (lam ord0 j - _) (K i j) ((adj W *m gW) i j) (gap _ _) => y z s x; cring.
rewrite big_split /= ReD; congr Rplus.
  rewrite /mxtrace; congr Re; apply: eq_bigr => i _.
  by rewrite mxE big_ord_recl big_ord0 addr0 !mxE.
rewrite Re_sum; apply: eq_bigr => i _; rewrite Re_sum; apply: eq_bigr => j _; exact: ReZ.
Qed.
End Perturb.
End Backward.

Section Exact.
Variables (n : nat) (A : 'M[C]_n) (lam : 'rV[C]_n) (W : 'M[C]_n).
Hypothesis hA : diagonalises A lam W.
Hypothesis hW : W \in unitmx.

Lemma sum_offdiag (f : 'I_n -> 'I_n -> R) : \big[Rplus/0%coqR]_(i < n) \big[Rplus/0%coqR]_(j < n) f i j =
  (\big[Rplus/0%coqR]_(i < n) f i i + \big[Rplus/0%coqR]_(i < n) \big[Rplus/0%coqR]_(j < n | i != j) f i j)%coqR.
Proof.
have e (g : 'I_n -> R) (P : pred 'I_n) : RtoC (\big[Rplus/0%coqR]_(i < n | P i) g i) = \sum_(i < n | P i) RtoC (g i).
  exact: (big_morph _ RtoC_add).
apply: RtoC_inj; rewrite RtoC_add !e -big_split /=; apply: eq_bigr => i _.
rewrite !e (bigD1 i) //=; congr (_ + _); by apply: eq_bigl => j; rewrite eq_sym.
Qed.

(** All first-order perturbations, with or without regularisation. *)
Lemma backward_pair eps gl gW dA dlam dW : first_order A lam W dA dlam dW -> (0 <= eps)%coqR ->
  ((0 < eps)%coqR \/ distinct lam) -> exists2 G, eig_backward eps false lam W gl gW = Some G &
  torch_dot G dA = (torch_dot gl dlam + \big[Rplus/0%coqR]_(i < n) \big[Rplus/0%coqR]_(j < n | i != j)
     (nrm2 (lam ord0 j - lam ord0 i)%R / (nrm2 (lam ord0 j - lam ord0 i)%R + eps) *
      Re (conj ((adj W *m gW) i j) * component W dW i j)%R))%coqR.
Proof.
move=> h1 e0 he; rewrite (backwardE eps lam gl gW hW); eexists; first by [].
apply: (pair_eig gl gW hA hW h1) => i j ij.
have := nrm2_ge0 (lam ord0 j - lam ord0 i); case: he => [|hd]; first lra.
have : nrm2 (lam ord0 j - lam ord0 i) <> 0%coqR.
  by move=> /nrm2_eq0 /eqP; rewrite subr_eq0 => /eqP e; apply: (hd _ _ ij).
lra.
Qed.

Lemma dot_components gW dW : torch_dot gW dW =
  \big[Rplus/0%coqR]_(i < n) \big[Rplus/0%coqR]_(j < n) Re (conj ((adj W *m gW) i j) * component W dW i j)%R.
Proof.
have e : \tr (adj gW *m dW) = \tr (adj (adj W *m gW) *m (invmx W *m dW)).
  by rewrite adjM adjK -!mulmxA (mulmxA W) mulmxV // mul1mx.
by rewrite torch_dotE e tr_adj Re_sum; apply: eq_bigr => i _; rewrite Re_sum.
Qed.

Lemma backward_exact gl gW dA dlam dW : first_order A lam W dA dlam dW -> distinct lam ->
  exists2 G, eig_backward 0 false lam W gl gW = Some G &
  torch_dot G dA = (torch_dot gl dlam + torch_dot gW dW -
    \big[Rplus/0%coqR]_(i < n) Re (conj ((adj W *m gW) i i) * component W dW i i)%R)%coqR.
Proof.
move=> h1 hd; have [G eG e] := backward_pair gl gW h1 (Rle_refl 0) (or_intror hd).
exists G => //; rewrite e dot_components sum_offdiag.
have -> : forall x y z : R, (x + (y + z) - y = x + z)%coqR by move=> *; ring.
congr Rplus; apply: eq_bigr => i _; apply: eq_bigr => j ij.
rewrite Rplus_0_r /Rdiv Rinv_r ?Rmult_1_l // => /nrm2_eq0 /eqP; rewrite subr_eq0 => /eqP h.
exact: (hd _ _ ij).
Qed.

(** First-order perturbations exist and are unique up to the scaling of the eigenvectors. *)
Lemma first_orderE dA dlam dW : first_order A lam W dA dlam dW <->
  forall i j, (invmx W *m dA *m W) i j = dlam ord0 i *+ (i == j) + (lam ord0 j - lam ord0 i) * component W dW i j.
Proof.
split=> [h1 i j|h]; first exact: (similarE hA hW h1).
have e : invmx W *m dA *m W = diag_mx dlam + ((invmx W *m dW) *m diag_mx lam - diag_mx lam *m (invmx W *m dW)).
  apply/matrixP => i j; rewrite h /component; move: (invmx W *m dW) => K'.
  rewrite mul_mx_diag mul_diag_mx !mxE; congr (_ + _); move: (K' i j) => x; rewrite mulrBl; congr (_ - _); exact: mulrC.
have := congr1 (mulmx W) e; rewrite mulmxDr mulmxBr !mulmxA mulmxV // !mul1mx -hA mulmxK // => e'.
rewrite /first_order e'; mxab.
Qed.

Lemma first_order_unique dA dlam dW dlam' dW' : distinct lam -> first_order A lam W dA dlam dW ->
  first_order A lam W dA dlam' dW' -> dlam = dlam' /\ forall i j, i != j -> component W dW i j = component W dW' i j.
Proof.
move=> hd /first_orderE h /first_orderE h'; split.
  by apply/rowP => i; have := h i i; rewrite h' eqxx subrr !mul0r !addr0 => /esym.
move=> i j ij; have := h i j; rewrite h' (negbTE ij) !mulr0n !add0r => e.
apply: (mulfI (x := lam ord0 j - lam ord0 i)); last by [].
by rewrite subr_eq0; apply/eqP => /esym; exact: hd.
Qed.

Lemma first_order_exists dA : distinct lam -> exists dlam dW, first_order A lam W dA dlam dW /\ fixed_scale W dW.
Proof.
move=> hd; pose B := invmx W *m dA *m W.
pose K : 'M[C]_n := \matrix_(i, j) if i == j then 0 else B i j / (lam ord0 j - lam ord0 i).
exists (\row_i B i i), (W *m K).
have ec i j : component W (W *m K) i j = K i j by rewrite /component mulKmx.
split; last by move=> i; rewrite ec mxE eqxx.
apply/first_orderE => i j; rewrite ec -/B.
case: (altP (i =P j)) => [<-|ij]; first by rewrite !mxE eqxx mulr0 addr0.
rewrite [K i j]mxE (negbTE ij) add0r mulrC divfK // subr_eq0; apply/eqP => /esym; exact: hd.
Qed.
End Exact.

(** ** Derivatives of matrix curves *)
Lemma derC_const c : derC (fun _ => c) 0.
Proof. by split; apply: derivable_pt_lim_const. Qed.
Lemma derC_add f g a b : derC f a -> derC g b -> derC (fun t => f t + g t) (a + b).
Proof. by move=> [h1 h2] [h3 h4]; split; apply: derivable_pt_lim_plus. Qed.
Lemma derC_mul f g a b : derC f a -> derC g b -> derC (fun t => f t * g t) (a * g 0%coqR + f 0%coqR * b).
Proof.
move=> [h1 h2] [h3 h4]; split.
- have := derivable_pt_lim_minus _ _ _ _ _ (derivable_pt_lim_mult _ _ _ _ _ h1 h3) (derivable_pt_lim_mult _ _ _ _ _ h2 h4).
  have -> : (Re (a * g 0%coqR + f 0%coqR * b)%R = Re a * Re (g 0) + Re (f 0) * Re b - (Im a * Im (g 0) + Im (f 0) * Im b))%coqR.
    by rewrite ReD !ReM; ring.
  by [].
- have := derivable_pt_lim_plus _ _ _ _ _ (derivable_pt_lim_mult _ _ _ _ _ h1 h4) (derivable_pt_lim_mult _ _ _ _ _ h2 h3).
  have -> : (Im (a * g 0%coqR + f 0%coqR * b)%R = Re a * Im (g 0) + Re (f 0) * Im b + (Im a * Re (g 0) + Im (f 0) * Re b))%coqR.
    by rewrite ImD !ImM; ring.
  by [].
Qed.
Lemma derC_sum (I : Type) (r : seq I) (f : I -> R -> C) (d : I -> C) : (forall i, derC (f i) (d i)) ->
  derC (fun t => \sum_(i <- r) f i t) (\sum_(i <- r) d i).
Proof.
move=> h; elim: r => [|i r IH]; first by rewrite big_nil; have := derC_const 0; congr derC; extensionality t; rewrite big_nil.
rewrite big_cons; have := derC_add (h i) IH; congr derC; extensionality t; by rewrite big_cons.
Qed.
Lemma derC_unique f a b : derC f a -> derC f b -> a = b.
Proof. by move=> [h1 h2] [h3 h4]; apply: Cext; [exact: uniqueness_limite h1 h3|exact: uniqueness_limite h2 h4]. Qed.
Lemma derM_mul m n p (f : R -> 'M[C]_(m, n)) (g : R -> 'M[C]_(n, p)) a b : derM f a -> derM g b ->
  derM (fun t => f t *m g t) (a *m g 0%coqR + f 0%coqR *m b).
Proof.
move=> hf hg i j.
have := derC_sum (index_enum _) (fun k => derC_mul (hf i k) (hg k j)).
congr derC; first by extensionality t; rewrite mxE.
by rewrite big_split /= !mxE.
Qed.
Lemma derM_unique m n (f : R -> 'M[C]_(m, n)) a b : derM f a -> derM f b -> a = b.
Proof. by move=> h1 h2; apply/matrixP => i j; exact: derC_unique (h1 i j) (h2 i j). Qed.
Lemma derM_const m n (c : 'M[C]_(m, n)) : derM (fun _ => c) 0.
Proof. by move=> i j; rewrite mxE; exact: derC_const. Qed.
Lemma derM_diag n (f : R -> 'rV[C]_n) a : derM f a -> derM (fun t => diag_mx (f t)) (diag_mx a).
Proof.
move=> h i j; rewrite mxE; case: (altP (i =P j)) => [e|ne].
  have := h ord0 i; congr derC; extensionality t; by rewrite mxE e eqxx.
by have := derC_const 0; congr derC; extensionality t; rewrite mxE (negbTE ne).
Qed.
Lemma derM_ext m n (f g : R -> 'M[C]_(m, n)) a : (forall t, f t = g t) -> derM f a -> derM g a.
Proof. by move=> e h i j; have := h i j; congr derC; extensionality t; rewrite e. Qed.

Lemma curve_first_order n (A W : R -> 'M[C]_n) (lam : R -> 'rV[C]_n) dA dlam dW :
  (forall t, diagonalises (A t) (lam t) (W t)) -> derM A dA -> derM lam dlam -> derM W dW ->
  first_order (A 0%coqR) (lam 0%coqR) (W 0%coqR) dA dlam dW.
Proof.
move=> h hA hl hW.
have e1 := derM_mul hA hW; have e2 := derM_mul hW (derM_diag hl).
exact: (derM_unique (derM_ext h e1) e2).
Qed.
