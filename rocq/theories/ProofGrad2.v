From Coq Require Import Reals Lra Psatz FunctionalExtensionality.
From mathcomp Require Import all_ssreflect ssralg matrix mxalgebra perm.
From Coquelicot Require Import Complex Derive AutoDerive.
From Verif Require Import Cplx Mx ModelTM ModelGrad SpecGrad SpecField ProofGrad ProofField.

Set Implicit Arguments.
Unset Strict Implicit.
Unset Printing Implicit Defensive.
Local Open Scope ring_scope.
Import GRing.Theory.

(** The full statement, with or without regularisation, for real or complex matrices. *)
Lemma backward_all n eps (real_in : bool) (A : 'M[C]_n) lam W gl gW dA dlam dW :
  diagonalises A lam W -> W \in unitmx -> first_order A lam W dA dlam dW -> (0 <= eps)%coqR ->
  ((0 < eps)%coqR \/ distinct lam) -> (real_in -> real_matrix dA) ->
  exists2 G, eig_backward eps real_in lam W gl gW = Some G &
  torch_dot G dA = (torch_dot gl dlam + torch_dot gW dW
    - \big[Rplus/0%coqR]_(i < n) Re (conj ((adj W *m gW) i i) * component W dW i i)%R
    - \big[Rplus/0%coqR]_(i < n) \big[Rplus/0%coqR]_(j < n | i != j)
        (eps / (nrm2 (lam ord0 j - lam ord0 i)%R + eps) * Re (conj ((adj W *m gW) i j) * component W dW i j)%R))%coqR.
Proof.
move=> hA hW h1 e0 he hr.
have [G0 eG0 e] := backward_pair hA hW gl gW h1 e0 he.
have hp : forall i j : 'I_n, i != j -> (0 < nrm2 (lam ord0 j - lam ord0 i)%R + eps)%coqR.
  move=> i j ij; have := nrm2_ge0 (lam ord0 j - lam ord0 i); case: he => [|hd]; first lra.
  have : nrm2 (lam ord0 j - lam ord0 i) <> 0%coqR.
    by move=> /nrm2_eq0 /eqP; rewrite subr_eq0 => /eqP e'; apply: (hd _ _ ij).
  lra.
have eG : eig_backward eps real_in lam W gl gW = Some (if real_in then real_mx G0 else G0).
  by move: eG0; rewrite /eig_backward; case: ifP => // _ [<-].
eexists; first exact: eG.
have -> : torch_dot (if real_in then real_mx G0 else G0) dA = torch_dot G0 dA.
  by case: real_in hr {eG} => // hr; rewrite torch_dot_real //; exact: hr.
rewrite e (dot_components hW) sum_offdiag.
have -> : forall x y z v : R, (x + (y + z) - y - v = x + (z - v))%coqR by move=> *; ring.
congr Rplus.
have eR (f g : 'I_n -> R) (P : pred 'I_n) : (\big[Rplus/0%coqR]_(i < n | P i) f i - \big[Rplus/0%coqR]_(i < n | P i) g i)%coqR =
    \big[Rplus/0%coqR]_(i < n | P i) (f i - g i)%coqR.
  have h (k : 'I_n -> R) : RtoC (\big[Rplus/0%coqR]_(i < n | P i) k i) = \sum_(i < n | P i) RtoC (k i).
    exact: (big_morph _ RtoC_add).
  apply: RtoC_inj; rewrite RtoC_sub !h -sumrB; apply: eq_bigr => i _; by rewrite RtoC_sub.
rewrite eR; apply: eq_bigr => i _; rewrite eR; apply: eq_bigr => j ij.
have := hp _ _ ij; set u := nrm2 _ => hu; field; lra.
Qed.

(** The JAX formula is the conjugate of the PyTorch one on conjugated cotangents. *)
Lemma eig_bwdE eps real_in n (lam : 'rV[C]_n) W gl gW : eig_bwd eps real_in lam W gl gW =
  omap (map_mx conj) (eig_backward eps real_in lam W (map_mx conj gl) (map_mx conj gW)).
Proof.
rewrite /eig_bwd /eig_backward; case: ifP => //= _; congr Some.
have -> : map_mx conj (diag_mx gl) = diag_mx (map_mx conj gl) by rewrite map_diag_mx.
by case: real_in; rewrite ?real_conj.
Qed.
Lemma map_conjK m n (X : 'M[C]_(m, n)) : map_mx conj (map_mx conj X) = X.
Proof. by apply/matrixP => i j; rewrite !mxE conjK. Qed.
Lemma jax_conj m n (X Y : 'M[C]_(m, n)) : jax_dot (map_mx conj X) Y = torch_dot X Y.
Proof. by rewrite jax_dotE map_conjK. Qed.

(** ** Losses that do not depend on the scaling of the eigenvectors *)
Lemma derC_cexp z : derC (fun t => cexp (RtoC t * z)) z.
Proof.
have [h1 h2] := cderiv_exp z 1 0 0.
have e : forall t : R, cexp (RtoC t * z) = cexp (z * RtoC (1 * t + 0)%coqR).
  by move=> t; rewrite mulrC Rmult_1_l Rplus_0_r.
have ez : z * RtoC 1 * cexp (z * RtoC (1 * 0 + 0)%coqR) = z.
  rewrite Rmult_0_r Rplus_0_r -[RtoC 0]/(0 : C) -[RtoC 1]/(1 : C) mulr0 mulr1.
  by rewrite [cexp 0](_ : _ = 1) ?mulr1 // /cexp /Re /Im /= exp_0 cos_0 sin_0; congr pair; ring.
rewrite ez in h1 h2; rewrite /derC; split; apply is_derive_Reals.
- by apply: is_derive_ext h1 => t; rewrite e.
- by apply: is_derive_ext h2 => t; rewrite e.
Qed.

Lemma cexp_neq0 z : cexp z <> 0.
Proof.
case: z => a b; rewrite /cexp /Re /Im /= => -[h1 h2].
have e := exp_pos a; have := sin2_cos2 b; rewrite /Rsqr.
have -> : sin b = 0%coqR by apply: (Rmult_eq_reg_l (exp a)); lra.
have -> : cos b = 0%coqR by apply: (Rmult_eq_reg_l (exp a)); lra.
lra.
Qed.

Lemma scale_free_diag n (L : 'rV[C]_n -> 'M[C]_n -> R) lam W gl gW : scale_free L -> gradient_at L lam W gl gW ->
  forall i, (adj W *m gW) i i = 0.
Proof.
move=> hs hg i; pose z := (adj W *m gW) i i.
pose c (t : R) : 'rV[C]_n := \row_k if k == i then cexp (RtoC t * z) else 1.
pose dc : 'rV[C]_n := \row_k if k == i then z else 0.
have hc : derM c dc.
  move=> u k; rewrite mxE; case: (altP (k =P i)) => [->|ne].
    by have := derC_cexp z; congr derC; extensionality t; rewrite mxE eqxx.
  by have := derC_const 1; congr derC; extensionality t; rewrite mxE (negbTE ne).
have hw := derM_mul (derM_const W) (derM_diag hc); rewrite mul0mx add0r in hw.
have c0 : c 0%coqR = const_mx 1.
  apply/rowP => k; rewrite !mxE -[RtoC 0]/(0 : C) mul0r; case: ifP => // _.
  by rewrite /cexp /Re /Im /= exp_0 cos_0 sin_0; congr pair; ring.
have w0 : W *m diag_mx (c 0%coqR) = W by rewrite c0 diag_const_mx mulmx1.
have := hg (fun _ => lam) _ _ _ erefl w0 (derM_const lam) hw.
have -> : (fun t => L lam (W *m diag_mx (c t))) = fun _ => L lam W.
  extensionality t; apply: hs => k; rewrite mxE; case: ifP => _; first exact: cexp_neq0.
  by apply/eqP; rewrite oner_neq0.
move=> h; have := uniqueness_limite _ _ _ _ h (derivable_pt_lim_const (L lam W) 0).
rewrite !torch_dotE mulmx0 mxtrace0 Rplus_0_l mulmxA.
have -> : adj gW *m W = adj (adj W *m gW) by rewrite adjM adjK.
have -> : \tr (adj (adj W *m gW) *m diag_mx dc) = conj z * z.
  rewrite /mxtrace (bigD1 i) //= big1 => [|k ki]; rewrite mul_mx_diag mxE.
    by rewrite addr0 [dc _ _]mxE eqxx adjE.
  by rewrite [dc _ _]mxE (negbTE ki) mulr0.
by rewrite mulrC mul_conj Re_RtoC => /nrm2_eq0.
Qed.

Lemma big_zero (n : nat) (f : 'I_n -> R) (P : pred 'I_n) : (forall i, P i -> f i = 0%coqR) -> \big[Rplus/0%coqR]_(i < n | P i) f i = 0%coqR.
Proof. by move=> h; elim/big_rec: _ => // i x hi ->; rewrite h //; ring. Qed.

Lemma real_der m n (A : R -> 'M[C]_(m, n)) dA : derM A dA -> (forall t, real_matrix (A t)) -> real_matrix dA.
Proof.
move=> h hr i j; have [_ h2] := h i j.
have e : (fun t => Im (A t i j)) = fun _ => 0%coqR by extensionality t; exact: hr.
rewrite e in h2; exact: (uniqueness_limite _ _ _ _ h2 (derivable_pt_lim_const 0 0)).
Qed.

Lemma loss_torch n (real_in : bool) (A W : R -> 'M[C]_n) (lam : R -> 'rV[C]_n) dA dlam dW L gl gW :
  (forall t, diagonalises (A t) (lam t) (W t)) -> (real_in -> forall t, real_matrix (A t)) ->
  derM A dA -> derM lam dlam -> derM W dW ->
  W 0%coqR \in unitmx -> distinct (lam 0%coqR) -> scale_free L -> gradient_at L (lam 0%coqR) (W 0%coqR) gl gW ->
  exists2 G, eig_backward 0 real_in (lam 0%coqR) (W 0%coqR) gl gW = Some G &
  derivable_pt_lim (fun t => L (lam t) (W t)) 0 (torch_dot G dA).
Proof.
move=> hd hr dA' dl' dW' hu hdist hs hg.
have h1 := curve_first_order hd dA' dl' dW'.
have hr' : real_in -> real_matrix dA by move=> r; exact: (real_der dA' (hr r)).
have [G eG e] := backward_all gl gW (hd 0%coqR) hu h1 (Rle_refl 0) (or_intror hdist) hr'.
exists G => //; rewrite e.
have -> : \big[Rplus/0%coqR]_(i < n) Re (conj ((adj (W 0%coqR) *m gW) i i) * component (W 0%coqR) dW i i)%R = 0%coqR.
  by apply: big_zero => i _; rewrite (scale_free_diag hs hg) conj0 mul0r.
rewrite big_zero => [|i _]; last by apply: big_zero => j _; rewrite /Rdiv !Rmult_0_l.
rewrite !Rminus_0_r; exact: hg erefl erefl dl' dW'.
Qed.

Lemma loss_jax n (real_in : bool) (A W : R -> 'M[C]_n) (lam : R -> 'rV[C]_n) dA dlam dW L gl gW :
  (forall t, diagonalises (A t) (lam t) (W t)) -> (real_in -> forall t, real_matrix (A t)) ->
  derM A dA -> derM lam dlam -> derM W dW ->
  W 0%coqR \in unitmx -> distinct (lam 0%coqR) -> scale_free L -> jax_gradient_at L (lam 0%coqR) (W 0%coqR) gl gW ->
  exists2 G, eig_bwd 0 real_in (lam 0%coqR) (W 0%coqR) gl gW = Some G &
  derivable_pt_lim (fun t => L (lam t) (W t)) 0 (jax_dot G dA).
Proof.
move=> hd hr dA' dl' dW' hu hdist hs hg.
have hg' : gradient_at L (lam 0%coqR) (W 0%coqR) (map_mx conj gl) (map_mx conj gW).
  by move=> l w dl dw h1 h2 h3 h4; rewrite -!jax_dotE; exact: hg.
have [G eG e] := loss_torch hd hr dA' dl' dW' hu hdist hs hg'.
by exists (map_mx conj G); [rewrite eig_bwdE eG|rewrite jax_conj].
Qed.

(** ** The pseudo-inverse *)
Definition diffC (f : R -> C) := exists d, derC f d.
Lemma diffC_const c : diffC (fun _ => c). Proof. by exists 0; exact: derC_const. Qed.
Lemma diffC_mul f g : diffC f -> diffC g -> diffC (fun t => f t * g t).
Proof. by move=> [a h1] [b h2]; eexists; exact: derC_mul h1 h2. Qed.
Lemma diffC_add f g : diffC f -> diffC g -> diffC (fun t => f t + g t).
Proof. by move=> [a h1] [b h2]; eexists; exact: derC_add h1 h2. Qed.
Lemma diffC_ext f g : (forall t, f t = g t) -> diffC f -> diffC g.
Proof. by move=> e; have -> : g = f by extensionality t; rewrite e. Qed.
Lemma diffC_sum (I : Type) (r : seq I) (f : I -> R -> C) : (forall i, diffC (f i)) -> diffC (fun t => \sum_(i <- r) f i t).
Proof.
move=> h; elim: r => [|i r IH]; first by apply: diffC_ext (diffC_const 0) => t; rewrite big_nil.
by apply: diffC_ext (diffC_add (h i) IH) => t; rewrite big_cons.
Qed.
Lemma diffC_prod (I : Type) (r : seq I) (f : I -> R -> C) : (forall i, diffC (f i)) -> diffC (fun t => \prod_(i <- r) f i t).
Proof.
move=> h; elim: r => [|i r IH]; first by apply: diffC_ext (diffC_const 1) => t; rewrite big_nil.
by apply: diffC_ext (diffC_mul (h i) IH) => t; rewrite big_cons.
Qed.
Lemma diffC_conj f : diffC f -> diffC (fun t => conj (f t)).
Proof. by move=> [d [h1 h2]]; exists (conj d); split; [exact: h1|exact: derivable_pt_lim_opp h2]. Qed.
Lemma diffC_inv f : (forall t, f t != 0) -> diffC f -> diffC (fun t => (f t)^-1).
Proof.
move=> h0 hf; have n0 t : nrm2 (f t) <> 0%coqR by move=> /nrm2_eq0 /eqP; apply/negP.
have [d [h1 h2]] := hf.
have hn : diffC (fun t => RtoC (/ nrm2 (f t))).
  have hq := derivable_pt_lim_plus _ _ _ _ _ (derivable_pt_lim_mult _ _ _ _ _ h1 h1) (derivable_pt_lim_mult _ _ _ _ _ h2 h2).
  have [l hl] : exists l, derivable_pt_lim (fun t => / nrm2 (f t))%coqR 0 l.
    eexists; apply is_derive_Reals; apply: is_derive_inv (n0 0%coqR); apply is_derive_Reals; exact: hq.
  by exists (RtoC l); split; [exact: hl|exact: (derivable_pt_lim_const 0 0)].
apply: diffC_ext (diffC_mul (diffC_conj hf) hn) => t.
have e : f t * conj (f t) = RtoC (nrm2 (f t)) := mul_conj _.
apply: (mulfI (h0 t)); rewrite mulrA e -RtoC_mul Rinv_r // divff //.
Qed.
Lemma diffC_det n (A : R -> 'M[C]_n) : (forall i j, diffC (fun t => A t i j)) -> diffC (fun t => \det (A t)).
Proof.
move=> h; apply: diffC_sum => s; apply: diffC_mul; first exact: diffC_const.
exact: diffC_prod.
Qed.

Lemma diff_inv n (A : R -> 'M[C]_n) dA : (forall t, A t \in unitmx) -> derM A dA ->
  exists dP, derM (fun t => invmx (A t)) dP.
Proof.
move=> hu hA; have hA' i j : diffC (fun t => A t i j) by eexists; exact: hA.
have h i j : diffC (fun t => invmx (A t) i j).
  apply: (diffC_ext (f := fun t => (\det (A t))^-1 * cofactor (A t) j i)).
    by move=> t; rewrite /invmx hu !mxE.
  apply: diffC_mul.
    apply: diffC_inv; last exact: diffC_det.
    by move=> t; have := hu t; rewrite unitmxE unitfE.
  apply: diffC_mul; first exact: diffC_const.
  by apply: diffC_det => a b; apply: diffC_ext (hA' (lift j a) (lift i b)) => t; rewrite !mxE.
have [D hD] : exists D : 'I_n -> 'I_n -> C, forall i j, derC (fun t => invmx (A t) i j) (D i j).
  have h' i := fin_all_exists (h i); have [D hD] := fin_all_exists h'.
  by exists D.
exists (\matrix_(i, j) D i j) => i j; rewrite mxE; exact: hD.
Qed.

Lemma inv_der n (A : R -> 'M[C]_n) dA dP : (forall t, A t \in unitmx) -> derM A dA -> derM (fun t => invmx (A t)) dP ->
  dP = - invmx (A 0%coqR) *m dA *m invmx (A 0%coqR).
Proof.
move=> hu hA hP; have := derM_mul hA hP.
have e : forall t, A t *m invmx (A t) = 1%:M by move=> t; rewrite mulmxV.
move/(derM_ext e)/derM_unique/(_ (derM_const _)) => e0.
have : A 0%coqR *m dP = - (dA *m invmx (A 0%coqR)) by apply/eqP; rewrite -addr_eq0 addrC e0.
move/(congr1 (mulmx (invmx (A 0%coqR)))); rewrite mulKmx ?hu // => ->.
by rewrite mulmxN !mulNmx mulmxA.
Qed.

Lemma pinv_invmx n (A P : 'M[C]_n) : A \in unitmx -> moore_penrose A P -> P = invmx A.
Proof.
move=> hu [h _ _ _]; have := congr1 (fun X => invmx A *m (X *m invmx A)) h.
by rewrite /= mulmxK // mulKmx // mulmxV // mulmx1.
Qed.

Lemma pinv_exact n (A P : R -> 'M[C]_n) dA : (forall t, A t \in unitmx) -> (forall t, moore_penrose (A t) (P t)) ->
  derM A dA -> exists2 dP, derM P dP & forall g, torch_dot (pinv_backward (P 0%coqR) g) dA = torch_dot g dP.
Proof.
move=> hu hp hA; have [dP hP] := diff_inv hu hA; exists dP.
  apply: derM_ext hP => t; by rewrite (pinv_invmx (hu t) (hp t)).
move=> g; rewrite (inv_der hu hA hP) (pinv_invmx (hu 0%coqR) (hp 0%coqR)) !torch_dotE /pinv_backward.
congr Re; rewrite !mulNmx adjN !adjM !adjK mulNmx mulmxN !linearN /=; congr (- _).
by rewrite -!mulmxA mxtrace_mulC !mulmxA.
Qed.
