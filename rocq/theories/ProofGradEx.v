(** Concrete curves for the properties of the backward passes. *)
From Coq Require Import Reals Lra Psatz FunctionalExtensionality.
From mathcomp Require Import all_ssreflect ssralg matrix mxalgebra.
From Coquelicot Require Import Complex Hierarchy Continuity Derive AutoDerive.
From Verif Require Import Cplx Mx ModelGrad SpecGrad ProofGrad ProofGrad2.

Set Implicit Arguments.
Unset Strict Implicit.
Unset Printing Implicit Defensive.
Local Open Scope ring_scope.
Import GRing.Theory.

Definition m2 (a b c d : C) : 'M[C]_2 :=
  \matrix_(i < 2, j < 2) if i == ord0 then (if j == ord0 then a else b) else (if j == ord0 then c else d).
Definition r2 (a b : C) : 'rV[C]_2 := \row_(j < 2) if j == ord0 then a else b.
Lemma ord2 (P : 'I_2 -> Prop) : P ord0 -> P (lift ord0 ord0) -> forall i, P i.
Proof.
move=> h0 h1 -[[|[|?]] h] //.
- by rewrite (_ : Ordinal h = ord0) //; apply: val_inj.
- by rewrite (_ : Ordinal h = lift ord0 ord0) //; apply: val_inj.
Qed.
Lemma m2_eq a b c d a' b' c' d' : a = a' -> b = b' -> c = c' -> d = d' -> m2 a b c d = m2 a' b' c' d'.
Proof. by move=> -> -> -> ->. Qed.
Lemma m2E (A : 'M[C]_2) : A = m2 (A ord0 ord0) (A ord0 (lift ord0 ord0)) (A (lift ord0 ord0) ord0) (A (lift ord0 ord0) (lift ord0 ord0)).
Proof. by apply/matrixP; apply: ord2; apply: ord2; rewrite mxE. Qed.
Lemma m2M a b c d a' b' c' d' : m2 a b c d *m m2 a' b' c' d' =
  m2 (a * a' + b * c') (a * b' + b * d') (c * a' + d * c') (c * b' + d * d').
Proof. by rewrite [LHS]m2E; apply: m2_eq; rewrite mxE !big_ord_recl big_ord0 addr0 !mxE. Qed.
Lemma m2_diag a b : diag_mx (r2 a b) = m2 a 0 0 b.
Proof. by rewrite [LHS]m2E; apply: m2_eq; rewrite !mxE. Qed.
Lemma m2_1 : (1%:M : 'M[C]_2) = m2 1 0 0 1.
Proof. by rewrite [LHS]m2E; apply: m2_eq; rewrite !mxE. Qed.
Lemma m2_0 : (0 : 'M[C]_2) = m2 0 0 0 0.
Proof. by rewrite [LHS]m2E; apply: m2_eq; rewrite !mxE. Qed.
Lemma m2_adj a b c d : adj (m2 a b c d) = m2 (conj a) (conj c) (conj b) (conj d).
Proof. by rewrite [LHS]m2E; apply: m2_eq; rewrite !mxE. Qed.
Lemma m2_N a b c d : - m2 a b c d = m2 (- a) (- b) (- c) (- d).
Proof. by rewrite [LHS]m2E; apply: m2_eq; rewrite !mxE. Qed.
Lemma der_m2 (a b c d : R -> C) a' b' c' d' : derC a a' -> derC b b' -> derC c c' -> derC d d' ->
  derM (fun t => m2 (a t) (b t) (c t) (d t)) (m2 a' b' c' d').
Proof.
move=> h1 h2 h3 h4; apply: ord2; apply: ord2; rewrite mxE /=;
  [have := h1|have := h2|have := h3|have := h4]; congr derC; extensionality t; by rewrite mxE.
Qed.
Lemma dot2 a b c d a' b' c' d' : torch_dot (m2 a b c d) (m2 a' b' c' d') =
  (Re (conj a * a')%R + Re (conj b * b')%R + (Re (conj c * c')%R + Re (conj d * d')%R))%coqR.
Proof. by rewrite /torch_dot !big_ord_recl !big_ord0 !mxE /= !Rplus_0_r. Qed.

Lemma dot0 m n (d : 'M[C]_(m, n)) : torch_dot 0 d = 0%coqR.
Proof. by rewrite torch_dotE adj0 mul0mx mxtrace0. Qed.

Lemma derR (f : R -> R) l : derivable_pt_lim f 0 l -> derC (fun t => RtoC (f t)) (RtoC l).
Proof. by move=> h; split; [exact: h|exact: (derivable_pt_lim_const 0 0)]. Qed.

(** The eigenvectors (1, 0) and (x, 1) of [[1, x], [0, 2]] at x = 1 + t. *)
Definition A_ex (t : R) : 'M[C]_2 := m2 1 (RtoC (1 + t)) 0 (RtoC 2).
Definition lam_ex : 'rV[C]_2 := r2 1 (RtoC 2).
Definition W_ex (t : R) : 'M[C]_2 := m2 1 (RtoC (1 + t)) 0 1.
Definition dA_ex : 'M[C]_2 := m2 0 1 0 0.

Lemma der_1t : derC (fun t => RtoC (1 + t)) 1.
Proof.
apply: derR; have := derivable_pt_lim_plus _ _ _ _ _ (derivable_pt_lim_const 1 0) (derivable_pt_lim_id 0).
by rewrite Rplus_0_l.
Qed.
Lemma der_A : derM A_ex dA_ex.
Proof. by apply: der_m2; [exact: derC_const|exact: der_1t|exact: derC_const|exact: derC_const]. Qed.
Lemma der_W : derM W_ex dA_ex.
Proof. by apply: der_m2; [exact: derC_const|exact: der_1t|exact: derC_const|exact: derC_const]. Qed.
Lemma diag_ex t : diagonalises (A_ex t) lam_ex (W_ex t).
Proof.
rewrite /diagonalises /A_ex /W_ex m2_diag !m2M; apply: m2_eq; try cring.
by rewrite -[1 : C]/(RtoC 1); cext.
Qed.
Lemma unit_ex : W_ex 0 \in unitmx.
Proof.
have h : W_ex 0 *m m2 1 (-1) 0 1 = 1%:M.
  rewrite /W_ex m2M m2_1 Rplus_0_r; apply: m2_eq; cring.
by case: (mulmx1_unit h).
Qed.
Lemma distinct_ex : distinct lam_ex.
Proof. by apply: ord2; apply: ord2 => // _; rewrite !mxE /= => -[]; lra. Qed.
Lemma real_ex t : real_matrix (A_ex t).
Proof. by apply: ord2; apply: ord2; rewrite mxE. Qed.

(** A loss: the share of the first component in the second eigenvector. *)
Definition L_ex (_ : 'rV[C]_2) (W : 'M[C]_2) : R :=
  let u := nrm2 (W ord0 (lift ord0 ord0)) in let v := nrm2 (W (lift ord0 ord0) (lift ord0 ord0)) in (u / (u + v))%coqR.
Definition gW_ex : 'M[C]_2 := m2 0 (RtoC (/ 2)) 0 (RtoC (- / 2)).

Lemma nrm2M x y : nrm2 (x * y) = (nrm2 x * nrm2 y)%coqR.
Proof. by case: x y => a b [c d]; rewrite /nrm2 /Re /Im /=; ring. Qed.
Lemma L_ex_free : scale_free L_ex.
Proof.
move=> lam W c hc; rewrite /L_ex !mul_mx_diag !mxE !nrm2M.
set u := nrm2 (W _ _); set v := nrm2 (W _ _); set k := nrm2 (c _ _).
have k0 : k <> 0%coqR by move=> /nrm2_eq0; exact: hc.
have -> : (u * k + v * k = (u + v) * k)%coqR by ring.
case: (Req_EM_T (u + v) 0) => [e|ne]; last by field.
have hu : (0 <= u)%coqR by exact: nrm2_ge0.
have hv : (0 <= v)%coqR by exact: nrm2_ge0.
have -> : u = 0%coqR by lra.
by rewrite /Rdiv !Rmult_0_l.
Qed.
Lemma der_nrm2 (f : R -> C) d : derC f d -> derivable_pt_lim (fun t => nrm2 (f t)) 0 (2 * Re (conj (f 0%coqR) * d)%R)%coqR.
Proof.
move=> [h1 h2].
have := derivable_pt_lim_plus _ _ _ _ _ (derivable_pt_lim_mult _ _ _ _ _ h1 h1) (derivable_pt_lim_mult _ _ _ _ _ h2 h2).
by congr derivable_pt_lim; rewrite ReM Re_conj Im_conj; ring.
Qed.
Lemma L_ex_grad : gradient_at L_ex lam_ex (W_ex 0) 0 gW_ex.
Proof.
move=> l w dl dw _ hw _ h.
have h1 := der_nrm2 (h ord0 (lift ord0 ord0)); have h2 := der_nrm2 (h (lift ord0 ord0) (lift ord0 ord0)).
have u0 : nrm2 (w 0%coqR ord0 (lift ord0 ord0)) = 1%coqR.
  by rewrite hw mxE /= Rplus_0_r /nrm2 /Re /Im /=; ring.
have v0 : nrm2 (w 0%coqR (lift ord0 ord0) (lift ord0 ord0)) = 1%coqR.
  by rewrite hw mxE /= /nrm2 /Re /Im /=; ring.
have hs := derivable_pt_lim_plus _ _ _ _ _ h1 h2.
have n0 : plus_fct (fun t => nrm2 (w t ord0 (lift ord0 ord0))) (fun t => nrm2 (w t (lift ord0 ord0) (lift ord0 ord0))) 0 <> 0%coqR.
  by rewrite /plus_fct u0 v0; lra.
have := derivable_pt_lim_div _ _ _ _ _ h1 hs n0; congr derivable_pt_lim.
rewrite /plus_fct u0 v0 hw [dw]m2E /gW_ex dot2 /Rsqr dot0.
rewrite /W_ex !mxE /= Rplus_0_r; case: (dw _ _) => a b; case: (dw _ _) => c d; case: (dw _ _) => e f; case: (dw _ _) => g k.
rewrite /Re /Im /=; field.
Qed.

(** The same eigenvectors with unit length. *)
Definition nx (t : R) : R := (/ sqrt (1 + (1 + t) ^ 2))%coqR.
Definition U_ex (t : R) : 'M[C]_2 := m2 1 (RtoC ((1 + t) * nx t)) 0 (RtoC (nx t)).
Lemma sq_pos t : (0 < 1 + (1 + t) ^ 2)%coqR. Proof. by have := pow2_ge_0 (1 + t); lra. Qed.
Lemma nx_pos t : (0 < nx t)%coqR. Proof. by apply: Rinv_0_lt_compat; apply: sqrt_lt_R0; exact: sq_pos. Qed.
Lemma nx2 t : (nx t * nx t = / (1 + (1 + t) ^ 2))%coqR.
Proof. by rewrite /nx -Rinv_mult sqrt_sqrt //; have := sq_pos t; lra. Qed.
Definition dnx : R := (- / (2 * sqrt 2))%coqR.
Lemma der_nx : derivable_pt_lim nx 0 dnx.
Proof.
apply is_derive_Reals; rewrite /nx.
have s2 : (0 < sqrt 2)%coqR by apply: sqrt_lt_R0; lra.
auto_derive; rewrite !Rplus_0_r; have -> : (1 + 1 * (1 * 1) = 2)%coqR by ring.
  by split; [lra|split=> //; lra].
rewrite /dnx; have e : (sqrt 2 * sqrt 2 = 2)%coqR by apply: sqrt_sqrt; lra.
field_simplify_eq; [|lra..].
nra.
Qed.

Lemma der_U : exists2 dU, derM U_ex dU & dU (lift ord0 ord0) (lift ord0 ord0) = RtoC dnx.
Proof.
have h1 := derivable_pt_lim_mult _ _ _ _ _ (proj1 der_1t) der_nx.
eexists; first by apply: der_m2; [exact: derC_const|exact: derR h1|exact: derC_const|exact: derR der_nx].
by rewrite mxE.
Qed.
Lemma diag_U t : diagonalises (A_ex t) lam_ex (U_ex t).
Proof.
rewrite /diagonalises /A_ex /U_ex m2_diag !m2M -[1 : C]/(RtoC 1) -[0 : C]/(RtoC 0) -!RtoC_mul -!RtoC_add.
by apply: m2_eq; congr RtoC; ring.
Qed.
Lemma unit_U t : unit_columns (U_ex t).
Proof.
apply: ord2; rewrite !big_ord_recl big_ord0 !mxE /= /nrm2 /Re /Im /=; first by ring.
have := nx2 t => e; have s := sq_pos t.
have -> : ((1 + t) * nx t * ((1 + t) * nx t) + 0 * 0 + (nx t * nx t + 0 * 0 + 0) = (1 + (1 + t) ^ 2) * (nx t * nx t))%coqR by ring.
by rewrite e Rinv_r //; lra.
Qed.
Lemma inv_U : U_ex 0 \in unitmx.
Proof.
have n0 := nx_pos 0.
have h : U_ex 0 *m m2 1 (-1) 0 (RtoC (/ nx 0)) = 1%:M.
  rewrite /U_ex m2M m2_1 Rplus_0_r Rmult_1_l -RtoC_mul Rinv_r; last lra.
  by apply: m2_eq; cring.
by case: (mulmx1_unit h).
Qed.
(** The loss Re W_11. *)
Definition L_co (_ : 'rV[C]_2) (W : 'M[C]_2) : R := Re (W (lift ord0 ord0) (lift ord0 ord0)).
Definition g_co : 'M[C]_2 := m2 0 0 0 1.
Lemma L_co_grad lam W : gradient_at L_co lam W 0 g_co.
Proof.
move=> l w dl dw _ _ _ h; have [h1 _] := h (lift ord0 ord0) (lift ord0 ord0).
rewrite dot0 [dw]m2E dot2; move: h1; congr derivable_pt_lim.
case: (dw _ _) => a b; case: (dw _ _) => c d; case: (dw _ _) => e f; case: (dw _ _) => g k.
rewrite /Re /Im /=; ring.
Qed.

Lemma U_backward : eig_backward 0 false lam_ex (U_ex 0) 0 g_co = Some 0.
Proof.
rewrite (backwardE _ _ _ _ inv_U); congr Some.
have -> : diag_mx 0 + times (eig_F 0 lam_ex) (adj (U_ex 0) *m g_co) = 0.
  rewrite [X in X + _](_ : _ = 0); last by apply/matrixP => i j; rewrite !mxE mul0rn.
  rewrite add0r /U_ex /g_co m2_adj m2M; apply/matrixP; apply: ord2; apply: ord2; rewrite !mxE /= ?conj0 ?mulr0 ?mul0r ?addr0 ?mulr0 //.
by rewrite mulmx0 mul0mx.
Qed.

(** The pseudo-inverse of [[1, t], [0, 0]]. *)
Definition S_ex (t : R) : 'M[C]_2 := m2 1 (RtoC t) 0 0.
Definition q_ex (t : R) : R := (/ (1 + t ^ 2))%coqR.
Definition P_ex (t : R) : 'M[C]_2 := m2 (RtoC (q_ex t)) 0 (RtoC (t * q_ex t)) 0.
Lemma mp_ex t : moore_penrose (S_ex t) (P_ex t).
Proof.
have h : ((1 + t * t) * q_ex t = 1)%coqR by rewrite /q_ex; field; have := pow2_ge_0 t; lra.
have e : S_ex t *m P_ex t = m2 1 0 0 0.
  rewrite /S_ex /P_ex m2M -[1 : C]/(RtoC 1) -[0 : C]/(RtoC 0) -!RtoC_mul -!RtoC_add.
  by apply: m2_eq; congr RtoC; try ring; apply: eq_trans h; ring.
split.
- by rewrite e /S_ex m2M; apply: m2_eq; cring.
- by rewrite -mulmxA e /P_ex m2M; apply: m2_eq; cring.
- by rewrite e m2_adj conj1 conj0.
- by rewrite /P_ex /S_ex m2M m2_adj -[1 : C]/(RtoC 1) -[0 : C]/(RtoC 0) -!RtoC_mul -!RtoC_add !conjR; apply: m2_eq; congr RtoC; ring.
Qed.
Lemma der_S : derM S_ex dA_ex.
Proof.
apply: der_m2; [exact: derC_const| |exact: derC_const|exact: derC_const].
by apply: (derR (f := fun t => t)); exact: derivable_pt_lim_id.
Qed.
Lemma der_q : derivable_pt_lim q_ex 0 0%coqR.
Proof.
apply is_derive_Reals; rewrite /q_ex; auto_derive; first by rewrite !Rmult_0_l; lra.
by rewrite !Rmult_0_l; field; lra.
Qed.
Lemma der_P : derM P_ex (m2 0 0 1 0).
Proof.
apply: der_m2; [exact: (derR der_q)|exact: derC_const| |exact: derC_const].
have := derivable_pt_lim_mult _ _ _ _ _ (derivable_pt_lim_id 0) der_q => h; have := derR h; congr derC.
by congr RtoC; rewrite /id /q_ex; field.
Qed.
Lemma pinv_wrong : torch_dot (pinv_backward (P_ex 0) (m2 0 0 1 0)) dA_ex <> torch_dot (m2 0 0 1 0) (m2 0 0 1 0).
Proof.
rewrite /pinv_backward /P_ex mulNmx m2_adj mulNmx !m2M m2_N !dot2 Rmult_0_l !conj0 !conjR.
by rewrite /Re /Im /=; lra.
Qed.

(** An invertible curve. *)
Lemma inv_A t : A_ex t \in unitmx.
Proof.
have h : A_ex t *m m2 1 (RtoC (- ((1 + t) / 2))) 0 (RtoC (/ 2)) = 1%:M.
  rewrite /A_ex m2M m2_1 -[1 : C]/(RtoC 1) -[0 : C]/(RtoC 0) -!RtoC_mul -!RtoC_add; apply: m2_eq; congr RtoC; field.
by case: (mulmx1_unit h).
Qed.
Lemma mp_inv n (A : 'M[C]_n) : A \in unitmx -> moore_penrose A (invmx A).
Proof. by move=> h; split; rewrite ?mulmxV ?mulVmx ?mul1mx ?adj1. Qed.
