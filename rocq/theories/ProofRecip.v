(** Reciprocity: the bilinear (Wronskian) form of two solutions is constant through a stack. *)
From Coq Require Import Reals Lra Psatz FunctionalExtensionality.
From mathcomp Require Import all_ssreflect ssralg matrix.
From Coquelicot Require Import Complex.
From Verif Require Import Cplx Mx Spec SpecSolve SpecField SpecSym ModelTM ModelField ProofEff ProofInvert ProofEnergy1D ProofField ProofFieldSolve ProofPassive ProofSym2.

Set Implicit Arguments.
Unset Strict Implicit.
Unset Printing Implicit Defensive.
Local Open Scope ring_scope.
Import GRing.Theory.

Definition bl n (a b : 'cV[C]_n) : C := \sum_i a i ord0 * b i ord0.
Lemma blE n (a b : 'cV[C]_n) : bl a b = (a^T *m b) ord0 ord0.
Proof. by rewrite mxE; apply: eq_bigr => i _; rewrite mxE. Qed.
Lemma blC n (a b : 'cV[C]_n) : bl a b = bl b a.
Proof. by apply: eq_bigr => i _; rewrite mulrC. Qed.
Lemma bl_mul n m (A : 'M[C]_(n, m)) a b : bl (A *m a) b = bl a (A^T *m b).
Proof. by rewrite !blE trmx_mul -mulmxA. Qed.
Lemma blDr n (a b c : 'cV[C]_n) : bl a (b + c) = bl a b + bl a c.
Proof. by rewrite !blE mulmxDr mxE. Qed.
Lemma blZr n (a b : 'cV[C]_n) k : bl a (k *: b) = k * bl a b.
Proof. by rewrite !blE -scalemxAr mxE. Qed.
Lemma blZl n (a b : 'cV[C]_n) k : bl (k *: a) b = k * bl a b.
Proof. by rewrite blC blZr blC. Qed.
Lemma bl_col n m (a a' : 'cV[C]_n) (b b' : 'cV[C]_m) : bl (col_mx a b) (col_mx a' b') = bl a a' + bl b b'.
Proof. by rewrite !blE tr_col_mx mul_row_col mxE. Qed.
Lemma cderiv_bl n (u v : R -> 'cV[C]_n) z l k : vderiv u z l -> vderiv v z k ->
  cderiv (fun t => bl (u t) (v t)) z (bl l (v z) + bl (u z) k).
Proof. by move=> hu hv; rewrite /bl -big_split; apply: cderiv_sum => i /=; apply: cderiv_mul. Qed.
Lemma ccont_bl n (u v : R -> 'cV[C]_n) z : vcont u z -> vcont v z -> ccont (fun t => bl (u t) (v t)) z.
Proof. by move=> hu hv; apply: ccont_sum => i; apply: ccont_mul. Qed.
Lemma cconst_of_deriv (g : R -> C) d : (0 <= d)%coqR ->
  (forall z, (0 < z < d)%coqR -> cderiv g z 0) -> (forall z, (0 <= z <= d)%coqR -> ccont g z) -> g d = g 0%coqR.
Proof.
move=> d0 gd gc; apply: Cext.
  by apply: (@const_of_deriv (fun t => Re (g t))) => // z hz; [have [] := gd z hz|have [] := gc z hz].
by apply: (@const_of_deriv (fun t => Im (g t))) => // z hz; [have [] := gd z hz|have [] := gc z hz].
Qed.

Lemma cderiv_sub f g z l k : cderiv f z l -> cderiv g z k -> cderiv (fun t => f t - g t) z (l - k).
Proof.
move=> hf hg; have h := cderiv_add hf (cderiv_scale (-1) hg).
by apply: cderiv_eq (cderiv_ext _ h) => [|t]; rewrite mulN1r.
Qed.
Lemma ccont_sub f g z : ccont f z -> ccont g z -> ccont (fun t => f t - g t) z.
Proof.
move=> hf hg; have h := ccont_add hf (ccont_scale (-1) hg).
by apply: ccont_ext h => t; rewrite mulN1r.
Qed.

Section Wronskian.
Variables (m : nat) (K : 'M[C]_m) (k0 : R).
Definition wronski (p p' : 'cV[C]_m * 'cV[C]_m) : C := bl p.1 (K *m p'.2) - bl p'.1 (K *m p.2).
Definition recip_media (a b : medium m) : Prop :=
  [/\ m_d b = m_d a, (m_P a)^T *m K = K^T *m m_P b & K *m m_Q b = (m_Q a)^T *m K^T].

Lemma wronski_layer a b u v u' v' : (0 <= m_d a)%coqR -> recip_media a b -> solves k0 a u v -> solves k0 b u' v' ->
  wronski (u (m_d a), v (m_d a)) (u' (m_d b), v' (m_d b)) = wronski (u 0%coqR, v 0%coqR) (u' 0%coqR, v' 0%coqR).
Proof.
move=> d0 [hd hP hQ] [h1 h2] [h1' h2']; rewrite hd in h1' h2' *.
apply: (@cconst_of_deriv (fun z => wronski (u z, v z) (u' z, v' z))) => // z hz.
  have [du dv] := h1 z hz; have [du' dv'] := h1' z hz.
  have e1 := cderiv_bl du (vderiv_mulmx K dv'); have e2 := cderiv_bl du' (vderiv_mulmx K dv).
  apply: cderiv_eq (cderiv_sub e1 e2).
  rewrite -!scalemxAr !blZl !blZr !bl_mul.
  have -> : bl (v z) ((m_P a)^T *m (K *m v' z)) = bl (v' z) ((m_P b)^T *m (K *m v z)).
    by rewrite mulmxA hP -mulmxA -bl_mul blC bl_mul.
  have -> : bl (u z) (K *m (m_Q b *m u' z)) = bl (u' z) (K *m (m_Q a *m u z)).
    by rewrite mulmxA hQ -mulmxA -bl_mul blC bl_mul trmxK.
  by rewrite subrr.
have [cu cv] := h2 z hz; have [cu' cv'] := h2' z hz.
by apply: ccont_sub; apply: ccont_bl => //; apply: vcont_mulmx.
Qed.

Lemma wronski_stack ls ls' fs fs' top top' bot bot' : (forall l, List.In l ls -> (0 <= m_d l)%coqR) ->
  all2p recip_media ls ls' -> boundary_value_problem k0 ls top fs bot -> boundary_value_problem k0 ls' top' fs' bot' ->
  wronski top top' = wronski bot bot'.
Proof.
elim: ls ls' fs fs' top top' => [|l ls IH] [|l' ls'] [|[u v] fs] [|[u' v'] fs'] top top' hd hr [h1 h2] [h1' h2'];
  rewrite /= in hr h1 h2 h1' h2'; try by [].
  by rewrite h1 h1'.
move: hr h1 h2 h1' h2' => [hl hs] [<- ht] [h1 h2] [<- ht'] [h1' h2'].
have d0 : (0 <= m_d l)%coqR by apply: hd; left.
rewrite -(wronski_layer d0 hl h1 h1'); apply: IH; [by move=> a h; apply: hd; right|exact: hs|by split; [exact: ht|]|].
by split; [exact: ht'|].
Qed.
End Wronskian.

(** ** Reversed orders *)
Section Orders.
Variables (n : nat) (sg : 'I_n -> 'I_n).
Hypothesis hsg : involutive sg.
Definition reversed (A A' : 'M[C]_n) : Prop := forall i j, A' (sg i) (sg j) = A j i.
Definition reversed3 (c c' : conv3 n) : Prop :=
  let '(ex, ey, ez) := c in let '(ex', ey', ez') := c' in [/\ reversed ex ex', reversed ey ey' & reversed ez ez'].
Definition J : 'M[C]_n := mono sg (fun _ => 1).

Lemma trJ : J^T = J.
Proof. by apply/matrixP => i j; rewrite !mxE [j == _]eq_sym (can2_eq hsg hsg). Qed.
Lemma Jv (v : 'cV[C]_n) i : (J *m v) i ord0 = v (sg i) ord0.
Proof. by rewrite -{1}(hsg i) mono_v // mul1r. Qed.
Lemma J_rev A A' : reversed A A' -> A^T *m J = J *m A'.
Proof.
move=> h; apply/matrixP => i j; rewrite mono_r mxE mulr1 -(hsg i) mono_l // mul1r.
by rewrite -h !hsg.
Qed.
Lemma bl_J a b : bl a (J *m b) = \sum_i a i ord0 * b (sg i) ord0.
Proof. by apply: eq_bigr => i _; rewrite Jv. Qed.

Variables (kx kx' : nat -> C).
Hypothesis hk : forall i : 'I_n, kx' (sg i) = - kx i.
Lemma kx2 (i : 'I_n) : kx' (sg i) ^+ 2 = kx i ^+ 2.
Proof. by rewrite hk sqrrN. Qed.

Lemma recip_1d tm c c' d : reversed3 c c' -> recip_media J (medium_1d tm kx c d) (medium_1d tm kx' c' d).
Proof.
case: c => [[ex ey] ez]; case: c' => [[ex' ey'] ez'] [h1 h2 h3]; rewrite /recip_media trJ; case: tm; split=> //=.
- exact: J_rev.
- symmetry; apply: J_rev => i j; rewrite !mxE (inj_eq (inv_inj hsg)) eq_sym h3 !hk; congr (_ - _); cring.
- by rewrite trmx1 mul1mx mulmx1.
symmetry; apply: J_rev => i j; rewrite !mxE (inj_eq (inv_inj hsg)) h2 eq_sym; congr (_ - _).
by case: eqP => [->|_] //; rewrite kx2.
Qed.
Lemma recip_media_1d tm cs cs' ds : all2p reversed3 cs cs' ->
  all2p (recip_media J) (media_1d tm kx cs ds) (media_1d tm kx' cs' ds).
Proof.
elim: ds cs cs' => [|d ds IH] [|c cs] [|c' cs'] //= [h hs]; split; [exact: recip_1d h|exact: IH hs].
Qed.

Lemma wronski_J (p p' : 'cV[C]_n * 'cV[C]_n) :
  wronski J p p' = \sum_i (p.1 i ord0 * p'.2 (sg i) ord0 - p'.1 (sg i) ord0 * p.2 i ord0).
Proof.
rewrite /wronski !bl_J sumrB; congr (_ - _).
by rewrite (reindex_inj (inv_inj hsg)); apply: eq_bigr => i _; rewrite hsg.
Qed.

Hypothesis hc : forall i : 'I_n, (sg i == (n %/ 2)%N :> nat) = (i == (n %/ 2)%N :> nat).

Lemma specular_1d k0 tm nt nb th th' cs cs' ds Rv Rv' fs fs' Tv Tv' (i0 : 'I_n) :
  (forall t, List.In t ds -> (0 <= t)%coqR) -> (size ds <= size cs)%N -> all2p reversed3 cs cs' ->
  i0 = (n %/ 2)%N :> nat -> ccos th' = ccos th -> kz_of nt (kx i0) 0 = nt * ccos th -> nt != 0 -> ccos th != 0 ->
  boundary_value_problem k0 (media_1d tm kx cs ds) (above_1d tm nt th kx Rv) fs (below_1d tm nb kx Tv) ->
  boundary_value_problem k0 (media_1d tm kx' cs' ds) (above_1d tm nt th' kx' Rv') fs' (below_1d tm nb kx' Tv') ->
  Rv' i0 ord0 = Rv i0 ord0.
Proof.
move=> hd hsz hr h0 hth hkz hnt hcs hb hb'.
have hdl : forall l, List.In l (media_1d tm kx cs ds) -> (0 <= m_d l)%coqR.
  by move=> l hl; apply: hd; rewrite -(media_1d_d tm kx hsz); exact: List.in_map.
have := wronski_stack hdl (recip_media_1d tm ds hr) hb hb'; rewrite !wronski_J.
have kzE nn (i : 'I_n) : kz_of nn (kx' (sg i)) 0 = kz_of nn (kx i) 0 by rewrite /kz_of kx2.
rewrite [RHS]big1 => [|i _]; last by rewrite /= !mxE kzE; cring.
rewrite (bigD1 i0) //= big1 => [|i hi]; last first.
  have hi' : (i == (n %/ 2)%N :> nat) = false by apply/negbTE; apply: contra hi => /eqP e; apply/eqP/val_inj; rewrite /= e h0.
  by rewrite !mxE hc hi' kzE; cring.
have s0 : sg i0 = i0 by apply/val_inj; rewrite /= h0; apply/eqP; rewrite hc h0.
have h0' : (i0 == (n %/ 2)%N :> nat) by rewrite h0.
rewrite !mxE hc h0' addr0 kzE hkz hth s0; set w := weigh _ _ _ => e.
have hw : w != 0 by rewrite /w /weigh; case: (tm); rewrite ?mulf_neq0 ?invr_neq0 ?expf_neq0.
have e2 : 2%:R * ci * w * (Rv' i0 ord0 - Rv i0 ord0) = 0 by rewrite -[RHS]e -[2%:R]/(1 + 1); cring.
by move/eqP: e2; rewrite mulf_eq0 mulf_eq0 (negbTE hw) orbF (negbTE two_i_neq0) /= subr_eq0 => /eqP.
Qed.
End Orders.

(** ** Conical mount and 2D gratings *)
Section RecipSp.
Variables (n : nat) (sg : 'I_n -> 'I_n) (z : 'I_n -> C) (kx kx' ky ky' dc ds dc' ds' : nat -> C).
Hypothesis hsg : involutive sg.
Hypothesis hz : forall i, z i * z i = 1.
Hypothesis hkx : forall i : 'I_n, kx' (sg i) = - kx i.
Hypothesis hky : forall i : 'I_n, ky' (sg i) = - ky i.
Hypothesis hdc : forall i : 'I_n, dc' (sg i) = z i * dc i.
Hypothesis hds : forall i : 'I_n, ds' (sg i) = z i * ds i.
Hypothesis hd1 : forall i : 'I_n, dc i ^+ 2 + ds i ^+ 2 = 1.
Definition J2 : 'M[C]_(n + n) := block_mx 0 (J sg) (- J sg) 0.

Lemma trJ2 : J2^T = - J2.
Proof. by rewrite /J2 tr_block_mx !trmx0 linearN /= trJ // opp_block_mx !oppr0 opprK. Qed.

Lemma J2_block (A B D E A' B' D' E' : 'M[C]_n) :
  reversed sg A (- E') -> reversed sg B B' -> reversed sg D D' -> reversed sg E (- A') ->
  (block_mx A B D E)^T *m J2 = J2^T *m block_mx A' B' D' E' /\ J2 *m block_mx A' B' D' E' = (block_mx A B D E)^T *m J2^T.
Proof.
move=> /(J_rev hsg) h1 /(J_rev hsg) h2 /(J_rev hsg) h3 /(J_rev hsg) h4.
have e : (block_mx A B D E)^T *m J2 = - (J2 *m block_mx A' B' D' E').
  rewrite /J2 tr_block_mx !mulmx_block !mulmx0 !mul0mx !addr0 !add0r opp_block_mx !mulmxN !mulNmx !opprK.
  by rewrite h1 h2 h3 h4 !mulmxN !opprK.
by rewrite trJ2 mulNmx mulmxN e opprK.
Qed.

Lemma rev_tk (ka kb ka' kb' : nat -> C) (ez ez' : 'M[C]_n) :
  (forall i : 'I_n, ka' (sg i) = - ka i) -> (forall i : 'I_n, kb' (sg i) = - kb i) -> reversed sg ez ez' ->
  reversed sg (tk ka kb ez) (tk kb' ka' ez').
Proof. by move=> h1 h2 h i j; rewrite !mxE h1 h2 h; cring. Qed.
Lemma rev_dk (ka kb ka' kb' : nat -> C) :
  (forall i : 'I_n, ka' (sg i) = - ka i) -> (forall i : 'I_n, kb' (sg i) = - kb i) ->
  reversed sg (dk n ka kb) (dk n kb' ka').
Proof.
move=> h1 h2 i j; rewrite !mxE (inj_eq (inv_inj hsg)) eq_sym; case: eqP => [->|_] //.
by rewrite h1 h2; cring.
Qed.
Lemma rev_1 : reversed sg (1%:M : 'M[C]_n) 1%:M.
Proof. by move=> i j; rewrite !mxE (inj_eq (inv_inj hsg)) eq_sym. Qed.
Lemma rev_opp A A' : reversed sg A A' -> reversed sg (- A) (- A').
Proof. by move=> h i j; rewrite !mxE h. Qed.
Lemma rev_sub A A' B B' : reversed sg A A' -> reversed sg B B' -> reversed sg (A - B) (A' - B').
Proof. by move=> h1 h2 i j; rewrite !mxE h1 h2. Qed.

Lemma recip_sp c c' d : reversed3 sg c c' -> recip_media J2 (medium_sp kx ky c d) (medium_sp kx' ky' c' d).
Proof.
case: c => [[a b] ez]; case: c' => [[a' b'] ez'] [h1 h2 h3].
have [hP _] := @J2_block (- tk kx ky ez) (tk kx kx ez - 1%:M) (1%:M - tk ky ky ez) (tk ky kx ez)
  (- tk kx' ky' ez') (tk kx' kx' ez' - 1%:M) (1%:M - tk ky' ky' ez') (tk ky' kx' ez')
  (rev_opp (rev_tk hkx hky h3)) (rev_sub (rev_tk hkx hkx h3) rev_1) (rev_sub rev_1 (rev_tk hky hky h3))
  (eq_ind_r (reversed sg _) (rev_tk hky hkx h3) (opprK _)).
have [_ hQ] := @J2_block (- dk n kx ky) (dk n kx kx - b) (a - dk n ky ky) (dk n ky kx)
  (- dk n kx' ky') (dk n kx' kx' - b') (a' - dk n ky' ky') (dk n ky' kx')
  (rev_opp (rev_dk hkx hky)) (rev_sub (rev_dk hkx hkx) h2) (rev_sub h1 (rev_dk hky hky))
  (eq_ind_r (reversed sg _) (rev_dk hky hkx) (opprK _)).
by split.
Qed.
Lemma recip_media_sp cs cs' ts : all2p (reversed3 sg) cs cs' ->
  all2p (recip_media J2) (media_sp kx ky cs ts) (media_sp kx' ky' cs' ts).
Proof.
elim: ts cs cs' => [|d ts IH] [|c cs] [|c' cs'] //= [h hs]; split; [exact: recip_sp h|exact: IH hs].
Qed.

Lemma wronski_J2 (es ep hs hp es' ep' hs' hp' : 'I_n -> C) :
  wronski J2 (e_xy dc ds es ep, h_xy dc ds hs hp) (e_xy dc' ds' es' ep', h_xy dc' ds' hs' hp') =
  \sum_i z i * ((ep i * hp' (sg i) - ep' (sg i) * hp i) - (es i * hs' (sg i) - es' (sg i) * hs i)).
Proof.
have bJ (a1 a2 b1 b2 : 'cV[C]_n) : bl (col_mx a1 a2) (J2 *m col_mx b1 b2) =
    \sum_i (a1 i ord0 * b2 (sg i) ord0 - a2 i ord0 * b1 (sg i) ord0).
  rewrite /J2 mul_block_col !mul0mx add0r addr0 bl_col mulNmx -scaleN1r blZr !bl_J // mulN1r sumrB; congr (_ - _).
rewrite /wronski /= !bJ [X in _ - X](reindex_inj (inv_inj hsg)) -sumrB; apply: eq_bigr => i _.
rewrite !mxE !hsg !hdc !hds.
rewrite [LHS](_ : _ = (dc i ^+ 2 + ds i ^+ 2) *
  (z i * ((ep i * hp' (sg i) - ep' (sg i) * hp i) - (es i * hs' (sg i) - es' (sg i) * hs i)))); last by rewrite !expr2; cring.
by rewrite hd1 mul1r.
Qed.

Hypothesis hc : forall i : 'I_n, (sg i == (n %/ 2)%N :> nat) = (i == (n %/ 2)%N :> nat).

Lemma specular_sp k0 nt nb th ps ps' cs cs' ts fs fs' Rs Rp Ts Tp Rs' Rp' Ts' Tp' (i0 : 'I_n) :
  (forall t, List.In t ts -> (0 <= t)%coqR) -> (size ts <= size cs)%N -> all2p (reversed3 sg) cs cs' ->
  i0 = (n %/ 2)%N :> nat -> kz_of nt (kx i0) (ky i0) = nt * ccos th -> nt != 0 -> ccos th != 0 ->
  bvp_sp k0 (media_sp kx ky cs ts) nt nb th ps kx ky dc ds fs Rs Rp Ts Tp ->
  bvp_sp k0 (media_sp kx' ky' cs' ts) nt nb th ps' kx' ky' dc' ds' fs' Rs' Rp' Ts' Tp' ->
  csin ps' * Rs i0 ord0 + ccos ps' * (ci * Rp i0 ord0 / nt) = csin ps * Rs' i0 ord0 + ccos ps * (ci * Rp' i0 ord0 / nt).
Proof.
move=> hd hsz hr h0 hkz hnt hcs hb hb'.
have hdl : forall l, List.In l (media_sp kx ky cs ts) -> (0 <= m_d l)%coqR.
  by move=> l hl; apply: hd; rewrite -(media_sp_d kx ky hsz); exact: List.in_map.
have := wronski_stack hdl (recip_media_sp ts hr) hb hb'; rewrite /above_sp /below_sp !wronski_J2.
have kzE nn (i : 'I_n) : kz_of nn (kx' (sg i)) (ky' (sg i)) = kz_of nn (kx i) (ky i) by rewrite /kz_of hkx hky !sqrrN.
rewrite [RHS]big1 => [|i _]; last by rewrite kzE; cring.
rewrite (bigD1 i0) //= big1 => [|i hi]; last first.
  have hi' : (i == (n %/ 2)%N :> nat) = false by apply/negbTE; apply: contra hi => /eqP e; apply/eqP/val_inj; rewrite /= e h0.
  by rewrite hc hi' kzE; cring.
have s0 : sg i0 = i0 by apply/val_inj; rewrite /= h0; apply/eqP; rewrite hc h0.
have h0' : (i0 == (n %/ 2)%N :> nat) by rewrite h0.
rewrite hc h0' addr0 kzE hkz s0 => e.
have hz0 : z i0 != 0 by apply/eqP => e0; have := hz i0; rewrite e0 mul0r => /esym/eqP; rewrite oner_eq0.
move/eqP: e; rewrite mulf_eq0 (negbTE hz0) /= => /eqP e.
have kE (x : C) : ci / nt ^+ 2 * (nt * ccos th) * x = ci * ccos th * (x / nt).
  rewrite expr2 invfM -[RHS]mul1r -(mulfV hnt); move: (nt^-1) (ccos th) => iv c; cring.
have pE (x : C) : x = nt * (x / nt) by rewrite mulrCA mulfV // mulr1.
rewrite !kE [X in _ * X - _ * _ - _](_ : _ = - (ci * nt * ccos ps') - nt * (Rp' i0 ord0 / nt)) in e; last by rewrite mulr1 -pE.
rewrite [X in _ - _ * X - _](_ : _ = - (ci * nt * ccos ps) - nt * (Rp i0 ord0 / nt)) in e; last by rewrite mulr1 -pE.
have e2 : 2%:R * ci * ccos th * nt * ((csin ps' * Rs i0 ord0 + ccos ps' * (ci * Rp i0 ord0 / nt)) -
    (csin ps * Rs' i0 ord0 + ccos ps * (ci * Rp' i0 ord0 / nt))) = 0.
  rewrite -[RHS]e -[2%:R]/(1 + 1) -!(mulrA ci); move: (Rp i0 ord0 / nt) (Rp' i0 ord0 / nt) => x y.
  apply/eqP; rewrite -subr_eq0 [X in X == 0](_ : _ = (ci * ci + 1) * (ccos th * nt * (ccos ps' * x - ccos ps * y))); last by cring.
  by rewrite ci2 addNr mul0r.
have hk : 2%:R * ci * ccos th * nt != 0 by rewrite (mulf_neq0 (mulf_neq0 two_i_neq0 hcs) hnt).
by move/eqP: e2; rewrite mulf_eq0 (negbTE hk) /= subr_eq0 => /eqP.
Qed.
End RecipSp.
