(** Reciprocity of transmission: fields upside down, and the bilinear form of a field from above and a field from below. *)
From Coq Require Import Reals Lra Psatz FunctionalExtensionality.
From mathcomp Require Import all_ssreflect ssralg matrix.
From Coquelicot Require Import Complex Hierarchy Continuity Derive AutoDerive.
From Verif Require Import Cplx Mx Spec SpecSolve SpecField SpecSym ModelTM ModelField ProofEff ProofInvert ProofEnergy1D ProofField
  ProofFieldSolve ProofPassive ProofSym2 ProofRecip SpecRecipT.

Set Implicit Arguments.
Unset Strict Implicit.
Unset Printing Implicit Defensive.
Local Open Scope ring_scope.
Import GRing.Theory.

(** ** A field upside down *)
Lemma cderiv_flip f d z l : cderiv f (d - z)%coqR l -> cderiv (fun t => f (d - t)%coqR) z (- l).
Proof.
have hd : is_derive (fun t => d - t)%coqR z (-1)%coqR by auto_derive.
have H (g : R -> R) k : is_derive g (d - z)%coqR k -> is_derive (fun t => g (d - t)%coqR) z (- k)%coqR.
  by move=> hg; have := is_derive_comp g (fun t => d - t)%coqR z k (-1)%coqR hg hd; rewrite /scal /= /mult /= (_ : (-1 * k)%coqR = (- k)%coqR) //; ring.
by move=> [h1 h2]; split; [exact: (H (fun t => Re (f t)) _ h1)|exact: (H (fun t => Im (f t)) _ h2)].
Qed.
Lemma ccont_flip f d z : ccont f (d - z)%coqR -> ccont (fun t => f (d - t)%coqR) z.
Proof.
have hd : continuous (fun t => d - t)%coqR z by apply: ex_derive_continuous; exists (-1)%coqR; auto_derive.
by move=> [h1 h2]; split; [exact: (continuous_comp _ (fun t => Re (f t)) _ hd h1)|exact: (continuous_comp _ (fun t => Im (f t)) _ hd h2)].
Qed.

Section Flip.
Variables (m : nat) (k0 : R).
Definition mz (p : 'cV[C]_m * 'cV[C]_m) : 'cV[C]_m * 'cV[C]_m := (p.1, - p.2).
Definition flip_profile (d : R) (p : profile_of m) : profile_of m :=
  ((fun z => p.1 (d - z)%coqR), (fun z => - p.2 (d - z)%coqR)).
Fixpoint flips_of (ls : seq (medium m)) (fs : seq (profile_of m)) : seq (profile_of m) :=
  match ls, fs with
  | l :: ls', p :: fs' => rcons (flips_of ls' fs') (flip_profile (m_d l) p)
  | _, _ => [::]
  end.

Lemma solves_flip l u v : solves k0 l u v -> solves k0 l (flip_profile (m_d l) (u, v)).1 (flip_profile (m_d l) (u, v)).2.
Proof.
move=> [h1 h2]; split=> z hz /=.
  have hz' : (0 < m_d l - z < m_d l)%coqR by lra.
  have [du dv] := h1 _ hz'; split=> i.
    by refine (cderiv_eq _ (cderiv_flip (f := fun t => u t i ord0) (du i))); rewrite mulmxN scalerN [in RHS]mxE.
  refine (cderiv_eq _ (cderiv_ext _ (cderiv_scale (-1) (cderiv_flip (f := fun t => v t i ord0) (dv i))))) => [|t].
    by rewrite mulN1r opprK.
  by rewrite mulN1r [in RHS]mxE.
have hz' : (0 <= m_d l - z <= m_d l)%coqR by lra.
have [cu cv] := h2 _ hz'; split=> i; first exact (ccont_flip (f := fun t => u t i ord0) (cu i)).
by refine (ccont_ext _ (ccont_scale (-1) (ccont_flip (f := fun t => v t i ord0) (cv i)))) => t; rewrite mulN1r [in RHS]mxE.
Qed.

Lemma through_rcons ds d (top bot : 'cV[C]_m * 'cV[C]_m) fs u v :
  through ds top fs (u 0%coqR, v 0%coqR) -> (u d, v d) = bot -> through (rcons ds d) top (rcons fs (u, v)) bot.
Proof.
elim: ds top fs => [|e ds IH] top [|[a b] fs] //=.
by move=> [h1 h2] h3; split=> //; exact: IH.
Qed.
Lemma all_solve_rcons ls l (fs : seq (profile_of m)) u v :
  all_solve k0 ls fs -> solves k0 l u v -> all_solve k0 (rcons ls l) (rcons fs (u, v)).
Proof. by elim: ls fs => [|e ls IH] [|[a b] fs] //= [h1 h2] h3; split=> //; exact: IH. Qed.

Lemma bvp_flip ls top fs bot : boundary_value_problem k0 ls top fs bot ->
  boundary_value_problem k0 (rev ls) (mz bot) (flips_of ls fs) (mz top).
Proof.
elim: ls top fs => [|l ls IH] top [|[u v] fs] [] //=; first by move=> -> _; split.
move=> [et h1] [h2 h3]; have [b1 b2] := IH _ _ (Logic.conj h1 h3).
rewrite rev_cons; split; last exact: all_solve_rcons b2 (solves_flip h2).
rewrite map_rcons; apply: through_rcons.
  by rewrite /= Rminus_0_r; exact: b1.
by rewrite /= Rminus_diag_eq // -et.
Qed.
End Flip.

Lemma media_1d_rev n tm kx (cs : seq (conv3 n)) ds : size ds = size cs ->
  rev (media_1d tm kx (rev cs) (rev ds)) = media_1d tm kx cs ds.
Proof.
move=> h; have mr (cs' : seq (conv3 n)) ds' c d : size ds' = size cs' ->
    media_1d tm kx (rcons cs' c) (rcons ds' d) = rcons (media_1d tm kx cs' ds') (medium_1d tm kx c d).
  by elim: ds' cs' => [|a ds' IH] [|b cs'] //= [e]; rewrite IH.
elim: ds cs h => [|d ds IH] [|c cs] //= [h].
by rewrite !rev_cons mr ?size_rev // rev_rcons IH.
Qed.
Lemma media_sp_rev n kx ky (cs : seq (conv3 n)) ds : size ds = size cs ->
  rev (media_sp kx ky (rev cs) (rev ds)) = media_sp kx ky cs ds.
Proof.
move=> h; have mr (cs' : seq (conv3 n)) ds' c d : size ds' = size cs' ->
    media_sp kx ky (rcons cs' c) (rcons ds' d) = rcons (media_sp kx ky cs' ds') (medium_sp kx ky c d).
  by elim: ds' cs' => [|a ds' IH] [|b cs'] //= [e]; rewrite IH.
elim: ds cs h => [|d ds IH] [|c cs] //= [h].
by rewrite !rev_cons mr ?size_rev // rev_rcons IH.
Qed.

(** ** Classical mount *)
Section Through1d.
Variables (n : nat) (sg : 'I_n -> 'I_n) (kx kx' : nat -> C).
Hypothesis hsg : involutive sg.
Hypothesis hk : forall i : 'I_n, kx' (sg i) = - kx i.
Hypothesis hc : forall i : 'I_n, (sg i == (n %/ 2)%N :> nat) = (i == (n %/ 2)%N :> nat).

Lemma through_1d k0 tm nt nb th th' cs ds Rv Rv' fs fs' Tv Tv' (i0 : 'I_n) :
  (forall t, List.In t ds -> (0 <= t)%coqR) -> size ds = size cs -> all2p (reversed3 sg) cs cs ->
  i0 = (n %/ 2)%N :> nat -> kz_of nt (kx i0) 0 = nt * ccos th -> kz_of nb (kx i0) 0 = nb * ccos th' ->
  boundary_value_problem k0 (media_1d tm kx cs ds) (above_1d tm nt th kx Rv) fs (below_1d tm nb kx Tv) ->
  boundary_value_problem k0 (media_1d tm kx' (rev cs) (rev ds)) (above_1d tm nb th' kx' Rv') fs' (below_1d tm nt kx' Tv') ->
  weigh tm nt (nt * ccos th) * Tv' i0 ord0 = weigh tm nb (nb * ccos th') * Tv i0 ord0.
Proof.
move=> hd hsz hr h0 hkt hkb hb /bvp_flip; rewrite media_1d_rev // => hb'.
have hdl : forall l, List.In l (media_1d tm kx cs ds) -> (0 <= m_d l)%coqR.
  by move=> l hl; apply: hd; rewrite -(@media_1d_d _ tm kx cs ds) ?hsz //; exact: List.in_map.
have := wronski_stack hdl (recip_media_1d hsg hk tm ds hr) hb hb'; rewrite !wronski_J //.
have kzE nn (i : 'I_n) : kz_of nn (kx' (sg i)) 0 = kz_of nn (kx i) 0 by rewrite /kz_of (kx2 hk).
have s0 : sg i0 = i0 by apply/val_inj; rewrite /= h0; apply/eqP; rewrite hc h0.
have h0' : (i0 == (n %/ 2)%N :> nat) by rewrite h0.
have hi' (i : 'I_n) : i != i0 -> (i == (n %/ 2)%N :> nat) = false.
  by move=> hi; apply/negbTE; apply: contra hi => /eqP e; apply/eqP/val_inj; rewrite /= e h0.
rewrite (bigD1 i0) //= big1 => [|i hi]; last by rewrite !mxE (hi' _ hi) kzE; cring.
rewrite [RHS](bigD1 i0) //= [X in _ = _ + X]big1 => [|i hi]; last by rewrite !mxE hc (hi' _ hi) kzE; cring.
rewrite !addr0 !mxE hc h0' !kzE hkt hkb s0; move: (weigh _ nt _) (weigh _ nb _) => a b e.
have e2 : 2%:R * ci * (a * Tv' i0 ord0 - b * Tv i0 ord0) = 0.
  apply/eqP; rewrite -subr_eq0 subr0; move/eqP: e; rewrite -subr_eq0; congr (_ == 0).
  by rewrite -[2%:R]/(1 + 1); cring.
by move/eqP: e2; rewrite mulf_eq0 (negbTE two_i_neq0) /= subr_eq0 => /eqP.
Qed.
End Through1d.

(** ** Conical mount and 2D gratings *)
Section ThroughSp.
Variables (n : nat) (sg : 'I_n -> 'I_n) (z : 'I_n -> C) (kx kx' ky ky' dc ds dc' ds' : nat -> C).
Hypothesis hsg : involutive sg.
Hypothesis hz : forall i, z i * z i = 1.
Hypothesis hkx : forall i : 'I_n, kx' (sg i) = - kx i.
Hypothesis hky : forall i : 'I_n, ky' (sg i) = - ky i.
Hypothesis hdc : forall i : 'I_n, dc' (sg i) = z i * dc i.
Hypothesis hds : forall i : 'I_n, ds' (sg i) = z i * ds i.
Hypothesis hd1 : forall i : 'I_n, dc i ^+ 2 + ds i ^+ 2 = 1.
Hypothesis hc : forall i : 'I_n, (sg i == (n %/ 2)%N :> nat) = (i == (n %/ 2)%N :> nat).

Lemma mz_sp (dc0 ds0 : nat -> C) (es ep hs hp : 'I_n -> C) :
  mz (e_xy dc0 ds0 es ep, h_xy dc0 ds0 hs hp) = (e_xy dc0 ds0 es ep, h_xy dc0 ds0 (fun i => - hs i) (fun i => - hp i)).
Proof.
rewrite /mz /=; congr pair; rewrite /h_xy opp_col_mx; congr col_mx; apply/matrixP => i j; rewrite !mxE; cring.
Qed.

Lemma through_sp k0 nt nb th th' ps ps' cs ts fs fs' Rs Rp Ts Tp Rs' Rp' Ts' Tp' (i0 : 'I_n) :
  (forall t, List.In t ts -> (0 <= t)%coqR) -> size ts = size cs -> all2p (reversed3 sg) cs cs ->
  i0 = (n %/ 2)%N :> nat -> kz_of nt (kx i0) (ky i0) = nt * ccos th -> kz_of nb (kx i0) (ky i0) = nb * ccos th' ->
  nt != 0 -> nb != 0 ->
  bvp_sp k0 (media_sp kx ky cs ts) nt nb th ps kx ky dc ds fs Rs Rp Ts Tp ->
  bvp_sp k0 (media_sp kx' ky' (rev cs) (rev ts)) nb nt th' ps' kx' ky' dc' ds' fs' Rs' Rp' Ts' Tp' ->
  nt * ccos th * (csin ps * Ts' i0 ord0 + ccos ps * (- ci * Tp' i0 ord0 / nt)) =
  nb * ccos th' * (csin ps' * Ts i0 ord0 + ccos ps' * (- ci * Tp i0 ord0 / nb)).
Proof.
move=> hd hsz hr h0 hkt hkb hnt hnb hb /bvp_flip; rewrite media_sp_rev // => hb'.
have hdl : forall l, List.In l (media_sp kx ky cs ts) -> (0 <= m_d l)%coqR.
  by move=> l hl; apply: hd; rewrite -(@media_sp_d _ kx ky cs ts) ?hsz //; exact: List.in_map.
have := wronski_stack hdl (recip_media_sp hsg hkx hky ts hr) hb hb'; rewrite /above_sp /below_sp !mz_sp.
rewrite !(wronski_J2 hsg hdc hds hd1).
have kzE nn (i : 'I_n) : kz_of nn (kx' (sg i)) (ky' (sg i)) = kz_of nn (kx i) (ky i) by rewrite /kz_of hkx hky !sqrrN.
have s0 : sg i0 = i0 by apply/val_inj; rewrite /= h0; apply/eqP; rewrite hc h0.
have h0' : (i0 == (n %/ 2)%N :> nat) by rewrite h0.
have hi' (i : 'I_n) : i != i0 -> (i == (n %/ 2)%N :> nat) = false.
  by move=> hi; apply/negbTE; apply: contra hi => /eqP e; apply/eqP/val_inj; rewrite /= e h0.
rewrite (bigD1 i0) //= big1 => [|i hi]; last by rewrite (hi' _ hi) kzE; cring.
rewrite [RHS](bigD1 i0) //= [X in _ = _ + X]big1 => [|i hi]; last by rewrite hc (hi' _ hi) kzE; cring.
rewrite !addr0 hc h0' !kzE hkt hkb s0 -!mulrA => e.
have hz0 : z i0 != 0 by apply/eqP => e0; have := hz i0; rewrite e0 mul0r => /esym/eqP; rewrite oner_eq0.
have {}e := mulfI hz0 e.
have kE (nn c x : C) : nn != 0 -> ci * (nn^-2 * (nn * (c * x))) = ci * c * (x / nn).
  move=> h; rewrite -[X in ci * (X * _)]/((nn ^+ 2)^-1) expr2 invfM -[RHS]mul1r -(mulfV h); move: (nn^-1) => iv; cring.
have pE (nn x : C) : nn != 0 -> exists y, x = nn * y by move=> h; exists (x / nn); rewrite mulrCA mulfV // mulr1.
have vE (nn x y : C) : nn != 0 -> nn * x * y / nn = x * y by move=> h; rewrite -(mulrA nn) mulrC mulKf.
have uE (nn x : C) : nn != 0 -> nn * x / nn = x by move=> h; rewrite mulrC mulrA mulVf // mul1r.
move: e; rewrite !(kE nt) // !(kE nb) //.
have [x ->] := pE nt (Tp' i0 ord0) hnt; have [y ->] := pE nb (Tp i0 ord0) hnb.
have [p ->] := pE nt (Rp i0 ord0) hnt; have [q ->] := pE nb (Rp' i0 ord0) hnb.
rewrite !(vE nt) // !(vE nb) // !(uE nt) // !(uE nb) // => e.
match goal with |- ?a = ?b => pose TL := a; pose TR := b end; rewrite -/TL -/TR.
match type of e with ?a = ?b => pose L := a; pose R' := b end; have {}e : L = R' := e.
have e2 : 2%:R * ci * (TL - TR) = - (L - R') - (ci * ci + 1) * (nt * ccos th * ccos ps * x - nb * ccos th' * ccos ps' * y).
  by rewrite /L /R' /TL /TR -[2%:R]/(1 + 1); cring.
move: e2; rewrite e subrr oppr0 ci2 addNr mul0r subr0 => /eqP.
by rewrite mulf_eq0 (negbTE two_i_neq0) /= subr_eq0 => /eqP.
Qed.
End ThroughSp.
