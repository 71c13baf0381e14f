(** The classical mount is the conical mount at azimuth 0. *)
From Coq Require Import Reals Lra Psatz FunctionalExtensionality.
From mathcomp Require Import all_ssreflect ssralg matrix mxalgebra.
From Coquelicot Require Import Complex.
From Verif Require Import Cplx Mx ModelTM ModelField Spec SpecSolve SpecField SpecAgree ProofFlux ProofEnergy1D ProofEnergy2D
  ProofSetup ProofEff ProofEnd ProofSubstrate ProofWellSolve ProofPinv ProofField ProofBVP ProofBVP2 ProofFieldSolve
  ProofAgree ProofAgree2.

Set Implicit Arguments.
Unset Strict Implicit.
Unset Printing Implicit Defensive.
Local Open Scope ring_scope.
Import GRing.Theory.

(** ** Linear embeddings of a first-order system into another *)
Section Embed.
Variables (m m' : nat) (k0 : R) (A B : 'M[C]_(m', m)).

Definition embed (fs : seq (profile_of m)) : seq (profile_of m') :=
  [seq (fun z => A *m p.1 z, fun z => B *m p.2 z) | p <- fs].

Lemma embed_through ds top fs bottom : through ds top fs bottom ->
  through ds (A *m top.1, B *m top.2) (embed fs) (A *m bottom.1, B *m bottom.2).
Proof.
elim: ds top fs => [|d ds IH] top [|[u v] fs] //=; first by move=> ->.
by case=> <- h; split=> //; exact: (IH _ _ h).
Qed.

Lemma embed_solves (l : medium m) (l' : medium m') u v : m_d l = m_d l' ->
  A *m m_P l = m_P l' *m B -> B *m m_Q l = m_Q l' *m A -> solves k0 l u v ->
  solves k0 l' (fun z => A *m u z) (fun z => B *m v z).
Proof.
move=> ed eP eQ [h1 h2]; split=> z; rewrite -ed => hz.
  have [a b] := h1 z hz; split.
    by apply: vderiv_eq (vderiv_mulmx A a); rewrite -scalemxAr !mulmxA eP.
  by apply: vderiv_eq (vderiv_mulmx B b); rewrite -scalemxAr !mulmxA eQ.
by have [a b] := h2 z hz; split; exact: vcont_mulmx.
Qed.

Fixpoint embeds (ls : seq (medium m)) (ls' : seq (medium m')) : Prop :=
  match ls, ls' with
  | [::], [::] => True
  | l :: t, l' :: t' => [/\ m_d l = m_d l', A *m m_P l = m_P l' *m B, B *m m_Q l = m_Q l' *m A & embeds t t']
  | _, _ => False
  end.

Lemma embed_all ls ls' fs : embeds ls ls' -> all_solve k0 ls fs -> all_solve k0 ls' (embed fs).
Proof.
elim: ls ls' fs => [|l ls IH] [|l' ls'] [|[u v] fs] //= [e1 e2 e3 e4] [h1 h2].
by split; [exact: (embed_solves e1 e2 e3 h1)|exact: (IH _ _ e4 h2)].
Qed.

Lemma embeds_d ls ls' : embeds ls ls' -> map (@m_d m) ls = map (@m_d m') ls'.
Proof. by elim: ls ls' => [|l ls IH] [|l' ls'] //= [-> _ _ /IH ->]. Qed.

Lemma embed_bvp ls ls' top fs bottom : embeds ls ls' -> boundary_value_problem k0 ls top fs bottom ->
  boundary_value_problem k0 ls' (A *m top.1, B *m top.2) (embed fs) (A *m bottom.1, B *m bottom.2).
Proof.
move=> e [h1 h2]; split; last exact: embed_all e h2.
by rewrite -(embeds_d e); exact: embed_through.
Qed.
End Embed.

Section Zero.
Variable n : nat.
Variables (kx ky : nat -> C) (k0 : R) (th nt nb : C).
Hypothesis rx : real_vec n kx.
Hypothesis ry : real_vec n ky.
Hypothesis kx0 : forall i, (i < n)%N -> kx i != 0.
Hypothesis ky0 : forall i, (i < n)%N -> ky i = 0.
Let c := fun i => cos_varphi (kx i) (ky i).
Let s := fun i => sin_varphi (kx i) (ky i).

Lemma azimuth0 (i : 'I_n) : c i = 1 /\ s i = 0.
Proof.
have [h1 h2 [x hx] _] := varphi_directions rx ry i.
rewrite -/(c i) -/(s i) in h1 h2 hx *; rewrite (negbTE (kx0 (ltn_ord i))) => h4.
have es : s i = 0.
  move: h2; rewrite ky0 // mulr0 => /esym /eqP; rewrite mulf_eq0 (negbTE (kx0 (ltn_ord i))) orbF => /eqP //.
split=> //; move: h1 h4; rewrite es -/(c i) hx expr0n addr0 /= expr2 -RtoC_mul => /RtoC_inj h4 h5.
rewrite Re_RtoC in h5; have -> : x = 1%coqR by nra.
by [].
Qed.

(** TE: E = (0, u), H = (v, 0); TM: E = (a v, 0), H = (0, a u). *)
Definition teE : 'M[C]_(n + n, n) := col_mx 0 1%:M.
Definition teH : 'M[C]_(n + n, n) := col_mx 1%:M 0.

Lemma tk0 (ez : 'M[C]_n) ka kb : (forall i, (i < n)%N -> ka i = 0) \/ (forall i, (i < n)%N -> kb i = 0) -> tk ka kb ez = 0.
Proof. by case=> h; apply/matrixP => i j; rewrite !mxE h // ?mulr0 ?mul0r. Qed.
Lemma dk0 ka kb : (forall i, (i < n)%N -> ka i = 0) \/ (forall i, (i < n)%N -> kb i = 0) -> dk n ka kb = 0.
Proof. by case=> h; apply/matrixP => i j; rewrite !mxE; case: ifP => // _; rewrite h // ?mulr0 ?mul0r. Qed.

Lemma e_from_h0 (cv : conv3 n) : e_from_h kx ky cv = block_mx 0 (tk kx kx cv.2 - 1%:M) 1%:M 0.
Proof.
case: cv => [[ex ey] ez]; rewrite /e_from_h /=.
have -> : tk kx ky ez = 0 by apply: tk0; right.
have -> : tk ky ky ez = 0 by apply: tk0; right.
have -> : tk ky kx ez = 0 by apply: tk0; left.
by rewrite subr0 oppr0.
Qed.
Lemma h_from_e0 (cv : conv3 n) : h_from_e kx ky cv = block_mx 0 (dk n kx kx - cv.1.2) cv.1.1 0.
Proof.
case: cv => [[ex ey] ez]; rewrite /h_from_e /=.
have -> : dk n kx ky = 0 by apply: dk0; right.
have -> : dk n ky ky = 0 by apply: dk0; right.
have -> : dk n ky kx = 0 by apply: dk0; left.
by rewrite subr0 oppr0.

Qed.

Lemma te_embeds (ls : seq (layer n)) :
  embeds teE teH [seq medium_1d false kx (conv_of l) (thick l) | l <- ls] (media_of kx ky ls).
Proof.
elim: ls => [//|l ls IH]; split; [by []| | |exact: IH].
  by rewrite -[m_P (medium_sp _ _ _ _)]/(e_from_h kx ky (conv_of l)) e_from_h0 /teE /teH mulmx1 mul_block_col !mul0mx ?mulmx1 ?mulmx0 !addr0.
rewrite -[m_Q (medium_sp _ _ _ _)]/(h_from_e kx ky (conv_of l)) h_from_e0 /teE /teH mul_block_col mul_col_mx !mul0mx mul1mx mulmx1 mulmx0 ?add0r ?addr0 /=.
by congr col_mx; apply/matrixP => i j; rewrite !mxE -expr2.
Qed.
(* the first factor exchanges the two unknowns *)
Definition flip m (fs : seq (profile_of m)) : seq (profile_of m) := [seq (p.2, p.1) | p <- fs].
Definition flipm m (l : medium m) : medium m := Medium (m_Q l) (m_P l) (m_d l).
Lemma flip_bvp m (ls : seq (medium m)) top fs bottom : boundary_value_problem k0 ls top fs bottom ->
  boundary_value_problem k0 (map (@flipm m) ls) (top.2, top.1) (flip fs) (bottom.2, bottom.1).
Proof.
case=> h1 h2; split.
  rewrite -map_comp (@eq_map _ _ _ (@m_d m)) //.
  elim: (map _ _) top fs {h2} h1 => [|d ds IH] top [|[u v] fs] //=; first by move=> ->.
  by case=> <- h; split=> //; exact: (IH _ _ h).
elim: ls fs {h1} h2 => [|l ls IH] [|[u v] fs] //= [[a b] h]; split; last exact: IH.
by split=> z hz; [have [x y] := a z hz|have [x y] := b z hz].
Qed.

Lemma kz0 nn (i : 'I_n) : kz_of nn (kx i) (ky i) = kz_of nn (kx i) 0.
Proof. by rewrite ky0. Qed.

Lemma e_xy0 (es ep : 'I_n -> C) : e_xy c s es ep = col_mx (\col_i ep i) (\col_i es i).
Proof.
by rewrite /e_xy; congr col_mx; apply/colP => i; rewrite !mxE; have [-> ->] := azimuth0 i; rewrite mul0r mul1r ?subr0 ?addr0.
Qed.
Lemma h_xy0 (hs hp : 'I_n -> C) : h_xy c s hs hp = col_mx (\col_i hs i) (\col_i hp i).
Proof.
by rewrite /h_xy; congr col_mx; apply/colP => i; rewrite !mxE; have [-> ->] := azimuth0 i; rewrite mul0r mul1r ?subr0 ?add0r.
Qed.

Lemma te_above (Rv : 'cV[C]_n) : let t := above_1d false nt th kx Rv in
  (teE *m t.1, teH *m t.2) = above_sp nt th (RtoC (PI / 2)) kx ky c s Rv 0.
Proof.
rewrite /above_1d /above_sp e_xy0 h_xy0 csin_pi2 ccos_pi2 /teE /teH /= !mul_col_mx !mul0mx !mul1mx.
congr pair; congr col_mx; apply/colP => i; rewrite !mxE ?kz0 ?mul1r //.
- by rewrite !(mul0r, mulr0, oppr0, subr0).
- move: (kz_of _ _ _) (Rv i ord0) (ccos th) => x y z; case: ifP => _; cring.
- by rewrite !(mul0r, mulr0, oppr0, subr0).
Qed.
Lemma te_below (Tv : 'cV[C]_n) : let t := below_1d false nb kx Tv in
  (teE *m t.1, teH *m t.2) = below_sp nb kx ky c s Tv 0.
Proof.
rewrite /below_1d /below_sp e_xy0 h_xy0 /teE /teH /= !mul_col_mx !mul0mx !mul1mx.
congr pair; congr col_mx; apply/colP => i; rewrite !mxE ?kz0 //.
- by rewrite mulr0.
- by rewrite oppr0.
Qed.

Variable a : C.
Definition tmE : 'M[C]_(n + n, n) := col_mx a%:M 0.
Definition tmH : 'M[C]_(n + n, n) := col_mx 0 a%:M.
Lemma tm_embeds (ls : seq (layer n)) :
  embeds tmE tmH (map (@flipm n) [seq medium_1d true kx (conv_of l) (thick l) | l <- ls]) (media_of kx ky ls).
Proof.
elim: ls => [//|l ls IH]; split; [by []| | |exact: IH].
  rewrite -[m_P (medium_sp _ _ _ _)]/(e_from_h kx ky (conv_of l)) e_from_h0 /tmE /tmH mul_block_col mul_col_mx !mul0mx mulmx0 ?add0r ?addr0 /=.
  rewrite mul_scalar_mx mul_mx_scalar; congr col_mx; congr (_ *: _).
  by apply/matrixP => i j; rewrite !mxE; case: eqP.
rewrite -[m_Q (medium_sp _ _ _ _)]/(h_from_e kx ky (conv_of l)) h_from_e0 /tmE /tmH mul_block_col mul_col_mx !mul0mx mulmx0 ?add0r ?addr0 /=.
by rewrite mul_scalar_mx mul_mx_scalar.
Qed.

Hypothesis nt0 : nt != 0.
Lemma tm_above (Rv : 'cV[C]_n) : a = - (ci * nt) -> let t := above_1d true nt th kx Rv in
  (tmE *m t.2, tmH *m t.1) = above_sp nt th (RtoC 0) kx ky c s 0 ((ci * nt) *: Rv).
Proof.
move=> ha t; rewrite /t {t} /tmE /tmH ha /above_1d weigh_inc /above_sp e_xy0 h_xy0 csin_0 ccos_0 /= !mul_col_mx !mul0mx !mul_scalar_mx.
congr pair; congr col_mx; apply/colP => i; rewrite !mxE ?kz0 ?mul0r ?mulr0 ?addr0 ?oppr0 //.
- rewrite /weigh; move: (kz_of _ _ _) (Rv i ord0) (ccos th) => x y z.
  have e : nt / nt = 1 by rewrite divff.
  set v := nt^-1 in e *; have -> : (nt ^+ 2)^-1 = v ^+ 2 by rewrite -exprVn.
  have e2 : nt * v ^+ 2 = v by rewrite expr2 mulrA e mul1r.
  transitivity ((ci * ci) * (nt * v) * z * (if i == (n %/ 2)%N :> nat then 1 else 0) - (ci * ci) * (nt * v ^+ 2) * x * y).
    by case: ifP => _; cring.
  rewrite ci2 e e2.
  transitivity (- (z * (if i == (n %/ 2)%N :> nat then 1 else 0)) - (ci * ci) * (nt * v ^+ 2) * x * y).
    by rewrite ci2 e2; case: ifP => _; cring.
  by case: ifP => _; cring.
- by rewrite mul0r oppr0.
- move: (Rv i ord0) => y; case: ifP => _; cring.
Qed.
Lemma tm_below (Tv : 'cV[C]_n) : a = - (ci * nt) -> let t := below_1d true nb kx Tv in
  (tmE *m t.2, tmH *m t.1) = below_sp nb kx ky c s 0 ((ci * nt) *: Tv).
Proof.
move=> ha t; rewrite /t {t} /tmE /tmH ha /below_1d /below_sp e_xy0 h_xy0 /= !mul_col_mx !mul0mx !mul_scalar_mx.
congr pair; congr col_mx; apply/colP => i; rewrite !mxE ?kz0 ?mulr0 ?oppr0 //.
- rewrite /weigh; move: (kz_of _ _ _) (Tv i ord0) => x y; set v := (nb ^+ 2)^-1; cring.
- by rewrite mulNr.
Qed.
End Zero.

(** Mirror y -> -y: the p components change sign, or the s components. *)
Section Mirror.
Variable n : nat.
Variables (kx ky : nat -> C) (k0 : R) (th nt nb : C).
Hypothesis rx : real_vec n kx.
Hypothesis ry : real_vec n ky.
Hypothesis kx0 : forall i, (i < n)%N -> kx i != 0.
Hypothesis ky0 : forall i, (i < n)%N -> ky i = 0.
Let c := fun i => cos_varphi (kx i) (ky i).
Let s := fun i => sin_varphi (kx i) (ky i).
Definition mir (a b : C) : 'M[C]_(n + n) := block_mx a%:M 0 0 b%:M.

Lemma mir_embeds a b (ls : seq (layer n)) : embeds (mir a b) (mir b a) (media_of kx ky ls) (media_of kx ky ls).
Proof.
elim: ls => [//|l ls' IH]; split; [by []| | |exact: IH].
  rewrite -[m_P (medium_sp _ _ _ _)]/(e_from_h kx ky (conv_of l)) (e_from_h0 kx ky0) /mir !mulmx_block.
  by rewrite !(mul0mx, mulmx0) ?mul1mx ?mulmx1 !(addr0, add0r); congr block_mx; rewrite scalar_mxC.
rewrite -[m_Q (medium_sp _ _ _ _)]/(h_from_e kx ky (conv_of l)) (h_from_e0 kx ky0) /mir !mulmx_block.
by rewrite !(mul0mx, mulmx0) ?mul1mx ?mulmx1 !(addr0, add0r); congr block_mx; rewrite scalar_mxC.
Qed.

Lemma mir_col a b (x y : 'cV[C]_n) : mir a b *m col_mx x y = col_mx (a *: x) (b *: y).
Proof. by rewrite /mir mul_block_col !(mul0mx, addr0, add0r, mul_scalar_mx). Qed.

Lemma mir_te_above (Rs Rp : 'cV[C]_n) : let t := above_sp nt th (RtoC (PI / 2)) kx ky c s Rs Rp in
  (mir (-1) 1 *m t.1, mir 1 (-1) *m t.2) = above_sp nt th (RtoC (PI / 2)) kx ky c s Rs (- Rp).
Proof.
rewrite /above_sp !(e_xy0 rx ry kx0 ky0) !(h_xy0 rx ry kx0 ky0) csin_pi2 ccos_pi2 /= !mir_col !scale1r.
by congr pair; congr col_mx; apply/colP => i; rewrite !mxE ?mulr0 ?mul0r ?oppr0 ?add0r ?mulN1r ?mulrN ?opprD ?opprK ?mulr0 ?mul0r ?add0r //.
Qed.
Lemma mir_te_below (Ts Tp : 'cV[C]_n) : let t := below_sp nb kx ky c s Ts Tp in
  (mir (-1) 1 *m t.1, mir 1 (-1) *m t.2) = below_sp nb kx ky c s Ts (- Tp).
Proof.
rewrite /below_sp !(e_xy0 rx ry kx0 ky0) !(h_xy0 rx ry kx0 ky0) /= !mir_col !scale1r.
by congr pair; congr col_mx; apply/colP => i; rewrite !mxE ?mulN1r ?mulrN ?opprK //.
Qed.
Lemma mir_tm_above (Rs Rp : 'cV[C]_n) : let t := above_sp nt th (RtoC 0) kx ky c s Rs Rp in
  (mir 1 (-1) *m t.1, mir (-1) 1 *m t.2) = above_sp nt th (RtoC 0) kx ky c s (- Rs) Rp.
Proof.
rewrite /above_sp !(e_xy0 rx ry kx0 ky0) !(h_xy0 rx ry kx0 ky0) csin_0 ccos_0 /= !mir_col !scale1r.
by congr pair; congr col_mx; apply/colP => i; rewrite !mxE ?mulr0 ?mul0r ?oppr0 ?add0r ?mulN1r ?mulrN ?opprD ?opprK ?mulr0 ?mul0r ?add0r //.
Qed.
Lemma mir_tm_below (Ts Tp : 'cV[C]_n) : let t := below_sp nb kx ky c s Ts Tp in
  (mir 1 (-1) *m t.1, mir (-1) 1 *m t.2) = below_sp nb kx ky c s (- Ts) Tp.
Proof.
rewrite /below_sp !(e_xy0 rx ry kx0 ky0) !(h_xy0 rx ry kx0 ky0) /= !mir_col !scale1r.
by congr pair; congr col_mx; apply/colP => i; rewrite !mxE ?mulN1r ?mulrN ?opprK //.
Qed.

Lemma neg_fix (x : 'cV[C]_n) : - x = x -> x = 0.
Proof.
move=> h; apply/colP => i; have := congr1 (fun y : 'cV[C]_n => y i ord0) h; rewrite !mxE.
by case: (x i ord0) => u v [h1 h2]; congr pair; lra.
Qed.

Lemma decoupled psi (ls : seq (layer n)) r ml : (forall l, List.In l ls -> (0 <= thick l)%coqR) ->
  run kx ky k0 th nt nb psi ls r ml ->
  [/\ R_p (res_te_inc r) = 0, T_p (res_te_inc r) = 0, R_s (res_tm_inc r) = 0 & T_s (res_tm_inc r) = 0].
Proof.
move=> hd [_ _ [_ [b2 u2] [b3 u3]] _].
have hd' a : List.In a (media_of kx ky ls) -> (0 <= m_d a)%coqR by move=> ha; have [l hl ->] := In_map ha; exact: hd.
have b2' := embed_bvp (mir_embeds (-1) 1 ls) b2; rewrite mir_te_above mir_te_below in b2'.
have [_ /neg_fix e1 _ /neg_fix e2] := u2 hd' _ _ _ _ _ b2'.
have b3' := embed_bvp (mir_embeds 1 (-1) ls) b3; rewrite mir_tm_above mir_tm_below in b3'.
have [/neg_fix e3 _ /neg_fix e4 _] := u3 hd' _ _ _ _ _ b3'.
by [].
Qed.

Lemma mixed psi (f : R) (ls : seq (layer n)) r ml : (forall l, List.In l ls -> (0 <= thick l)%coqR) -> psi = RtoC f ->
  superposed (csin psi) (ccos psi) (res r) (res_te_inc r) (res_tm_inc r) ->
  run kx ky k0 th nt nb psi ls r ml ->
  mixture (sin f ^ 2)%coqR (cos f ^ 2)%coqR (res r) (res_te_inc r) (res_tm_inc r).
Proof.
move=> hd -> hs hr i; have [e1 e2 e3 e4] := decoupled hd hr; have [[p1 p2 p3] _ _ _] := hr.
have [s1 s2 s3 s4] := hs i; rewrite csin_real ccos_real e1 e2 e3 e4 !mxE !mulr0 ?addr0 ?add0r in s1 s2 s3 s4.
rewrite p1 p2 p3 /report_sp /= e1 e2 e3 e4 s1 s2 s3 s4 !mxE !mul0r.
have key (a : R) (x : C) (v : R) : Re (RtoC a * x * conj (RtoC a * x) * RtoC v) = (a ^ 2 * Re (x * conj x * RtoC v)%R)%coqR.
  by case: x => x y; rewrite /Re /Im /=; cunf => /=; ring.
rewrite !key; have -> : Re 0 = 0%coqR by [].
by split; ring.
Qed.
End Mirror.

(** Only the wave numbers of the retained orders matter. *)
Section Ext.
Variables (n : nat) (kx kx1 : nat -> C).
Hypothesis e : forall i, (i < n)%N -> kx1 i = kx i.
Lemma medium_1d_ext tm (c : conv3 n) d : medium_1d tm kx1 c d = medium_1d tm kx c d.
Proof.
case: c => [[ex ey] ez]; rewrite /medium_1d; case: tm; congr Medium; apply/matrixP => i j; by rewrite !mxE ?e.
Qed.
Lemma above_1d_ext tm nt th (Rv : 'cV[C]_n) : above_1d tm nt th kx1 Rv = above_1d tm nt th kx Rv.
Proof. by rewrite /above_1d; congr pair; apply/colP => i; rewrite !mxE e. Qed.
Lemma below_1d_ext tm nb (Tv : 'cV[C]_n) : below_1d tm nb kx1 Tv = below_1d tm nb kx Tv.
Proof. by rewrite /below_1d; congr pair; apply/colP => i; rewrite !mxE e. Qed.
End Ext.

Section Same.
Variable n : nat.
Variables (kx kx1 ky : nat -> C) (k0 : R) (th nt nb : C).
Hypothesis rx : real_vec n kx.
Hypothesis ry : real_vec n ky.
Hypothesis kx0 : forall i, (i < n)%N -> kx i != 0.
Hypothesis ky0 : forall i, (i < n)%N -> ky i = 0.
Hypothesis kxE : forall i, (i < n)%N -> kx1 i = kx i.
Variable pinv : forall n, 'M[C]_n -> 'M[C]_n.
Variable eig : forall n, 'M[C]_n -> 'rV[C]_n * 'M[C]_n.
Hypothesis heig : eig_ok eig.
Variables (ls : seq (layer n)) (psi : C) (r : sp_result n) (ml : 'cV[C]_(n + n) -> mlist n).
Hypothesis hd : forall l, List.In l ls -> (0 <= thick l)%coqR.
Hypothesis hrun : run kx ky k0 th nt nb psi ls r ml.

Let hd' a : List.In a (media_of kx ky ls) -> (0 <= m_d a)%coqR.
Proof. by move=> ha; have [l hl ->] := In_map ha; exact: hd. Qed.

Lemma te_amps r1 T1 infos : rcwa_1d pinv eig false 0 kx1 k0 th nt nb ls = Some (r1, T1, infos) ->
  let d := res_te_inc r in [/\ R_s d = R_s r1, R_p d = 0, T_s d = T_s r1 & T_p d = 0].
Proof.
move=> h d; have [b _] := bvp_1d heig h; rewrite is_tm0 /co_R /co_T in b.
rewrite (eq_map (fun l => medium_1d_ext kxE false (conv_of l) (thick l))) (above_1d_ext kxE) (below_1d_ext kxE) in b.
have := embed_bvp (te_embeds kx ky0 ls) b; rewrite (te_above th nt rx ry kx0 ky0) (te_below nb rx ry kx0 ky0) => b'.
have [_ _ [_ [_ u] _] _] := hrun.
by have [-> -> -> ->] := u hd' _ _ _ _ _ b'.
Qed.

Lemma tm_amps r1 T1 infos : nt != 0 -> rcwa_1d pinv eig false 1 kx1 k0 th nt nb ls = Some (r1, T1, infos) ->
  let d := res_tm_inc r in [/\ R_s d = 0, R_p d = (ci * nt) *: R_p r1, T_s d = 0 & T_p d = (ci * nt) *: T_p r1].
Proof.
move=> nt0 h d; have [b _] := bvp_1d heig h; rewrite is_tm1 /co_R /co_T in b.
rewrite (eq_map (fun l => medium_1d_ext kxE true (conv_of l) (thick l))) (above_1d_ext kxE) (below_1d_ext kxE) in b.
have := embed_bvp (tm_embeds kx ky0 (- (ci * nt)) ls) (flip_bvp b).
rewrite (tm_above th rx ry kx0 ky0 nt0 _ erefl) (tm_below nb rx ry kx0 ky0 _ erefl) => b'.
have [_ _ [_ _ [_ u]] _] := hrun.
by have [-> -> -> ->] := u hd' _ _ _ _ _ b'.
Qed.

Lemma kz_2d0 nn (i : 'I_n) : kz_2d nn kx ky i = kz_1d nn kx1 i.
Proof. by rewrite /kz_2d /kz_1d ky0 // kxE // expr0n subr0. Qed.

Lemma zero_de (x : C) : Re (0 * conj 0 * x) = 0%coqR.
Proof. by rewrite !mul0r. Qed.

Lemma te_orders r1 T1 infos : rcwa_1d pinv eig false 0 kx1 k0 th nt nb ls = Some (r1, T1, infos) ->
  same_orders false 1 r1 (res_te_inc r).
Proof.
move=> h i j /ord_inj <- {j}; have [e1 e2 e3 e4] := te_amps h.
have [[_ er _] _ _ _] := hrun; have er1 := report_1dE h; rewrite is_tm0 /= in er1.
rewrite /co_R /co_T /cross_R /cross_T; split; first by rewrite e1 e2 e3 e4 !mul1r !mxE.
rewrite er er1 /report_1d /report_sp /= e1 e2 e3 e4 !kz_2d0 !mxE !zero_de !Rplus_0_r.
by [].
Qed.

Lemma tm_orders r1 T1 infos (t : R) : (0 < t)%coqR -> nt = RtoC t -> is_real (ccos th) -> ccos th != 0 ->
  rcwa_1d pinv eig false 1 kx1 k0 th nt nb ls = Some (r1, T1, infos) ->
  same_orders true (ci * nt) r1 (res_tm_inc r).
Proof.
move=> tp et [ct hct] ct0 h i j /ord_inj <- {j}.
have nt0 : nt != 0 by rewrite et; apply/eqP => /RtoC_inj; lra.
have [e1 e2 e3 e4] := tm_amps nt0 h.
have [[_ _ er] _ _ _] := hrun; have er1 := report_1dE h; rewrite is_tm1 /= in er1.
rewrite /co_R /co_T /cross_R /cross_T; split; first by rewrite e1 e2 e3 e4 !mxE.
have key (x y z : C) : z = RtoC (t * t) * y -> Re (x * conj x * RtoC (Re z)) = Re ((ci * nt) * x * conj ((ci * nt) * x) * RtoC (Re y)).
  move=> ->; rewrite et; case: x y => x1 x2 [y1 y2]; rewrite /Re /Im /=; cunf => /=; ring.
have k1 : forall z, z / (nt * ccos th) = RtoC (t * t) * (z / nt ^+ 2 / (nt * ccos th)).
  move=> z; have e : RtoC (t * t) = nt ^+ 2 by rewrite et expr2 RtoC_mul.
  by rewrite e !mulrA [nt ^+ 2 * z]mulrC mulfK // expf_neq0.
have k2 : forall z, z / nb ^+ 2 / (ccos th / nt) = RtoC (t * t) * (z / nb ^+ 2 / (nt * ccos th)).
  move=> z; have e : RtoC (t * t) = nt ^+ 2 by rewrite et expr2 RtoC_mul.
  rewrite e; move: (z / nb ^+ 2) => y; rewrite !invfM invrK.
  have ev : nt / nt = 1 by rewrite divff.
  move: ev; set w := (ccos th)^-1; set v := nt^-1 => ev; rewrite expr2.
  transitivity ((nt * v) * (nt * y * w)); first by rewrite ev; cring.
  by cring.
rewrite er er1 /report_1d /report_sp /= e1 e2 e3 e4 !kz_2d0 !mxE !zero_de !Rplus_0_l.
by rewrite -(key _ _ _ (k1 _)) -(key _ _ _ (k2 _)).
Qed.
End Same.

(** ** The solvers at azimuth 0 *)
Section Solvers.
Variables pinv pinv' : forall n, 'M[C]_n -> 'M[C]_n.
Variables eig eig' : forall n, 'M[C]_n -> 'rV[C]_n * 'M[C]_n.
Hypothesis heig : eigen_oracle eig.
Hypothesis heig' : eigen_oracle eig'.

Lemma layers_cast n m (e : n = m) (cs : seq (conv3 n)) ts ls ls' : layers_of cs ts = Some ls ->
  layers_of (map (cast_conv e) cs) ts = Some ls' ->
  forall (P : forall k, seq (layer k) -> Prop), P n ls -> P m ls'.
Proof.
case: m / e ls' => ls' h h' P.
suff -> : ls' = ls by [].
have ec : map (cast_conv (erefl n)) cs = cs.
  by rewrite -[RHS]map_id; apply: eq_map => -[[a b] d]; rewrite /cast_conv !castmx_id.
by move: h'; rewrite ec h => -[].
Qed.

Lemma ccos_azimuth s : phi_val s = 0 -> ccos (phi_val s) = 1 /\ csin (phi_val s) = 0.
Proof. by move=> ->; rewrite -[0]/(RtoC 0) ccos_0 csin_0. Qed.

Lemma varphi_ok_kx n kx ky : varphi_ok n kx ky -> (forall i, (i < n)%N -> ky i = 0) -> forall i, (i < n)%N -> kx i != 0.
Proof. by move=> /forallP h h0 i li; have := h (Ordinal li); rewrite /= h0 // eqxx orbF. Qed.

Lemma conical_varphi n kx ky k0 psi th nt nb (ls : seq (layer n)) r infos :
  rcwa_conical pinv' eig' false kx ky k0 psi th nt nb ls = Some (r, infos) -> varphi_ok n kx ky.
Proof. by rewrite /rcwa_conical /transfer_sp_1; case: ifP. Qed.
Lemma rcwa2d_varphi n kx ky k0 psi th nt nb (ls : seq (layer n)) r infos :
  rcwa_2d pinv' eig' false kx ky k0 psi th nt nb ls = Some (r, infos) -> varphi_ok n kx ky.
Proof. by rewrite /rcwa_2d /transfer_sp_1; case: ifP. Qed.

Variables (s : setup) (w : R) (convs : seq (conv3 (ff_x s))).
Variable e : ff_x s = (ff_y s * ff_x s)%N.
Hypothesis hp : physical s.
Hypothesis hd : forall t, List.In t (thickness s) -> (0 <= t)%coqR.
Hypothesis hphi : phi_val s = 0.
Hypothesis hy : fto_y s = 0%N.
Hypothesis hl : forall c, List.In c (used s convs) -> line_convs c.

Lemma ky_zero i : (i < ff_y s * ff_x s)%N -> ky_tiled s w i = 0.
Proof.
move=> li; rewrite (ky_const _ hy) // /ky_vector hy /order Rminus_0_r.
have [_ ->] := ccos_azimuth hphi.
by rewrite mulr0 add0r [RtoC (INR 0)](_ : _ = 0) // mul0r conj0.
Qed.
Lemma kx_same i : (i < ff_y s * ff_x s)%N -> kx_vector s w i = kx_tiled s w i.
Proof. by rewrite -e => li; rewrite /kx_tiled /tile_x modn_small. Qed.

Lemma used_cast c : List.In c (used s (map (cast_conv e) convs)) -> line_convs c.
Proof.
rewrite /used -map_take => hc0; have [c' hc ->] := In_map hc0.
have := hl hc; case: c' {hc} => [[a b] d]; rewrite /line_convs /cast_conv.
by move: a b d; case: _ / e => a b d; rewrite !castmx_id.
Qed.

Lemma orders_run r1 T1 infos1 ls' r ml :
  solve_1d pinv eig false s w convs = Some (r1, T1, infos1) ->
  layers_of (map (cast_conv e) convs) (thickness s) = Some ls' ->
  varphi_ok (ff_y s * ff_x s) (kx_tiled s w) (ky_tiled s w) ->
  run (kx_tiled s w) (ky_tiled s w) (k0_of w) (theta s) (n_top s) (n_bot s) (psi s) ls' r ml ->
  same_orders (tm_of s) (scale_of s) r1 (pure s r).
Proof.
move=> h1 hls hv hr.
case: hp => [[nt h0 hnt] [th h2 h3] hp' _ _]; have [f hf] := phi_real hp'; have [rx ry _] := tiled_phys w hnt h3 h2 hf.
have kx0 := varphi_ok_kx hv ky_zero.
have hd' l : List.In l ls' -> (0 <= thick l)%coqR by exact: thick_of hd hls l.
move: h1; rewrite /solve_1d; case els: (layers_of _ _) => [ls|] // h1.
suff key : forall m (em : ff_x s = m) kx ky (lm : seq (layer m)) (rm : sp_result m) ml,
   layers_of (map (cast_conv em) convs) (thickness s) = Some lm ->
   (forall i, (i < m)%N -> ky i = 0) -> (forall i, (i < m)%N -> kx i != 0) -> (forall i, (i < m)%N -> kx_vector s w i = kx i) ->
   real_vec m kx -> real_vec m ky -> (forall l, List.In l lm -> (0 <= thick l)%coqR) ->
   run kx ky (k0_of w) (theta s) (n_top s) (n_bot s) (psi s) lm rm ml -> same_orders (tm_of s) (scale_of s) r1 (pure s rm).
  exact: (key _ e _ _ _ _ _ hls ky_zero kx0 kx_same rx ry hd' hr).
move=> m em; case: m / em => kx ky lm rm ml' hlm ky0 kx0' kxE rx' ry' hdm hrun.
have elm : lm = ls.
  have ec : map (cast_conv (erefl (ff_x s))) convs = convs.
    by rewrite -[RHS]map_id; apply: eq_map => -[[a b] d]; rewrite /cast_conv !castmx_id.
  by move: hlm; rewrite ec els => -[].
rewrite {}elm in hdm hrun *.
have hpol : pol s = 0%coqR \/ pol s = 1%coqR.
  by move: h1; rewrite /rcwa_1d /transfer_1d_1; case: ifP => [/reqbP ->|_]; [left|case: ifP => [/reqbP ->|//]; right].
rewrite /scale_of /pure /tm_of; case: hpol => hpol; rewrite hpol ?is_tm0 ?is_tm1; rewrite hpol in h1.
  exact: (te_orders rx' ry' kx0' ky0 kxE (eigen_eig_ok heig) hdm hrun h1).
have [c1 c2] : is_real (ccos (theta s)) /\ ccos (theta s) != 0.
  rewrite h3 ccos_real; split; first by eexists.
  by apply/eqP => /RtoC_inj; have := cos_gt_0 th; have := PI_RGT_0; lra.
exact: (tm_orders rx' ry' kx0' ky0 kxE (eigen_eig_ok heig) hdm hrun h0 hnt c1 c2 h1).
Qed.

Lemma mix_conical cs r infos (f : R) : psi s = RtoC f -> (forall c, List.In c (used s cs) -> line_convs c) ->
  solve_1d_conical pinv' eig' false s w cs = Some (r, infos) ->
  mixture (sin f ^ 2)%coqR (cos f ^ 2)%coqR (res r) (res_te_inc r) (res_tm_inc r).
Proof.
move=> ef hl' h0; have hs := super_conical h0; move: h0.
rewrite /solve_1d_conical hy eqxx; case els: (layers_of _ _) => [ls|] // h.
have hyu l : List.In l ls -> y_uniform l by move=> /(layers_of_in els) /hl'.
case: (hp) => [[nt h0 hnt] [th h2 h3] hp' _ _]; have [g hf] := phi_real hp'; have [rx ry _] := tiled_phys w hnt h3 h2 hf.
have kx0 := varphi_ok_kx (conical_varphi h) ky_zero.
exact: (mixed rx ry kx0 ky_zero (thick_of hd els) ef hs (run_conical rx ry (eigen_eig_ok heig') (ky_const w hy) hyu h)).
Qed.
Lemma mix_2d cs r infos (f : R) : psi s = RtoC f ->
  solve_2d pinv' eig' false s w cs = Some (r, infos) ->
  mixture (sin f ^ 2)%coqR (cos f ^ 2)%coqR (res r) (res_te_inc r) (res_tm_inc r).
Proof.
move=> ef h0; have hs := super_2d h0; move: h0; rewrite /solve_2d; case els: (layers_of _ _) => [ls|] // h.
case: (hp) => [[nt h0 hnt] [th h2 h3] hp' _ _]; have [g hf] := phi_real hp'; have [rx ry _] := tiled_phys w hnt h3 h2 hf.
have kx0 := varphi_ok_kx (rcwa2d_varphi h) ky_zero.
exact: (mixed rx ry kx0 ky_zero (thick_of hd els) ef hs (run_2d rx ry (eigen_eig_ok heig') h)).
Qed.

Lemma orders_conical r1 T1 infos1 r infos :
  solve_1d pinv eig false s w convs = Some (r1, T1, infos1) ->
  solve_1d_conical pinv' eig' false s w (map (cast_conv e) convs) = Some (r, infos) ->
  same_orders (tm_of s) (scale_of s) r1 (pure s r).
Proof.
move=> h1; rewrite /solve_1d_conical hy eqxx; case els: (layers_of _ _) => [ls|] // h.
have hyu l : List.In l ls -> y_uniform l by move=> /(layers_of_in els) /used_cast.
case: (hp) => [[nt h0 hnt] [th h2 h3] hp' _ _]; have [f hf] := phi_real hp'; have [rx ry _] := tiled_phys w hnt h3 h2 hf.
exact: (orders_run h1 els (conical_varphi h) (run_conical rx ry (eigen_eig_ok heig') (ky_const w hy) hyu h)).
Qed.

Lemma orders_2d r1 T1 infos1 r infos :
  solve_1d pinv eig false s w convs = Some (r1, T1, infos1) ->
  solve_2d pinv' eig' false s w (map (cast_conv e) convs) = Some (r, infos) ->
  same_orders (tm_of s) (scale_of s) r1 (pure s r).
Proof.
move=> h1; rewrite /solve_2d; case els: (layers_of _ _) => [ls|] // h.
case: (hp) => [[nt h0 hnt] [th h2 h3] hp' _ _]; have [f hf] := phi_real hp'; have [rx ry _] := tiled_phys w hnt h3 h2 hf.
exact: (orders_run h1 els (rcwa2d_varphi h) (run_2d rx ry (eigen_eig_ok heig') h)).
Qed.
End Solvers.
