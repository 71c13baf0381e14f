(** Relabelled convolution matrices: results of the three solvers. *)
From Coq Require Import Reals Lra Psatz FunctionalExtensionality.
From mathcomp Require Import all_ssreflect ssralg matrix.
From Coquelicot Require Import Complex.
From Verif Require Import Cplx Mx Spec SpecSolve SpecField SpecSym ModelTM ModelField ProofSetup ProofEnergy1D ProofEff ProofPinv ProofInvert ProofField
  ProofFieldSolve ProofPassive ProofSym2 ProofSym3.

Set Implicit Arguments.
Unset Strict Implicit.
Unset Printing Implicit Defensive.
Local Open Scope ring_scope.
Import GRing.Theory.

(** The same setup illuminated from elsewhere. *)
Definition turn (th' : C) (ph' : option C) (ps' : C) (s : setup) : setup :=
  Setup (n_top s) (n_bot s) th' ph' ps' (pol s) (fto_x s) (fto_y s) (period_x s) (period_y s) (thickness s).

Section Solvers.
Variable pinv : forall n, 'M[C]_n -> 'M[C]_n.
Variable eig : forall n, 'M[C]_n -> 'rV[C]_n * 'M[C]_n.
Hypothesis heig : eigen_oracle eig.

Lemma zero_1d up pol n (F G T : 'M[C]_n) kt kb th nt nb r T1 :
  transfer_1d_4 pinv up pol F G T kt kb th nt nb = Some (r, T1) -> cross_R (is_tm pol) r = 0 /\ cross_T (is_tm pol) r = 0.
Proof.
have t0 : is_tm 0 = false by rewrite /is_tm; case: Req_EM_T => // h; exfalso; lra.
have t1 : is_tm 1 = true by rewrite /is_tm; case: Req_EM_T.
rewrite /transfer_1d_4; case: ifP => [/reqbP ->|_]; last case: ifP => [/reqbP ->|_] //; rewrite ?t0 ?t1;
  by case: (meeinv _ _ _) => [M|] // [<- _].
Qed.

Lemma moved_solve_1d s th' w (convs convs' : seq (conv3 (ff_x s))) r T1 infos r' T1' infos' (sg : 'I_(ff_x s) -> 'I_(ff_x s)) ph e :
  let s' := turn th' (phi s) (psi s) s in
  involutive sg -> e * e = 1 -> (forall i : 'I_(ff_x s), kx_vector s' w (sg i) = e * kx_vector s w i) ->
  (forall i, (sg i == fto_x s :> nat) = (i == fto_x s :> nat)) -> (forall i, i = fto_x s :> nat -> ph i = 1) ->
  (forall i, unimodular (ph i)) -> ccos th' = ccos (theta s) ->
  (forall t, List.In t (thickness s) -> (0 <= t)%coqR) ->
  all2p (moved3 sg ph) convs convs' ->
  solve_1d pinv eig false s w convs = Some (r, T1, infos) ->
  solve_1d pinv eig false s' w convs' = Some (r', T1', infos') ->
  moved_amps sg ph ph r r' /\ moved_effs sg r r'.
Proof.
move=> s' hsg he hk hc hph hu hth ht hm e1 e2.
have [b1 _] := bvp_solve_1d heig e1; have [_ b2] := bvp_solve_1d heig e2.
have hn : (ff_x s %/ 2)%N = fto_x s by rewrite /ff_x half_ff.
have hc' i : (sg i == (ff_x s %/ 2)%N :> nat) = (i == (ff_x s %/ 2)%N :> nat) by rewrite hn.
have hph' i : i = (ff_x s %/ 2)%N :> nat -> ph i = 1 by rewrite hn; exact: hph.
have b3 := bvp_1d_moved hsg he hk hc' hph' hm b1.
have ea tm kx (Rv : 'cV[C]_(ff_x s)) : above_1d tm (n_top s) (theta s) kx Rv = above_1d tm (n_top s) th' kx Rv by rewrite /above_1d hth.
rewrite ea in b3; have [a1 a2] := b2 ht _ _ _ b3.
have [F [G [T x1]]] : exists F G T, transfer_1d_4 pinv false (pol s) F G T (kz_1d (n_top s) (kx_vector s w)) (kz_1d (n_bot s) (kx_vector s w))
    (theta s) (n_top s) (n_bot s) = Some (r, T1).
  by move: e1; rewrite /solve_1d; case: (layers_of _ _) => [ls|] // /rcwa_1d_inv.
have [F' [G' [T' x2]]] : exists F G T, transfer_1d_4 pinv false (pol s) F G T (kz_1d (n_top s) (kx_vector s' w)) (kz_1d (n_bot s) (kx_vector s' w))
    th' (n_top s) (n_bot s) = Some (r', T1').
  by move: e2; rewrite /solve_1d; case: (layers_of _ _) => [ls|] // /rcwa_1d_inv.
have [z1 z2] := zero_1d x1; have [z1' z2'] := zero_1d x2.
have hma : moved_amps sg ph ph r r'.
  move=> i; move: a1 a2 z1 z2 z1' z2'; rewrite /co_R /co_T /cross_R /cross_T; change (pol s') with (pol s).
  by case: (is_tm _) => <- <- -> -> -> ->; rewrite !mono_v // ![(0 : 'cV__) _ _]mxE !mulr0.
split=> //.
have q1 := rule_1d x1; have q2 := rule_1d x2; rewrite hth in q2.
by apply: effs_moved q1 q2 hma => // i; rewrite /kz_1d (kx_sq he hk).
Qed.

(** Both incidence-resolved solvers at once. *)
Definition moved_inc n (sg : 'I_n -> 'I_n) a b (d d' : diffraction n) : Prop := moved_amps sg a b d d' /\ moved_effs sg d d'.
Definition moved_inc3 n (sg : 'I_n -> 'I_n) (u v : C) (a : 'I_n -> C) (r r' : sp_result n) : Prop :=
  [/\ moved_inc sg (fun i => u * v * a i) a (res r) (res r'),
      moved_inc sg a (fun i => u * v * a i) (res_te_inc r) (res_te_inc r')
    & moved_inc sg (fun i => u * v * a i) a (res_tm_inc r) (res_tm_inc r')].

Section Sp.
Variables (n : nat) (sg : 'I_n -> 'I_n) (ph eta : 'I_n -> C) (ex ey kap : C) (kx kx' ky ky' dc ds dc' ds' : nat -> C).
Hypothesis hsg : involutive sg.
Hypothesis hex : ex * ex = 1.
Hypothesis hey : ey * ey = 1.
Hypothesis hkap : kap * kap = 1.
Hypothesis huex : unimodular (ex * ey).
Hypothesis huk : unimodular kap.
Hypothesis heta : forall i, eta i * eta i = 1.
Hypothesis hue : forall i, unimodular (eta i).
Hypothesis hup : forall i, unimodular (ph i).
Hypothesis hkx : forall i : 'I_n, kx' (sg i) = ex * kx i.
Hypothesis hky : forall i : 'I_n, ky' (sg i) = ey * ky i.
Hypothesis hdc : forall i : 'I_n, dc' (sg i) = eta i * ex * dc i.
Hypothesis hds : forall i : 'I_n, ds' (sg i) = eta i * ey * ds i.
Hypothesis hc : forall i : 'I_n, (sg i == (n %/ 2)%N :> nat) = (i == (n %/ 2)%N :> nat).
Hypothesis hph : forall i : 'I_n, i = (n %/ 2)%N :> nat -> ph i = 1.
Hypothesis het : forall i : 'I_n, i = (n %/ 2)%N :> nat -> eta i = kap.
Variables (k0 : R) (nt nb th psi psi' : C) (cs cs' : seq (conv3 n)) (ts : seq R).
Hypothesis hm : all2p (moved3 sg ph) cs cs'.
Hypothesis hts : forall t, List.In t ts -> (0 <= t)%coqR.
Let kzt := kz_2d nt kx ky.
Let kzb := kz_2d nb kx ky.
Let kzt' := kz_2d nt kx' ky'.
Let kzb' := kz_2d nb kx' ky'.
Let ms := media_sp kx ky cs ts.
Let ms' := media_sp kx' ky' cs' ts.

Lemma unimodularM a b : unimodular a -> unimodular b -> unimodular (a * b).
Proof. by rewrite /unimodular => ha hb; rewrite conjM mulrACA ha hb mulr1. Qed.

Lemma media_sp_in m ka kb (c : seq (conv3 m)) t a : List.In a (media_sp ka kb c t) -> List.In (m_d a) t.
Proof.
by elim: t c => [|d t IH] [|x c] //=; case=> [<-|/IH h]; [left; case: x => -[]|right].
Qed.
Lemma scaled3 g (c c' : conv3 n) : moved3 sg ph c c' -> moved3 sg (fun i => g * ph i) c c'.
Proof.
case: c => [[a b] d]; case: c' => [[a' b'] d'] [h1 h2 h3]; split=> i j; by rewrite mulrCA ?h1 ?h2 ?h3 mulrA.
Qed.
Lemma all2p_imp (A B : Type) (P Q : A -> B -> Prop) s t : (forall a b, P a b -> Q a b) -> all2p P s t -> all2p Q s t.
Proof. by move=> h; elim: s t => [|a s IH] [|b t] //= [h1 h2]; split; [exact: h|exact: IH]. Qed.

Lemma inc_moved g (p p' : C) (d d' : diffraction n) fs fs' : unimodular g -> 
  csin p' = ex * ey * (g * kap) * csin p -> ccos p' = g * kap * ccos p ->
  solution_sp k0 ms nt nb th p kx ky dc ds d fs -> solution_sp k0 ms' nt nb th p' kx' ky' dc' ds' d' fs' ->
  extracted d kzt kzb th nt nb -> extracted d' kzt' kzb' th nt nb ->
  moved_inc sg (fun i => ex * ey * (g * ph i * eta i)) (fun i => g * ph i * eta i) d d'.
Proof.
move=> hg hs hcc s1 s2 e1 e2.
have ha : moved_amps sg (fun i => ex * ey * (g * ph i * eta i)) (fun i => g * ph i * eta i) d d'.
  apply: (solution_sp_moved (ph := fun i => g * ph i) (eta := eta) hsg hex hey heta hkx hky hdc hds hc _ _ _ _ s1 s2).
  - by move=> i hi; rewrite hs (hph hi) (het hi); cring.
  - by move=> i hi; rewrite hcc (hph hi) (het hi); cring.
  - by apply: all2p_imp hm => c c'; exact: scaled3.
  - by move=> a ha; apply: hts; exact: media_sp_in ha.
split=> //; apply: (effs_moved _ _ _ _ (extracted_rule e1) (extracted_rule e2) ha).
- by move=> i; apply: (unimodularM huex); apply: unimodularM (hue i); apply: unimodularM (hup i).
- by move=> i; apply: unimodularM (hue i); apply: unimodularM (hup i).
- by move=> i; rewrite /kzt' /kzt /kz_2d (kx_sq hex hkx) (kx_sq hey hky).
- by move=> i; rewrite /kzb' /kzb /kz_2d (kx_sq hex hkx) (kx_sq hey hky).
Qed.

Lemma sp_moved3 r r' fields fields' :
  csin psi' = ex * ey * csin psi -> ccos psi' = ccos psi ->
  solution3_sp k0 ms nt nb th psi kx ky dc ds r fields -> solution3_sp k0 ms' nt nb th psi' kx' ky' dc' ds' r' fields' ->
  [/\ extracted (res r) kzt kzb th nt nb, extracted (res_te_inc r) kzt kzb th nt nb & extracted (res_tm_inc r) kzt kzb th nt nb] ->
  [/\ extracted (res r') kzt' kzb' th nt nb, extracted (res_te_inc r') kzt' kzb' th nt nb & extracted (res_tm_inc r') kzt' kzb' th nt nb] ->
  moved_inc3 sg ex ey (fun i => kap * ph i * eta i) r r'.
Proof.
move=> hs hcc [s1 s2 s3] [s1' s2' s3'] [e1 e2 e3] [e1' e2' e3'].
have hxy : ex * ey * (ex * ey) = 1.
  rewrite [LHS](_ : _ = (ex * ex) * (ey * ey)); last by cring.
  by rewrite hex hey mulr1.
split.
- by apply: (inc_moved huk _ _ s1 s1' e1 e1'); rewrite hkap ?mulr1 ?mul1r.
- have h : moved_inc sg (fun i => ex * ey * (ex * ey * kap * ph i * eta i)) (fun i => ex * ey * kap * ph i * eta i) (res_te_inc r) (res_te_inc r').
    apply: (inc_moved (unimodularM huex huk) _ _ s2 s2' e2 e2').
      by rewrite csin_pi2 mulr1 -[ex * ey * kap * kap]mulrA hkap mulr1 hxy.
    by rewrite ccos_pi2 mulr0.
  case: h => ha hf; split=> // i; have [a1 a2 a3 a4] := ha i.
  have q : ex * ey * (ex * ey * kap * ph i * eta i) = kap * ph i * eta i.
    rewrite [LHS](_ : _ = ex * ey * (ex * ey) * (kap * ph i * eta i)); last by cring.
    by rewrite hxy mul1r.
  by rewrite a1 a2 a3 a4 q; split=> //; cring.
by apply: (inc_moved huk _ _ s3 s3' e3 e3'); rewrite hkap ?mulr1 ?mul1r ?csin_0 ?mulr0.
Qed.
End Sp.

Definition sign (e : C) : Prop := e = 1 \/ e = -1.
Lemma sign_sq e : sign e -> e * e = 1.
Proof. by case=> ->; cring. Qed.
Lemma sign_conj e : sign e -> conj e = e.
Proof. by case=> ->; rewrite ?conjN conj1. Qed.
Lemma sign_uni e : sign e -> unimodular e.
Proof. by move=> h; rewrite /unimodular sign_conj // sign_sq. Qed.
Lemma sign_real e : sign e -> is_real e.
Proof. by case=> ->; [exists 1%coqR|exists (-1)%coqR; rewrite RtoC_opp]. Qed.
Lemma sign_neq0 e : sign e -> e != 0.
Proof. by move=> h; apply/eqP => e0; have := sign_sq h; rewrite e0 mul0r => /esym /eqP; rewrite oner_eq0. Qed.

(** Sign of the direction of an order after the reflection. *)
Definition eta_of (ex ey kx ky : C) : C := if kx == 0 then (if ky == 0 then ey else 1) else ex.
Lemma eta_sign ex ey kx ky : sign ex -> sign ey -> sign (eta_of ex ey kx ky).
Proof. by rewrite /eta_of; case: ifP => _; [case: ifP => _ _ //; left|]. Qed.

Section Turn.
Variables (n : nat) (sg : 'I_n -> 'I_n) (ex ey : C) (kx kx' ky ky' : nat -> C).
Hypothesis hsg : involutive sg.
Hypothesis hex : sign ex.
Hypothesis hey : sign ey.
Hypothesis hkx : forall i : 'I_n, kx' (sg i) = ex * kx i.
Hypothesis hky : forall i : 'I_n, ky' (sg i) = ey * ky i.
Hypothesis hrx : forall i : 'I_n, is_real (kx i).
Hypothesis hry : forall i : 'I_n, is_real (ky i).
Let eta (i : 'I_n) := eta_of ex ey (kx i) (ky i).
Let dir (e : C) (d : nat -> C) (j : nat) : C := if insub j is Some j' then eta (sg j') * e * d (sg j') else 0.

Lemma dirE e d (i : 'I_n) : dir e d (sg i) = eta i * e * d i.
Proof. by rewrite /dir valK hsg. Qed.
Lemma dir_ok dc ds : directions n kx ky dc ds -> directions n kx' ky' (dir ex dc) (dir ey ds).
Proof.
move=> h j; rewrite -(hsg j); move: (sg j) => {j} i; rewrite !dirE hkx hky.
have [h1 h2 [c hc] [s hs] h5] := h i.
have [e he] := sign_real (eta_sign (kx i) (ky i) hex hey).
have e2 : eta i * eta i = 1 by apply: sign_sq; apply: eta_sign.
have [x hx] := sign_real hex; have [y hy] := sign_real hey.
have x2 := sign_sq hex; have y2 := sign_sq hey.
split.
- rewrite -h1 !expr2 [LHS](_ : _ = (eta i * eta i) * (ex * ex) * (dc i * dc i) + (eta i * eta i) * (ey * ey) * (ds i * ds i)); last by cring.
  by rewrite e2 x2 y2 !mul1r.
- rewrite [LHS](_ : _ = eta i * ex * ey * (dc i * ky i)); last by cring.
  by rewrite h2; cring.
- by exists (e * x * c)%coqR; rewrite hc /eta he hx -!RtoC_mul.
- by exists (e * y * s)%coqR; rewrite hs /eta he hy -!RtoC_mul.
rewrite mulf_eq0 (negbTE (sign_neq0 hex)) /=.
case: ifP h5 => [k0 [d0 hd]|k0 hd]; last first.
  by rewrite /eta /eta_of k0 x2 mul1r.
split; first by rewrite d0 mulr0.
have [k hk] := hry i; rewrite hk Re_RtoC in hd.
rewrite /eta /eta_of k0 hk hy -RtoC_mul Re_RtoC; case ky0: (RtoC k == 0).
  have {ky0} ky0 : k = 0%coqR by move/eqP: ky0 => -[->].
  rewrite -hy y2 mul1r ky0 Rmult_0_r; rewrite ky0 in hd; by case: Rlt_dec hd => // h' _; exfalso; lra.
have kn : k <> 0%coqR by move=> kk; rewrite kk eqxx in ky0.
rewrite mul1r -hy; case: hey => ye.
  have -> : (y * k = k)%coqR by move: hy; rewrite ye => -[<-]; ring.
  by rewrite ye; case: Rlt_dec hd => h' ->; rewrite ?mul1r ?mulrN1.
have -> : (y * k = - k)%coqR by move: hy; rewrite ye => -[<- _]; ring.
rewrite ye; case: (Rlt_dec k 0) hd => h'; cbv beta iota delta [is_left] => ->; case: Rlt_dec => h''; cbv beta iota delta [is_left]; try (exfalso; lra); cring.
Qed.
End Turn.

Section TurnSolve.
Variables (s : setup) (ph' : option C) (ps' : C) (w : R) (convs convs' : seq (conv3 (ff_y s * ff_x s))).
Variables (sg : 'I_(ff_y s * ff_x s) -> 'I_(ff_y s * ff_x s)) (ph : 'I_(ff_y s * ff_x s) -> C) (ex ey : C).
Let n := (ff_y s * ff_x s)%N.
Let s' := turn (theta s) ph' ps' s.
Hypothesis hp : physical s.
Hypothesis hp' : physical s'.
Hypothesis hsg : involutive sg.
Hypothesis hex : sign ex.
Hypothesis hey : sign ey.
Hypothesis hkx : forall i : 'I_n, kx_tiled s' w (sg i) = ex * kx_tiled s w i.
Hypothesis hky : forall i : 'I_n, ky_tiled s' w (sg i) = ey * ky_tiled s w i.
Hypothesis hc : forall i : 'I_n, (sg i == (n %/ 2)%N :> nat) = (i == (n %/ 2)%N :> nat).
Hypothesis hph : forall i : 'I_n, i = (n %/ 2)%N :> nat -> ph i = 1.
Hypothesis hup : forall i, unimodular (ph i).
Hypothesis hts : forall t, List.In t (thickness s) -> (0 <= t)%coqR.
Hypothesis hm : all2p (moved3 sg ph) convs convs'.
Hypothesis hsin : csin ps' = ex * ey * csin (psi s).
Hypothesis hcos : ccos ps' = ccos (psi s).
Let eta (i : nat) := eta_of ex ey (kx_tiled s w i) (ky_tiled s w i).
Definition turn_factor (i : 'I_n) : C := eta (n %/ 2)%N * ph i * eta i.

Lemma tiled_real (i : 'I_n) : is_real (kx_tiled s w i) /\ is_real (ky_tiled s w i).
Proof. by split; [exact: (kx_real w hp _).1|exact: (kx_real w hp _).2]. Qed.

Lemma turn_solve_2d r infos r' infos' :
  solve_2d pinv eig false s w convs = Some (r, infos) -> solve_2d pinv eig false s' w convs' = Some (r', infos') ->
  moved_inc3 sg ex ey turn_factor r r'.
Proof.
move=> e1 e2; have [dc [ds hd]] := directions_exist w hp.
have hd' := dir_ok hsg hex hey hkx hky (fun i => (tiled_real i).2) hd.
have k1 := bvp_solve_2d heig hp e1 hd; have k2 := bvp_solve_2d heig hp' e2 hd'.
have x1 : [/\ extracted (res r) (kz_2d (n_top s) (kx_tiled s w) (ky_tiled s w)) (kz_2d (n_bot s) (kx_tiled s w) (ky_tiled s w)) (theta s) (n_top s) (n_bot s),
  extracted (res_te_inc r) (kz_2d (n_top s) (kx_tiled s w) (ky_tiled s w)) (kz_2d (n_bot s) (kx_tiled s w) (ky_tiled s w)) (theta s) (n_top s) (n_bot s)
  & extracted (res_tm_inc r) (kz_2d (n_top s) (kx_tiled s w) (ky_tiled s w)) (kz_2d (n_bot s) (kx_tiled s w) (ky_tiled s w)) (theta s) (n_top s) (n_bot s)].
  by move: e1; rewrite /solve_2d; case: (layers_of _ _) => [ls|] // /rcwa_2d_inv.
have x2 : [/\ extracted (res r') (kz_2d (n_top s) (kx_tiled s' w) (ky_tiled s' w)) (kz_2d (n_bot s) (kx_tiled s' w) (ky_tiled s' w)) (theta s) (n_top s) (n_bot s),
  extracted (res_te_inc r') (kz_2d (n_top s) (kx_tiled s' w) (ky_tiled s' w)) (kz_2d (n_bot s) (kx_tiled s' w) (ky_tiled s' w)) (theta s) (n_top s) (n_bot s)
  & extracted (res_tm_inc r') (kz_2d (n_top s) (kx_tiled s' w) (ky_tiled s' w)) (kz_2d (n_bot s) (kx_tiled s' w) (ky_tiled s' w)) (theta s) (n_top s) (n_bot s)].
  by move: e2; rewrite /solve_2d; case: (layers_of _ _) => [ls|] // /rcwa_2d_inv.
have es i : sign (eta i) by apply: eta_sign.
pose proof (dirE ex ey (kx_tiled s w) (ky_tiled s w) hsg ex dc) as D1.
pose proof (dirE ex ey (kx_tiled s w) (ky_tiled s w) hsg ey ds) as D2.
have HH : forall i : 'I_n, i = (n %/ 2)%N :> nat -> eta i = eta (n %/ 2)%N by move=> i ->.
exact (sp_moved3 (eta := fun i : 'I_n => eta i) (kap := eta (n %/ 2)%N) hsg (sign_sq hex) (sign_sq hey) (sign_sq (es _))
  (unimodularM (sign_uni hex) (sign_uni hey)) (sign_uni (es _)) (fun i => sign_sq (es i)) (fun i => sign_uni (es i)) hup hkx hky
  D1 D2 hc hph HH hm hts hsin hcos k1 k2 x1 x2).
Qed.
Lemma turn_solve_conical r infos r' infos' :
  (forall c, List.In c (used s convs) -> line_convs c) -> (forall c, List.In c (used s convs') -> line_convs c) ->
  solve_1d_conical pinv eig false s w convs = Some (r, infos) -> solve_1d_conical pinv eig false s' w convs' = Some (r', infos') ->
  moved_inc3 sg ex ey turn_factor r r'.
Proof.
move=> l1 l2 e1 e2; have [dc [ds hd]] := directions_exist w hp.
have hd' := dir_ok hsg hex hey hkx hky (fun i => (tiled_real i).2) hd.
have k1 := bvp_solve_conical heig hp l1 e1 hd; have k2 := bvp_solve_conical heig hp' l2 e2 hd'.
have x1 : [/\ extracted (res r) (kz_2d (n_top s) (kx_tiled s w) (ky_tiled s w)) (kz_2d (n_bot s) (kx_tiled s w) (ky_tiled s w)) (theta s) (n_top s) (n_bot s),
  extracted (res_te_inc r) (kz_2d (n_top s) (kx_tiled s w) (ky_tiled s w)) (kz_2d (n_bot s) (kx_tiled s w) (ky_tiled s w)) (theta s) (n_top s) (n_bot s)
  & extracted (res_tm_inc r) (kz_2d (n_top s) (kx_tiled s w) (ky_tiled s w)) (kz_2d (n_bot s) (kx_tiled s w) (ky_tiled s w)) (theta s) (n_top s) (n_bot s)].
  by move: e1; rewrite /solve_1d_conical; case: ifP => // _; case: (layers_of _ _) => [ls|] // /rcwa_conical_inv.
have x2 : [/\ extracted (res r') (kz_2d (n_top s) (kx_tiled s' w) (ky_tiled s' w)) (kz_2d (n_bot s) (kx_tiled s' w) (ky_tiled s' w)) (theta s) (n_top s) (n_bot s),
  extracted (res_te_inc r') (kz_2d (n_top s) (kx_tiled s' w) (ky_tiled s' w)) (kz_2d (n_bot s) (kx_tiled s' w) (ky_tiled s' w)) (theta s) (n_top s) (n_bot s)
  & extracted (res_tm_inc r') (kz_2d (n_top s) (kx_tiled s' w) (ky_tiled s' w)) (kz_2d (n_bot s) (kx_tiled s' w) (ky_tiled s' w)) (theta s) (n_top s) (n_bot s)].
  by move: e2; rewrite /solve_1d_conical; case: ifP => // _; case: (layers_of _ _) => [ls|] // /rcwa_conical_inv.
have es i : sign (eta i) by apply: eta_sign.
pose proof (dirE ex ey (kx_tiled s w) (ky_tiled s w) hsg ex dc) as D1.
pose proof (dirE ex ey (kx_tiled s w) (ky_tiled s w) hsg ey ds) as D2.
have HH : forall i : 'I_n, i = (n %/ 2)%N :> nat -> eta i = eta (n %/ 2)%N by move=> i ->.
exact (sp_moved3 (eta := fun i : 'I_n => eta i) (kap := eta (n %/ 2)%N) hsg (sign_sq hex) (sign_sq hey) (sign_sq (es _))
  (unimodularM (sign_uni hex) (sign_uni hey)) (sign_uni (es _)) (fun i => sign_sq (es i)) (fun i => sign_uni (es i)) hup hkx hky
  D1 D2 hc hph HH hm hts hsin hcos k1 k2 x1 x2).
Qed.
End TurnSolve.
End Solvers.
