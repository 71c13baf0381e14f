(** Solver level: with an absorbing layer the reported efficiencies add up to strictly less than one. *)
From Coq Require Import Reals Lra Psatz.
From mathcomp Require Import all_ssreflect ssralg matrix mxalgebra.
From Coquelicot Require Import Complex Hierarchy.
From Verif Require Import Cplx Mx Spec ModelTM ModelField SpecSolve SpecField SpecVec SpecPassive SpecAbsorb SpecStrict ProofFlux ProofEnergy1D
  ProofEnergy2D ProofSetup ProofEff ProofFilmSolve ProofNormal ProofWell ProofField ProofBVP ProofBVP2 ProofFieldSolve ProofPassive ProofPassive2
  ProofAbsorb ProofAbsorb3 ProofStrict.

Set Implicit Arguments.
Unset Strict Implicit.
Unset Printing Implicit Defensive.
Local Open Scope ring_scope.
Import GRing.Theory.

Lemma real_vec_of n (k : nat -> C) : (forall i : 'I_n, is_real (k i)) -> real_vec n k.
Proof. by move=> h i hi; exact: (real_conj (h (Ordinal hi))). Qed.

Lemma no_gain_1d n tm (k0 : R) (kx : nat -> C) (c : conv3 n) d : (0 <= k0)%coqR -> (forall i : 'I_n, is_real (kx i)) -> passive_convs c ->
  no_gain k0 1%:M (m_P (medium_1d tm kx c d)) (m_Q (medium_1d tm kx c d)).
Proof.
move=> hk hx hc u v; rewrite -(loss_const 1%:M k0 (medium_1d tm kx c d)) loss_1d //; exact: joule_1d_ge0.
Qed.
Lemma no_gain_sp n (k0 : R) (kx ky : nat -> C) (c : conv3 n) d : (0 <= k0)%coqR -> (forall i : 'I_n, is_real (kx i)) ->
  (forall i : 'I_n, is_real (ky i)) -> passive_convs c ->
  no_gain k0 (- Jxy n) (m_P (medium_sp kx ky c d)) (m_Q (medium_sp kx ky c d)).
Proof.
move=> hk hx hy hc u v; rewrite -(loss_const (- Jxy n) k0 (medium_sp kx ky c d)) loss_sp //; exact: joule_sp_ge0.
Qed.

Lemma media_1d_in n tm kx (cs : seq (conv3 n)) ts l : List.In l (media_1d tm kx cs ts) ->
  exists c t, [/\ l = medium_1d tm kx c t, List.In c (take (size ts) cs) & List.In t ts].
Proof.
elim: ts cs => [|t ts IH] [|c cs] //= [<-|/IH [c' [t' [-> h1 h2]]]]; [exists c, t|exists c', t']; split=> //; by [left|right].
Qed.
Lemma media_sp_in n kx ky (cs : seq (conv3 n)) ts l : List.In l (media_sp kx ky cs ts) ->
  exists c t, [/\ l = medium_sp kx ky c t, List.In c (take (size ts) cs) & List.In t ts].
Proof.
elim: ts cs => [|t ts IH] [|c cs] //= [<-|/IH [c' [t' [-> h1 h2]]]]; [exists c, t|exists c', t']; split=> //; by [left|right].
Qed.
Lemma media_1d_has n tm kx (cs : seq (conv3 n)) ts k c t : List.nth_error cs k = Some c -> List.nth_error ts k = Some t ->
  List.In (medium_1d tm kx c t) (media_1d tm kx cs ts).
Proof. by elim: k cs ts => [|k IH] [|c' cs] [|t' ts] //=; [case=> -> [->]; left|move=> h1 h2; right; exact: IH]. Qed.
Lemma media_sp_has n kx ky (cs : seq (conv3 n)) ts k c t : List.nth_error cs k = Some c -> List.nth_error ts k = Some t ->
  List.In (medium_sp kx ky c t) (media_sp kx ky cs ts).
Proof. by elim: k cs ts => [|k IH] [|c' cs] [|t' ts] //=; [case=> -> [->]; left|move=> h1 h2; right; exact: IH]. Qed.
Lemma medium_1d_d n tm kx (c : conv3 n) t : m_d (medium_1d tm kx c t) = t.
Proof. by case: c => [[ex ey] ez]; rewrite /medium_1d; case: tm. Qed.

Lemma loss_lost n (r : diffraction n) p a : (0 < p)%coqR -> (0 < a)%coqR -> power_balance p r a -> power_lost r.
Proof.
move=> hp ha; rewrite /power_balance /power_lost => <-.
have : (0 < a / p)%coqR by apply: Rdiv_lt_0_compat.
lra.
Qed.

(** The incident wave leaves a field on the upper face. *)
Lemma above_1d_neq0 n tm (nt th : R) (kx : nat -> C) (Rv : 'cV[C]_n) : (0 < n)%N -> (0 < nt)%coqR -> (0 < cos th)%coqR ->
  kz_of (RtoC nt) (kx (n %/ 2)%N) 0 = RtoC (nt * cos th) -> above_1d tm (RtoC nt) (RtoC th) kx Rv <> (0, 0).
Proof.
move=> hn h0 c0 hk [e1 e2].
pose i := Ordinal (ltn_Pdiv (isT : 1 < 2)%N hn).
move/colP/(_ i): e1; move/colP/(_ i): e2; rewrite !mxE /= eqxx hk ccos_real -RtoC_mul mulr1.
set r := Rv i _; set x := weigh tm _ _ => e2 e1.
have er : r = -1 by move/eqP: e1; rewrite addrC addr_eq0 => /eqP.
have : x = 0.
  move: e2; rewrite er mulrN1 !mulNr => /eqP; rewrite -opprD oppr_eq0 -mulrDr mulf_eq0 => /orP [/eqP ci0|/eqP xx].
    by have := congr1 Im ci0; rewrite /ci /Im /= => h; lra.
  have : (1 + 1 : C) * x = 0 by rewrite mulrDl mul1r.
  by move/eqP; rewrite mulf_eq0 => /orP [/eqP h|/eqP //]; have := congr1 Re h; rewrite /Re /= => h'; lra.
have k1 := Rmult_lt_0_compat _ _ h0 c0.
rewrite /x /weigh; case: tm x e2 => x _; last by move/(congr1 Re); rewrite Re_RtoC /Re /=; lra.
move/eqP; rewrite mulf_eq0 invr_eq0 expf_eq0 /= => /orP [] /eqP /(congr1 Re); rewrite Re_RtoC /Re /=; lra.
Qed.

Lemma rot_zero (c s x y : C) : c ^+ 2 + s ^+ 2 = 1 -> c * y - s * x = 0 -> c * x + s * y = 0 -> x = 0 /\ y = 0.
Proof.
move=> h e1 e2; split.
- transitivity ((c ^+ 2 + s ^+ 2) * x); first by rewrite h mul1r.
  transitivity (c * (c * x + s * y) - s * (c * y - s * x)); last by rewrite e1 e2 !mulr0 subr0.
  rewrite !expr2; cring.
- transitivity ((c ^+ 2 + s ^+ 2) * y); first by rewrite h mul1r.
  transitivity (s * (c * x + s * y) + c * (c * y - s * x)); last by rewrite e1 e2 !mulr0 addr0.
  rewrite !expr2; cring.
Qed.

Lemma above_sp_neq0 n (nt th psi : R) (kx ky dc ds : nat -> C) (Rs Rp : 'cV[C]_n) : (0 < n)%N -> (0 < nt)%coqR -> (0 < cos th)%coqR ->
  (forall i : 'I_n, dc i ^+ 2 + ds i ^+ 2 = 1) ->
  kz_of (RtoC nt) (kx (n %/ 2)%N) (ky (n %/ 2)%N) = RtoC (nt * cos th) ->
  above_sp (RtoC nt) (RtoC th) (RtoC psi) kx ky dc ds Rs Rp <> (0, 0).
Proof.
move=> hn h0 c0 hd hk [].
pose i := Ordinal (ltn_Pdiv (isT : 1 < 2)%N hn).
rewrite /e_xy /h_xy -(@col_mx0 _ n n 1) => /eq_col_mx [a1 a2] /eq_col_mx [b1 b2].
move/colP/(_ i): a1; move/colP/(_ i): a2; move/colP/(_ i): b1; move/colP/(_ i): b2.
rewrite ![in X in X -> _]mxE => b2; rewrite ![in X in X -> _]mxE => b1; rewrite ![in X in X -> _]mxE => a2; rewrite ![in X in X -> _]mxE => a1.
have [es ep] := rot_zero (hd i) a1 a2.
rewrite addrC in b2; have [hp hs] := rot_zero (hd i) b1 b2.
move: es ep hp hs; rewrite /= eqxx hk csin_real !ccos_real !mulr1.
set rs := Rs i _; set rp := Rp i _ => es ep hp hs.
have k1 := Rmult_lt_0_compat _ _ h0 c0.
have n2 : ci / RtoC nt ^+ 2 = ci * RtoC (/ (nt * nt)) by rewrite expr2 -RtoC_mul -RtoC_inv //; nra.
have s0 : sin psi = 0%coqR.
  have := congr1 Re es; have := congr1 Im hs; case: rs {es hs} => a b.
  rewrite /ci /RtoC /Re /Im /= => e1 e2.
  have : (2 * (nt * cos th) * sin psi = 0)%coqR by nra.
  by case/Rmult_integral; lra.
have c1 : cos psi = 0%coqR.
  rewrite n2 in ep; have := congr1 Re ep; have := congr1 Im hp; case: rp {ep hp} => a b.
  rewrite /ci /RtoC /Re /Im /= => e1 e2.
  have eb : (b = - (nt * cos psi))%coqR by lra.
  have : (- 2 * (cos psi * cos th) = 0)%coqR by rewrite -e2 eb; field; lra.
  by case/Rmult_integral => [|/Rmult_integral []]; lra.
have := sin2_cos2 psi; rewrite s0 c1 /Rsqr; lra.
Qed.

Section Solve.
Variable pinv : forall n, 'M[C]_n -> 'M[C]_n.
Variable eig : forall n, 'M[C]_n -> 'rV[C]_n * 'M[C]_n.
Hypothesis heig : eigen_oracle eig.

Lemma balance_flow_1d s w (convs : seq (conv3 (ff_x s))) r T1 infos (nt th : R) :
  physical s -> phi s = None -> n_top s = RtoC nt -> theta s = RtoC th -> (0 <= th < PI / 2)%coqR ->
  solve_1d pinv eig false s w convs = Some (r, T1, infos) ->
  let tm := is_tm (pol s) in let kx := kx_vector s w in
  power_balance (incident_power tm nt th) r
    (flow 1%:M (below_1d tm (n_bot s) kx (co_T tm r)) - flow 1%:M (above_1d tm (RtoC nt) (RtoC th) kx (co_R tm r)))%coqR.
Proof.
move=> hp hf h1 h3 h2 hs tm kx.
have h0 : (0 < nt)%coqR by case: hp => -[x hx ex] *; move: ex; rewrite h1 => -[->].
rewrite /power_balance flow_below flow_above //; [|exact: kz_mid].
have he := eff_amp h1 h0 h3 h2 hs.
have c0 := cos_pos_below h2.
set A := total (fun i => _ * Re (kz_of (RtoC nt) _ _))%coqR; set B := total (fun i => _ * Re (weigh _ _ _))%coqR.
have -> : total (de_ri r) = (A * / (nt * cos th))%coqR.
  rewrite -total_scale; apply: total_ext => i; have [-> _] := he i.
  by rewrite kz_1dE h1 /Rdiv -Rmult_assoc.
have -> : total (de_ti r) = (B * / incident_power tm nt th)%coqR.
  rewrite -total_scale; apply: total_ext => i; have [_ ->] := he i.
  by rewrite kz_1dE /incident_power /weigh -/tm -/kx; case: (tm); rewrite /Rdiv -Rmult_assoc.
rewrite /incident_power; case: (tm); field; split; lra.
Qed.

Lemma strict_solve_1d s w (convs : seq (conv3 (ff_x s))) r T1 infos :
  physical s -> phi s = None -> (0 < w)%coqR -> (forall t, List.In t (thickness s) -> (0 <= t)%coqR) ->
  (forall c, List.In c (used s convs) -> passive_convs c) -> has_absorber convs (thickness s) ->
  solve_1d pinv eig false s w convs = Some (r, T1, infos) -> power_lost r.
Proof.
move=> hp hf hw ht hc [k [c [t [hk1 hk2 t0 hab]]]] hs; case: (hp) => -[nt h0 h1] [th h2 h3] _ _ _.
have c0 := cos_pos_below h2; have hk := k0_pos hw; have hk' : k0_of w <> 0%coqR by lra.
have hx i : is_real (kx_vector s w i) := (kx_real w hp i).1.
have rk : real_vec (ff_x s) (kx_vector s w) by apply: real_vec_of => i.
have [hb _] := bvp_solve_1d heig hs.
have hpb := balance_flow_1d hp hf h1 h3 h2 hs.
have hm := kz_mid w h1 h0 h3 h2 hf.
set tm := is_tm (pol s) in hb hpb; set kx := kx_vector s w in hb hx rk hpb hm.
move: hpb; rewrite /=; set top := flow _ (above_1d _ _ _ _ _); set bot := flow _ (below_1d _ _ _ _) => hpb.
apply: loss_lost hpb.
  by rewrite /incident_power; case: (tm); [apply: Rdiv_lt_0_compat|apply: Rmult_lt_0_compat].
rewrite h1 h3 in hb.
have hl l : List.In l (media_1d tm kx convs (thickness s)) -> (0 <= m_d l)%coqR /\ no_gain (k0_of w) 1%:M (m_P l) (m_Q l).
  move=> /media_1d_in [c' [t' [-> i1 i2]]]; rewrite medium_1d_d; split; first exact: ht.
  by apply: no_gain_1d; [lra|exact: hx|apply: hc].
have [f1 f2] := stack_strict hk' hl hb.
case: (Rlt_le_dec top bot) => [|hle]; first lra.
exfalso; have hn : (0 < ff_x s)%N by [].
apply (@above_1d_neq0 _ tm nt th kx (co_R tm r) hn h0 c0 hm); apply: (f2 _ hle).
exists (medium_1d tm kx c t); rewrite medium_1d_d; split=> //; first exact: media_1d_has hk1 hk2.
exact: absorber_1d.
Qed.

Lemma balance_flow_sp n (nt th : R) nb (psi : R) (kx ky dc ds : nat -> C) (d : diffraction n) :
  (0 < n)%N -> (0 < nt)%coqR -> (0 < cos th)%coqR -> directions n kx ky dc ds ->
  kz_of (RtoC nt) (kx (n %/ 2)%N) (ky (n %/ 2)%N) = RtoC (nt * cos th) ->
  extracted d (kz_2d (RtoC nt) kx ky) (kz_2d nb kx ky) (RtoC th) (RtoC nt) nb ->
  power_balance (nt * cos th) d
    (flow (- Jxy n) (below_sp nb kx ky dc ds (T_s d) (T_p d)) -
     flow (- Jxy n) (above_sp (RtoC nt) (RtoC th) (RtoC psi) kx ky dc ds (R_s d) (R_p d)))%coqR.
Proof.
move=> hn h0 c0 hd hc hx4.
have hd' : forall i : 'I_n, [/\ dc i ^+ 2 + ds i ^+ 2 = 1, is_real (dc i) & is_real (ds i)] by move=> i; case: (hd i).
rewrite /power_balance flow_below_sp // flow_above_sp //.
set A := total (fun i => (_ + _) * _)%coqR; set B := total (fun i => _ + _)%coqR.
have he := eff_amp_sp h0 c0 hx4.
have -> : total (de_ri d) = (A * / (nt * cos th))%coqR.
  by rewrite -total_scale; apply: total_ext => i; have [-> _] := he i; rewrite kz_2dE.
have -> : total (de_ti d) = (B * / (nt * cos th))%coqR.
  by rewrite -total_scale; apply: total_ext => i; have [_ ->] := he i; rewrite kz_2dE.
have kc0 := Rmult_lt_0_compat _ _ h0 c0; move: (nt * cos th)%coqR kc0 => p hp; field; lra.
Qed.

Lemma strict_inc n k0 (nt th : R) nb (psi : R) (kx ky dc ds : nat -> C) (cs : seq (conv3 n)) ts (d : diffraction n) fs :
  (0 < n)%N -> (0 < nt)%coqR -> (0 < cos th)%coqR -> (0 < k0)%coqR ->
  (forall i : 'I_n, is_real (kx i)) -> (forall i : 'I_n, is_real (ky i)) -> directions n kx ky dc ds ->
  kz_of (RtoC nt) (kx (n %/ 2)%N) (ky (n %/ 2)%N) = RtoC (nt * cos th) ->
  (forall t, List.In t ts -> (0 <= t)%coqR) ->
  (forall c, List.In c (take (size ts) cs) -> passive_convs c) -> has_absorber cs ts ->
  extracted d (kz_2d (RtoC nt) kx ky) (kz_2d nb kx ky) (RtoC th) (RtoC nt) nb ->
  solution_sp k0 (media_sp kx ky cs ts) (RtoC nt) nb (RtoC th) (RtoC psi) kx ky dc ds d fs -> power_lost d.
Proof.
move=> hn h0 c0 hk hx hy hd hm ht hc [k [c [t [hk1 hk2 t0 hab]]]] hx4 [hb _].
have hpb := balance_flow_sp psi hn h0 c0 hd hm hx4.
have hk' : k0 <> 0%coqR by lra.
move: hpb; set top := flow _ (above_sp _ _ _ _ _ _ _ _ _); set bot := flow _ (below_sp _ _ _ _ _ _ _) => hpb.
apply: loss_lost hpb; first exact: Rmult_lt_0_compat.
have hl l : List.In l (media_sp kx ky cs ts) -> (0 <= m_d l)%coqR /\ no_gain k0 (- Jxy n) (m_P l) (m_Q l).
  move=> /media_sp_in [c' [t' [-> i1 i2]]]; split; first exact: ht.
  by apply: no_gain_sp; [lra|exact: hx|exact: hy|apply: hc].
have [f1 f2] := stack_strict hk' hl hb.
case: (Rlt_le_dec top bot) => [|hle]; first lra.
exfalso; have hd1 (i : 'I_n) : dc i ^+ 2 + ds i ^+ 2 = 1 by have [] := hd i.
apply (@above_sp_neq0 n nt th psi kx ky dc ds (R_s d) (R_p d) hn h0 c0 hd1 hm); apply: (f2 _ hle); exists (medium_sp kx ky c t); split=> //; first exact: media_sp_has hk1 hk2.
by apply: absorber_sp => //; exact: real_vec_of.
Qed.

Lemma strict_solve_2d s w (convs : seq (conv3 (ff_y s * ff_x s))) r infos :
  physical s -> is_real (psi s) -> (0 < w)%coqR -> (forall t, List.In t (thickness s) -> (0 <= t)%coqR) ->
  (forall c, List.In c (used s convs) -> passive_convs c) -> has_absorber convs (thickness s) ->
  solve_2d pinv eig false s w convs = Some (r, infos) -> power_lost3 r.
Proof.
move=> hp [ps hps] hw ht hc hab hs; case: (hp) => -[nt h0 h1] [th h2 h3] _ _ _.
have c0 := cos_pos_below h2; have hk := k0_pos hw.
have [dc [ds hd]] := directions_exist w hp.
have [k1 k2 k3] := bvp_solve_2d heig hp hs hd.
have hr (i : nat) : is_real (kx_tiled s w i) /\ is_real (ky_tiled s w i) by split; [exact: (kx_real w hp _).1|exact: (kx_real w hp _).2].
have hm : kz_of (RtoC nt) (kx_tiled s w ((ff_y s * ff_x s) %/ 2)%N) (ky_tiled s w ((ff_y s * ff_x s) %/ 2)%N) = RtoC (nt * cos th).
  case: hp => _ _ hf _ _; have [f hf'] := phi_real hf; have [_ _ hc'] := tiled_phys w h1 h3 h2 hf'; exact: kz2_center.
move: hs; rewrite /solve_2d; case e: (layers_of _ _) => [ls|] // hs.
have [x1 x2 x3] := rcwa_2d_inv hs.
rewrite h1 h3 ?hps in k1 k2 k3 x1 x2 x3.
have hn : (0 < ff_y s * ff_x s)%N by rewrite muln_gt0.
have hx (i : 'I_(ff_y s * ff_x s)) := (hr i).1; have hy (i : 'I_(ff_y s * ff_x s)) := (hr i).2.
split.
- exact (strict_inc hn h0 c0 hk hx hy hd hm ht hc hab x1 k1).
- exact (strict_inc hn h0 c0 hk hx hy hd hm ht hc hab x2 k2).
- exact (strict_inc hn h0 c0 hk hx hy hd hm ht hc hab x3 k3).
Qed.

Lemma strict_solve_conical s w (convs : seq (conv3 (ff_y s * ff_x s))) r infos :
  physical s -> is_real (psi s) -> (0 < w)%coqR -> (forall t, List.In t (thickness s) -> (0 <= t)%coqR) ->
  (forall c, List.In c (used s convs) -> passive_convs c /\ line_convs c) -> has_absorber convs (thickness s) ->
  solve_1d_conical pinv eig false s w convs = Some (r, infos) -> power_lost3 r.
Proof.
move=> hp [ps hps] hw ht hcl hab hs; case: (hp) => -[nt h0 h1] [th h2 h3] _ _ _.
have c0 := cos_pos_below h2; have hk := k0_pos hw.
have hc c : List.In c (used s convs) -> passive_convs c by move/hcl => [].
have hl c : List.In c (used s convs) -> line_convs c by move/hcl => [].
have [dc [ds hd]] := directions_exist w hp.
have [k1 k2 k3] := bvp_solve_conical heig hp hl hs hd.
have hr (i : nat) : is_real (kx_tiled s w i) /\ is_real (ky_tiled s w i) by split; [exact: (kx_real w hp _).1|exact: (kx_real w hp _).2].
have hm : kz_of (RtoC nt) (kx_tiled s w ((ff_y s * ff_x s) %/ 2)%N) (ky_tiled s w ((ff_y s * ff_x s) %/ 2)%N) = RtoC (nt * cos th).
  case: hp => _ _ hf _ _; have [f hf'] := phi_real hf; have [_ _ hc'] := tiled_phys w h1 h3 h2 hf'; exact: kz2_center.
move: hs; rewrite /solve_1d_conical; case: eqP => // _; case e: (layers_of _ _) => [ls|] // hs.
have [x1 x2 x3] := rcwa_conical_inv hs.
rewrite h1 h3 ?hps in k1 k2 k3 x1 x2 x3.
have hn : (0 < ff_y s * ff_x s)%N by rewrite muln_gt0.
have hx (i : 'I_(ff_y s * ff_x s)) := (hr i).1; have hy (i : 'I_(ff_y s * ff_x s)) := (hr i).2.
split.
- exact (strict_inc hn h0 c0 hk hx hy hd hm ht hc hab x1 k1).
- exact (strict_inc hn h0 c0 hk hx hy hd hm ht hc hab x2 k2).
- exact (strict_inc hn h0 c0 hk hx hy hd hm ht hc hab x3 k3).
Qed.
End Solve.
