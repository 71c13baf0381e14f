(** The power balance of the conical and 2D solvers, and the sign of the dissipated power. *)
From Coq Require Import Reals Lra Psatz.
From mathcomp Require Import all_ssreflect ssralg matrix.
From Coquelicot Require Import Rcomplements Complex Hierarchy Continuity Derive RInt RInt_analysis.
From Verif Require Import Cplx Mx Spec SpecSolve SpecField SpecPassive ModelTM ModelField ProofFlux ProofEnergy1D ProofEnergy2D
  ProofSetup ProofEff ProofFilmSolve ProofNormal ProofField ProofBVP ProofBVP2 ProofFieldSolve ProofPassive.

Set Implicit Arguments.
Unset Strict Implicit.
Unset Printing Implicit Defensive.
Local Open Scope ring_scope.
Import GRing.Theory.

(** ** The dissipation density *)
Definition dg n (k : nat -> C) (a : 'cV[C]_n) : 'cV[C]_n := \col_i (k i * a i ord0).
Lemma dgB n k (a b : 'cV[C]_n) : dg k (a - b) = dg k a - dg k b.
Proof. by apply/colP => i; rewrite !mxE mulrBr. Qed.
Lemma dg_swap n k k' (a : 'cV[C]_n) : dg k (dg k' a) = dg k' (dg k a).
Proof. by apply/colP => i; rewrite !mxE mulrCA. Qed.
Lemma tkE n ka kb (ez : 'M[C]_n) a : tk ka kb ez *m a = dg ka (ez *m dg kb a).
Proof.
apply/colP => i; rewrite !mxE mulr_sumr; apply: eq_bigr => j _; by rewrite !mxE -!mulrA.
Qed.
Lemma dkE n ka kb (a : 'cV[C]_n) : dk n ka kb *m a = dg ka (dg kb a).
Proof.
apply/colP => i; rewrite !mxE -(sum_pick i (fun j => ka i * (kb i * a j ord0))); apply: eq_bigr => j _.
by rewrite !mxE; case: eqP => [->|_]; rewrite ?mul0r ?mulrA.
Qed.
Lemma dot_dg n (a b : 'cV[C]_n) (k : nat -> C) : (forall i : 'I_n, is_real (k i)) -> dot a (dg k b) = dot (dg k a) b.
Proof. exact: dot_diag. Qed.
Lemma dotBr n (a b c : 'cV[C]_n) : dot a (b - c) = dot a b - dot a c.
Proof. by rewrite dotDr dotNr. Qed.
Lemma Im_dot_sym n (a b : 'cV[C]_n) : Im (dot a b) = (- Im (dot b a))%coqR.
Proof. by rewrite -dot_conj. Qed.

Lemma loss_sp n (k0 : R) (kx ky : nat -> C) (c : conv3 n) d f z :
  (forall i : 'I_n, is_real (kx i)) -> (forall i : 'I_n, is_real (ky i)) ->
  loss (- Jxy n) k0 (medium_sp kx ky c d) f z = joule_sp k0 kx ky c f z.
Proof.
case: c => [[ex ey] ez] hx hy; rewrite /loss /medium_sp /joule_sp; cbn [m_P m_Q].
congr (_ * _)%coqR; rewrite ImD !quadE.
rewrite -{1 2}(vsubmxK (f.2 z)) -{1 2}(vsubmxK (f.1 z)).
set a := usubmx (f.1 z); set b := dsubmx (f.1 z).
have -> : (\col_i (kx i * f.2 z (rshift n i) ord0 - ky i * f.2 z (lshift n i) ord0)) =
  dg kx (dsubmx (f.2 z)) - dg ky (usubmx (f.2 z)) by apply/colP => i; rewrite !mxE.
set p := usubmx (f.2 z); set q := dsubmx (f.2 z); set w := dg kx q - dg ky p.
have eS (x y : 'cV[C]_n) : - Jxy n *m col_mx x y = col_mx (- y) x.
  by rewrite /Jxy mulNmx mul_block_col !mul0mx mulNmx !mul1mx add0r addr0 opp_col_mx opprK.
have eP : e_from_h kx ky (ex, ey, ez) *m col_mx p q = col_mx (dg kx (ez *m w) - q) (p + dg ky (ez *m w)).
  rewrite /e_from_h mul_block_col !mulmxBl !mulNmx !mul1mx !tkE /w mulmxBr !dgB.
  congr col_mx; by rewrite ?addrA ?[- _ + _]addrC // -!addrA; congr (_ + _); rewrite addrC.
have eQ : h_from_e kx ky (ex, ey, ez) *m col_mx a b =
  col_mx (dg kx (dg kx b) - ey *m b - dg kx (dg ky a)) (ex *m a - dg ky (dg ky a) + dg kx (dg ky b)).
  rewrite /h_from_e mul_block_col !mulmxBl !mulNmx !dkE; congr col_mx; first by rewrite addrC.
  by rewrite (dg_swap kx).
rewrite eP eQ !eS !dot_col !(dotBr, dotDr, dotNr).
have r1 (x : 'cV[C]_n) : Im (dot x (dg kx (dg kx x))) = 0%coqR by rewrite dot_dg // Im_dot_self.
have r2 (x : 'cV[C]_n) : Im (dot x (dg ky (dg ky x))) = 0%coqR by rewrite dot_dg // Im_dot_self.
have r3 : Im (dot b (dg kx (dg ky a))) = (- Im (dot a (dg kx (dg ky b))))%coqR.
  by rewrite Im_dot_sym dot_dg // dg_swap -dot_dg // dot_dg // -dot_dg // dg_swap.
have e1 : Im (dot (dg kx (ez *m w) - q) q) = (- Im (dot (dg kx q) (ez *m w)))%coqR.
  by rewrite Im_dot_sym dotBr ImB Im_dot_self dot_dg // Rminus_0_r.
have e2 : Im (dot (p + dg ky (ez *m w)) p) = (- Im (dot (dg ky p) (ez *m w)))%coqR.
  by rewrite Im_dot_sym dotDr ImD Im_dot_self dot_dg // Rplus_0_l.
have e3 : Im (dot w (ez *m w)) = (Im (dot (dg kx q) (ez *m w)) - Im (dot (dg ky p) (ez *m w)))%coqR.
  by rewrite Im_dot_sym /w dotBr ImB -/w (Im_dot_sym (dg kx q)) (Im_dot_sym (dg ky p)); lra.
rewrite !(ImD, ImN, ImB) e1 e2 e3 r1 r2 r3; lra.
Qed.

(** ** The flow outside *)
Lemma Im_sum n (f : 'I_n -> C) : Im (\sum_i f i) = total (fun i => Im (f i)).
Proof. by rewrite /total (big_morph Im ImD Im0). Qed.
Lemma total_add n (f g : 'I_n -> R) : total (fun i => f i + g i)%coqR = (total f + total g)%coqR.
Proof. by apply: RtoC_inj; rewrite RtoC_add !sumRC -big_split; apply: eq_bigr => i _; rewrite RtoC_add. Qed.
Lemma total_opp n (f : 'I_n -> R) : total (fun i => - f i)%coqR = (- total f)%coqR.
Proof. by apply: RtoC_inj; rewrite RtoC_opp !sumRC -sumrN; apply: eq_bigr => i _; rewrite RtoC_opp. Qed.
Lemma total_pick n (k : nat) (x : R) : (k < n)%N -> total (fun i : 'I_n => if i == k :> nat then x else 0%coqR) = x.
Proof.
move=> h; apply: RtoC_inj; rewrite sumRC (bigD1 (Ordinal h)) //= eqxx big1 ?addr0 // => i ne.
by case: eqP => // e; case/eqP: ne; apply: val_inj.
Qed.

Lemma flow_rot n (dc ds : nat -> C) (es ep hs hp : 'I_n -> C) :
  (forall i : 'I_n, [/\ dc i ^+ 2 + ds i ^+ 2 = 1, is_real (dc i) & is_real (ds i)]) ->
  flow (- Jxy n) (e_xy dc ds es ep, h_xy dc ds hs hp) =
  total (fun i => Im (conj (es i) * hs i)%R - Im (conj (ep i) * hp i)%R)%coqR.
Proof.
move=> hd; rewrite /flow /e_xy /h_xy [(_, _).1]/= [(_, _).2]/=.
rewrite /Jxy mulNmx mul_block_col !mul0mx mulNmx !mul1mx add0r addr0 opp_col_mx opprK dot_col /dot -big_split Im_sum.
apply: total_ext => i; rewrite !mxE -ImB; congr Im.
have [e /real_conj ec /real_conj es'] := hd i; rewrite !(conjD, conjB, conjN, conjM) ec es'.
transitivity ((dc i ^+ 2 + ds i ^+ 2) * (conj (es i) * hs i - conj (ep i) * hp i)); last by rewrite e mul1r.
rewrite !expr2 /=; mring.
Qed.

Section BalanceSP.
Variables (n : nat) (nt th psi : R) (nb : C) (kx ky dc ds : nat -> C).
Hypotheses (hn : (0 < n)%N) (hnt : (0 < nt)%coqR).
Hypothesis hc : kz_of (RtoC nt) (kx (n %/ 2)%N) (ky (n %/ 2)%N) = RtoC (nt * cos th).
Hypothesis hd : forall i : 'I_n, [/\ dc i ^+ 2 + ds i ^+ 2 = 1, is_real (dc i) & is_real (ds i)].

Lemma flow_above_sp (Rs Rp : 'cV[C]_n) :
  flow (- Jxy n) (above_sp (RtoC nt) (RtoC th) (RtoC psi) kx ky dc ds Rs Rp) =
  (- (nt * cos th) + total (fun i : 'I_n => (nrm2 (Rs i ord0) + nrm2 (Rp i ord0) / (nt * nt)) *
                                            Re (kz_of (RtoC nt) (kx i) (ky i))))%coqR.
Proof.
rewrite /above_sp flow_rot // -(total_pick (- (nt * cos th))%coqR (ltn_Pdiv (isT : 1 < 2)%N hn)) -total_add.
apply: total_ext => i; case: eqP => e.
- rewrite !mulr1 e hc; move: (Rs i ord0) (Rp i ord0) => [a b] [c d].
  have -> : ci / RtoC nt ^+ 2 = ci * RtoC (/ (nt * nt)) by rewrite expr2 -RtoC_mul -RtoC_inv //; nra.
  rewrite csin_real !ccos_real /nrm2 /ci /conj /RtoC /Im /Re /=.
  have := sin2_cos2 psi; rewrite /Rsqr => e2.
  transitivity (- (nt * cos th * (sin psi * sin psi + cos psi * cos psi)) +
    (a * a + b * b + (c * c + d * d) / (nt * nt)) * (nt * cos th))%coqR; last by rewrite e2; ring.
  by field; lra.
- rewrite !mulr0 !add0r oppr0 !sub0r Rplus_0_l; move: (kz_of _ _ _) (Rs i ord0) (Rp i ord0) => [x y] [a b] [c d].
  have -> : ci / RtoC nt ^+ 2 = ci * RtoC (/ (nt * nt)) by rewrite expr2 -RtoC_mul -RtoC_inv //; nra.
  rewrite /nrm2 /ci /conj /RtoC /Im /Re /=; by field; lra.
Qed.

Lemma flow_below_sp (Ts Tp : 'cV[C]_n) :
  flow (- Jxy n) (below_sp nb kx ky dc ds Ts Tp) =
  (- total (fun i : 'I_n => nrm2 (Ts i ord0) * Re (kz_of nb (kx i) (ky i)) +
                            nrm2 (Tp i ord0) * Re (kz_of nb (kx i) (ky i) / nb ^+ 2)%R))%coqR.
Proof.
rewrite /below_sp flow_rot // -total_opp; apply: total_ext => i.
have -> : ci / nb ^+ 2 * kz_of nb (kx i) (ky i) = ci * (kz_of nb (kx i) (ky i) / nb ^+ 2) by rewrite mulrAC -mulrA.
set q := kz_of _ _ _ / _; move: q (kz_of _ _ _) (Ts i ord0) (Tp i ord0) => [u v] [x y] [a b] [c d].
rewrite /nrm2 /ci /conj /RtoC /Im /Re /=; ring.
Qed.
End BalanceSP.

Lemma eff_amp_sp n (r : diffraction n) kzt kzb (nt th : R) nb : (0 < nt)%coqR -> (0 < cos th)%coqR ->
  extracted r kzt kzb (RtoC th) (RtoC nt) nb -> forall i,
  de_ri r i = ((nrm2 (R_s r i ord0) + nrm2 (R_p r i ord0) / (nt * nt)) * Re (kzt i) * / (nt * cos th))%coqR /\
  de_ti r i = ((nrm2 (T_s r i ord0) * Re (kzb i) + nrm2 (T_p r i ord0) * Re (kzb i / nb ^+ 2)%R) * / (nt * cos th))%coqR.
Proof.
move=> h0 c0 [RT [T ->]] i; have kc0 := Rmult_lt_0_compat _ _ h0 c0; have n2 := Rmult_lt_0_compat _ _ h0 h0.
rewrite /extract_sp ccos_real expr2 -!RtoC_mul.
cbn [fst de_ri de_ti de_ri_s de_ri_p R_s R_p T_s T_p].
rewrite !de_form !Re_divR; try lra.
Qed.

Section BalanceSolve.
Variable pinv : forall n, 'M[C]_n -> 'M[C]_n.
Variable eig : forall n, 'M[C]_n -> 'rV[C]_n * 'M[C]_n.
Hypothesis heig : eigen_oracle eig.

Lemma balance_inc n k0 (nt th : R) nb (psi : R) (kx ky dc ds : nat -> C) (cs : seq (conv3 n)) ts (d : diffraction n) fs :
  (0 < n)%N -> (0 < nt)%coqR -> (0 < cos th)%coqR ->
  (forall i : 'I_n, is_real (kx i)) -> (forall i : 'I_n, is_real (ky i)) -> directions n kx ky dc ds ->
  kz_of (RtoC nt) (kx (n %/ 2)%N) (ky (n %/ 2)%N) = RtoC (nt * cos th) ->
  (size ts <= size cs)%N -> (forall t, List.In t ts -> (0 <= t)%coqR) ->
  extracted d (kz_2d (RtoC nt) kx ky) (kz_2d nb kx ky) (RtoC th) (RtoC nt) nb ->
  solution_sp k0 (media_sp kx ky cs ts) (RtoC nt) nb (RtoC th) (RtoC psi) kx ky dc ds d fs ->
  exists2 a, dissipated (joule_sp k0 kx ky) cs ts fs a & power_balance (nt * cos th) d a.
Proof.
move=> hn h0 c0 hx hy hd hc hsz ht hx4 [hb _].
have hd' : forall i : 'I_n, [/\ dc i ^+ 2 + ds i ^+ 2 = 1, is_real (dc i) & is_real (ds i)] by move=> i; case: (hd i).
have := flow_stack (- Jxy n) _ hb; rewrite media_sp_d // => H; have {H} := H _.
set a := (flow _ _ - _)%coqR => H.
exists a.
- apply: dissipated_map (H _).
  + by rewrite -(size_map (@m_d _)) media_sp_d.
  + exact: hsz.
  + move=> k l l' e e' f z; have [t ->] := media_sp_nth e e'; exact: loss_sp.
  + move=> l hl; apply: ht; rewrite -(media_sp_d kx ky hsz); exact: List.in_map.
rewrite /power_balance /a flow_below_sp // flow_above_sp //.
set A := total (fun i => (_ + _) * _)%coqR; set B := total (fun i => _ + _)%coqR.
have he := eff_amp_sp h0 c0 hx4.
have -> : total (de_ri d) = (A * / (nt * cos th))%coqR.
  by rewrite -total_scale; apply: total_ext => i; have [-> _] := he i; rewrite kz_2dE.
have -> : total (de_ti d) = (B * / (nt * cos th))%coqR.
  by rewrite -total_scale; apply: total_ext => i; have [_ ->] := he i; rewrite kz_2dE.
have kc0 := Rmult_lt_0_compat _ _ h0 c0; move: (nt * cos th)%coqR kc0 => p hp; field; lra.
Qed.

Lemma balance_solve_2d s w (convs : seq (conv3 (ff_y s * ff_x s))) r infos (nt th : R) :
  physical s -> is_real (psi s) -> n_top s = RtoC nt -> theta s = RtoC th -> (0 <= th < PI / 2)%coqR ->
  (forall t, List.In t (thickness s) -> (0 <= t)%coqR) ->
  solve_2d pinv eig false s w convs = Some (r, infos) ->
  let kx := kx_tiled s w in let ky := ky_tiled s w in
  balance3 (joule_sp (k0_of w) kx ky) convs (thickness s) (nt * cos th) r (fun t => field_profiles_2d (k0_of w) kx ky t infos).
Proof.
move=> hp [ps hps] h1 h3 h2 ht hs kx ky.
have h0 : (0 < nt)%coqR by case: hp => -[x hx ex] *; move: ex; rewrite h1 => -[->].
have c0 := cos_pos_below h2.
have [dc [ds hd]] := directions_exist w hp.
have [k1 k2 k3] := bvp_solve_2d heig hp hs hd.
have hr (i : nat) : is_real (kx i) /\ is_real (ky i) by split; [exact: (kx_real w hp _).1|exact: (kx_real w hp _).2].
have hc : kz_of (RtoC nt) (kx ((ff_y s * ff_x s) %/ 2)%N) (ky ((ff_y s * ff_x s) %/ 2)%N) = RtoC (nt * cos th).
  case: hp => _ _ hf _ _; have [f hf'] := phi_real hf; have [_ _ hc] := tiled_phys w h1 h3 h2 hf'; exact: kz2_center.
move: hs; rewrite /solve_2d; case e: (layers_of _ _) => [ls|] // hs.
have hsz := layers_size e; have [x1 x2 x3] := rcwa_2d_inv hs.
rewrite h1 h3 ?hps in k1 k2 k3 x1 x2 x3.
have hn : (0 < ff_y s * ff_x s)%N by rewrite muln_gt0.
by split; [apply: balance_inc x1 k1|apply: balance_inc x2 k2|apply: balance_inc x3 k3] => // i; have [] := hr i.
Qed.

Lemma balance_solve_conical s w (convs : seq (conv3 (ff_y s * ff_x s))) r infos (nt th : R) :
  physical s -> is_real (psi s) -> n_top s = RtoC nt -> theta s = RtoC th -> (0 <= th < PI / 2)%coqR ->
  (forall t, List.In t (thickness s) -> (0 <= t)%coqR) ->
  (forall c, List.In c (used s convs) -> line_convs c) ->
  solve_1d_conical pinv eig false s w convs = Some (r, infos) ->
  let kx := kx_tiled s w in let ky := ky_tiled s w in
  balance3 (joule_sp (k0_of w) kx ky) convs (thickness s) (nt * cos th) r
    (fun t => field_profiles_conical (k0_of w) kx ky t infos).
Proof.
move=> hp [ps hps] h1 h3 h2 ht hl hs kx ky.
have h0 : (0 < nt)%coqR by case: hp => -[x hx ex] *; move: ex; rewrite h1 => -[->].
have c0 := cos_pos_below h2.
have [dc [ds hd]] := directions_exist w hp.
have [k1 k2 k3] := bvp_solve_conical heig hp hl hs hd.
have hr (i : nat) : is_real (kx i) /\ is_real (ky i) by split; [exact: (kx_real w hp _).1|exact: (kx_real w hp _).2].
have hc : kz_of (RtoC nt) (kx ((ff_y s * ff_x s) %/ 2)%N) (ky ((ff_y s * ff_x s) %/ 2)%N) = RtoC (nt * cos th).
  case: hp => _ _ hf _ _; have [f hf'] := phi_real hf; have [_ _ hc] := tiled_phys w h1 h3 h2 hf'; exact: kz2_center.
move: hs; rewrite /solve_1d_conical; case: eqP => // _; case e: (layers_of _ _) => [ls|] // hs.
have hsz := layers_size e; have [x1 x2 x3] := rcwa_conical_inv hs.
rewrite h1 h3 ?hps in k1 k2 k3 x1 x2 x3.
have hn : (0 < ff_y s * ff_x s)%N by rewrite muln_gt0.
by split; [apply: balance_inc x1 k1|apply: balance_inc x2 k2|apply: balance_inc x3 k3] => // i; have [] := hr i.
Qed.

(** ** Without gain, no more power comes out than went in *)
Lemma dissipated_ge0 (L F : Type) (dens : L -> F -> R -> R) (ls : seq L) ds (fs : seq F) a :
  (forall d, List.In d ds -> (0 <= d)%coqR) ->
  (forall l, List.In l (take (size ds) ls) -> forall f z, (0 <= dens l f z)%coqR) ->
  dissipated dens ls ds fs a -> (0 <= a)%coqR.
Proof.
elim: ds ls fs a => [|d ds IH] [|l ls] [|f fs] a //= hd hl; try by move=> ->; exact: Rle_refl.
move=> [b [c [h1 h2 ->]]]; apply: Rplus_le_le_0_compat.
  by apply: (is_RInt_ge_0 _ _ _ _ _ h1) => [|z _]; [apply: hd; left|apply: hl; left].
by apply: IH h2 => [x hx|x hx f' z]; [apply: hd; right|apply: hl; right].
Qed.

Lemma joule_1d_ge0 n tm k0 kx (c : conv3 n) f z : (0 <= k0)%coqR -> passive_convs c -> (0 <= joule_1d tm k0 kx c f z)%coqR.
Proof.
case: c => [[ex ey] ez] hk h; rewrite /joule_1d; case: tm; apply: Rmult_le_pos => //.
  have [a _ _] := h (f.2 z); have [_ _ b] := h (\col_i (kx i * f.1 z i ord0)); lra.
have [_ a _] := h (f.1 z); lra.
Qed.
Lemma joule_sp_ge0 n k0 kx ky (c : conv3 n) f z : (0 <= k0)%coqR -> passive_convs c -> (0 <= joule_sp k0 kx ky c f z)%coqR.
Proof.
case: c => [[ex ey] ez] hk h; rewrite /joule_sp; apply: Rmult_le_pos => //.
have [a _ _] := h (usubmx (f.1 z)); have [_ b _] := h (dsubmx (f.1 z)).
set dz := \col_i _; have [_ _ c] := h dz; lra.
Qed.

Lemma k0_ge0 w : (0 < w)%coqR -> (0 <= k0_of w)%coqR.
Proof. by move=> h; rewrite /k0_of; have := PI_RGT_0 => hp; apply: Rlt_le; apply: Rdiv_lt_0_compat => //; lra. Qed.

Lemma balance_bounded n (r : diffraction n) p a : (0 < p)%coqR -> (0 <= a)%coqR -> power_balance p r a -> power_bounded r.
Proof.
move=> hp ha; rewrite /power_balance /power_bounded => <-.
have : (0 <= a / p)%coqR by apply: Rdiv_le_0_compat.
lra.
Qed.

Lemma passive_solve_1d s w (convs : seq (conv3 (ff_x s))) r T1 infos :
  physical s -> phi s = None -> (0 < w)%coqR -> (forall t, List.In t (thickness s) -> (0 <= t)%coqR) ->
  (forall c, List.In c (used s convs) -> passive_convs c) ->
  solve_1d pinv eig false s w convs = Some (r, T1, infos) -> power_bounded r.
Proof.
move=> hp hf hw ht hc hs; case: (hp) => -[nt h0 h1] [th h2 h3] _ _ _.
have [a ha hb] := balance_1d heig hp hf h1 h3 h2 ht hs; have c0 := cos_pos_below h2.
apply: balance_bounded hb.
  by rewrite /incident_power; case: (is_tm _); [apply: Rdiv_lt_0_compat|apply: Rmult_lt_0_compat].
apply: dissipated_ge0 ha => // c hcc f z; apply: joule_1d_ge0; [exact: k0_ge0|exact: hc].
Qed.

Lemma balance3_bounded n dens (cs : seq (conv3 n)) ts p (r : sp_result n) fields : (0 < p)%coqR ->
  (forall d, List.In d ts -> (0 <= d)%coqR) ->
  (forall l, List.In l (take (size ts) cs) -> forall f z, (0 <= dens l f z)%coqR) ->
  balance3 dens cs ts p r fields -> power_bounded3 r.
Proof.
move=> hp ht hd [[a1 a2 a3] [b1 b2 b3] [c1 c2 c3]]; split.
- by apply: balance_bounded a3 => //; apply: dissipated_ge0 a2.
- by apply: balance_bounded b3 => //; apply: dissipated_ge0 b2.
- by apply: balance_bounded c3 => //; apply: dissipated_ge0 c2.
Qed.

Lemma passive_solve_2d s w (convs : seq (conv3 (ff_y s * ff_x s))) r infos :
  physical s -> is_real (psi s) -> (0 < w)%coqR -> (forall t, List.In t (thickness s) -> (0 <= t)%coqR) ->
  (forall c, List.In c (used s convs) -> passive_convs c) ->
  solve_2d pinv eig false s w convs = Some (r, infos) -> power_bounded3 r.
Proof.
move=> hp hps hw ht hc hs; case: (hp) => -[nt h0 h1] [th h2 h3] _ _ _; have c0 := cos_pos_below h2.
apply: balance3_bounded (balance_solve_2d hp hps h1 h3 h2 ht hs) => //; first exact: Rmult_lt_0_compat.
by move=> c hcc f z; apply: joule_sp_ge0; [exact: k0_ge0|exact: hc].
Qed.

Lemma passive_solve_conical s w (convs : seq (conv3 (ff_y s * ff_x s))) r infos :
  physical s -> is_real (psi s) -> (0 < w)%coqR -> (forall t, List.In t (thickness s) -> (0 <= t)%coqR) ->
  (forall c, List.In c (used s convs) -> passive_convs c /\ line_convs c) ->
  solve_1d_conical pinv eig false s w convs = Some (r, infos) -> power_bounded3 r.
Proof.
move=> hp hps hw ht hc hs; case: (hp) => -[nt h0 h1] [th h2 h3] _ _ _; have c0 := cos_pos_below h2.
have hl c : List.In c (used s convs) -> line_convs c by move=> /hc [].
apply: balance3_bounded (balance_solve_conical hp hps h1 h3 h2 ht hl hs) => //; first exact: Rmult_lt_0_compat.
by move=> c /hc [hc1 _] f z; apply: joule_sp_ge0; [exact: k0_ge0|].
Qed.
End BalanceSolve.
