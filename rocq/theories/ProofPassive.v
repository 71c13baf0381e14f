(** The power balance inside the stack. *)
From Coq Require Import Reals Lra Psatz.
From mathcomp Require Import all_ssreflect ssralg matrix.
From Coquelicot Require Import Complex Hierarchy Continuity Derive RInt RInt_analysis.
From Verif Require Import Cplx Mx Spec SpecSolve SpecField SpecPassive ModelTM ModelField ProofFlux ProofEnergy1D ProofEnergy2D
  ProofSetup ProofEff ProofFilmSolve ProofNormal ProofField ProofBVP ProofBVP2 ProofFieldSolve.

Set Implicit Arguments.
Unset Strict Implicit.
Unset Printing Implicit Defensive.
Local Open Scope ring_scope.
Import GRing.Theory.

(** ** Integral of a derivative, known inside only *)
Definition clamp (d z : R) : R := Rmax 0 (Rmin z d).
Lemma clamp_in d z : (0 <= d)%coqR -> (0 <= clamp d z <= d)%coqR.
Proof. by move=> h; rewrite /clamp; split; [exact: Rmax_l|apply: Rmax_lub => //; exact: Rmin_r]. Qed.
Lemma clamp_id d z : (0 <= z <= d)%coqR -> clamp d z = z.
Proof. by move=> [h1 h2]; rewrite /clamp Rmin_left // Rmax_right. Qed.
Lemma clamp_lip d x y : (Rabs (clamp d x - clamp d y) <= Rabs (x - y))%coqR.
Proof.
rewrite /clamp /Rmin; case: (Rle_dec x d) => ?; case: (Rle_dec y d) => ?; rewrite /Rmax;
repeat match goal with |- context [Rle_dec ?a ?b] => destruct (Rle_dec a b) end; rewrite /Rabs;
repeat match goal with |- context [Rcase_abs ?a] => destruct (Rcase_abs a) end; lra.
Qed.
Lemma clamp_cont d z : continuous (clamp d) z.
Proof.
apply/continuity_pt_filterlim => e he; exists e; split=> // x [_ hx].
rewrite /= /R_dist in hx *; apply: Rle_lt_trans hx; exact: clamp_lip.
Qed.

Lemma RInt_deriv (f g : R -> R) d : (0 <= d)%coqR ->
  (forall z, (0 < z < d)%coqR -> is_derive f z (g z)) ->
  (forall z, (0 <= z <= d)%coqR -> continuous f z) -> (forall z, (0 <= z <= d)%coqR -> continuous g z) ->
  is_RInt g 0 d (f d - f 0)%coqR.
Proof.
move=> d0 h1 h2 h3.
pose g' z := g (clamp d z).
have c' z : continuous g' z.
  by apply: (continuous_comp (clamp d) g); [exact: clamp_cont|apply: h3; exact: clamp_in].
have i' a b : ex_RInt g' a b by apply: (@ex_RInt_continuous R_CompleteNormedModule) => z _; exact: c'.
pose G x := RInt g' 0 x.
have dG x : is_derive G x (g' x).
  by apply: (@is_derive_RInt R_CompleteNormedModule g' G 0 x); [exists (mkposreal _ Rlt_0_1) => y _; exact: RInt_correct|exact: c'].
have e : (f d - G d = f 0 - G 0)%coqR.
  apply: (@const_of_deriv (fun z => f z - G z)%coqR) => // z hz.
  - have := @is_derive_minus R_AbsRing R_NormedModule f G z _ _ (h1 z hz) (dG z).
    by rewrite /g' clamp_id; [rewrite /minus /plus /opp /= Rplus_opp_r|lra].
  - apply: (@continuous_minus R_UniformSpace R_AbsRing R_NormedModule f G z); first exact: h2.
    apply: (@ex_derive_continuous R_AbsRing R_NormedModule); by exists (g' z).
have G0 : G 0%coqR = 0%coqR by rewrite /G RInt_point.
have -> : (f d - f 0 = G d)%coqR by lra.
apply: (@is_RInt_ext R_NormedModule g'); last exact: RInt_correct.
by move=> x; rewrite Rmin_left // Rmax_right // => hx; rewrite /g' clamp_id //; lra.
Qed.

(** ** Inner products *)
Definition dot n (a b : 'cV[C]_n) : C := \sum_i conj (a i ord0) * b i ord0.

Lemma dotE n (a b : 'cV[C]_n) : (adj a *m b) ord0 ord0 = dot a b.
Proof. exact: dot_sum. Qed.
Lemma dot_conj n (a b : 'cV[C]_n) : conj (dot a b) = dot b a.
Proof. by rewrite /dot rmorph_sum; apply: eq_bigr => i _; rewrite rmorphM /= conjK mulrC. Qed.
Lemma dotDr n (a b c : 'cV[C]_n) : dot a (b + c) = dot a b + dot a c.
Proof. by rewrite /dot -big_split; apply: eq_bigr => i _; rewrite mxE mulrDr. Qed.
Lemma dotNr n (a b : 'cV[C]_n) : dot a (- b) = - dot a b.
Proof. by rewrite /dot -sumrN; apply: eq_bigr => i _; rewrite mxE mulrN. Qed.
Lemma dotZr n (a b : 'cV[C]_n) k : dot a (k *: b) = k * dot a b.
Proof. by rewrite /dot mulr_sumr; apply: eq_bigr => i _; rewrite mxE mulrCA. Qed.
Lemma dotZl n (a b : 'cV[C]_n) k : dot (k *: a) b = conj k * dot a b.
Proof. by rewrite -dot_conj dotZr conjM dot_conj. Qed.
Lemma Im_dot_self n (a : 'cV[C]_n) : Im (dot a a) = 0%coqR.
Proof. by have := congr1 Im (dot_conj a a); rewrite Im_conj => h; lra. Qed.
Lemma quadE n (A : 'M[C]_n) v : quad A v = dot v (A *m v).
Proof.
by rewrite /quad /dot; apply: eq_bigr => i _; rewrite mxE mulr_sumr; apply: eq_bigr => j _; rewrite mulrA.
Qed.
Lemma dot_col n m (a a' : 'cV[C]_n) (b b' : 'cV[C]_m) : dot (col_mx a b) (col_mx a' b') = dot a a' + dot b b'.
Proof. by rewrite -!dotE adj_col mul_row_col mxE. Qed.

Lemma skew_Im n (f g : 'cV[C]_n) : (adj f *m g - adj g *m f) ord0 ord0 = 2%:R * ci * RtoC (Im (dot f g)).
Proof.
rewrite mxE [X in _ + X]mxE !dotE -(dot_conj f g); case: (dot f g) => x y.
rewrite -[2%:R]/(1 + 1); apply: Cext; rewrite !(ReD, ImD, ReM, ImM, ReN, ImN, Re_conj, Im_conj, Re_RtoC, Im_RtoC) /Re /Im /=; ring.
Qed.

Lemma cderiv_conj f z l : cderiv f z l -> cderiv (fun t => conj (f t)) z (conj l).
Proof. by move=> [h1 h2]; split; [exact: h1|exact: (@is_derive_opp R_AbsRing R_NormedModule _ _ _ h2)]. Qed.
Lemma ccont_conj f z : ccont f z -> ccont (fun t => conj (f t)) z.
Proof. by move=> [h1 h2]; split; [exact: h1|exact: (@continuous_opp R_UniformSpace R_AbsRing R_NormedModule _ _ h2)]. Qed.

Lemma cderiv_dot n (u v : R -> 'cV[C]_n) z l k : vderiv u z l -> vderiv v z k ->
  cderiv (fun t => dot (u t) (v t)) z (dot l (v z) + dot (u z) k).
Proof.
move=> hu hv; rewrite /dot -big_split; apply: cderiv_sum => i /=.
by apply: cderiv_mul (hv i); apply: cderiv_conj.
Qed.
Lemma ccont_dot n (u v : R -> 'cV[C]_n) z : vcont u z -> vcont v z -> ccont (fun t => dot (u t) (v t)) z.
Proof. by move=> hu hv; apply: ccont_sum => i; apply: ccont_mul (hv i); apply: ccont_conj. Qed.

(** ** One layer, and the stack *)
Section Flux.
Variables (m : nat) (S : 'M[C]_m) (k0 : R).

Definition flow (p : 'cV[C]_m * 'cV[C]_m) : R := Im (dot p.1 (S *m p.2)).
Definition loss (l : medium m) (f : profile_of m) (z : R) : R :=
  (k0 * Im (dot (m_P l *m f.2 z) (S *m f.2 z) + dot (f.1 z) (S *m (m_Q l *m f.1 z)))%R)%coqR.

Lemma flow_layer (l : medium m) u v : (0 <= m_d l)%coqR -> solves k0 l u v ->
  is_RInt (loss l (u, v)) 0 (m_d l) (flow (u (m_d l), v (m_d l)) - flow (u 0%coqR, v 0%coqR))%coqR.
Proof.
move=> d0 [h1 h2].
apply: (@RInt_deriv (fun z => flow (u z, v z))) => // z hz.
- have [hu hv] := h1 z hz.
  have [_] := cderiv_dot hu (vderiv_mulmx S hv).
  rewrite dotZl conjR -scalemxAr dotZr -mulrDr ImM Re_RtoC Im_RtoC Rmult_0_l Rplus_0_r; exact.
- by have [hu hv] := h2 z hz; have [] := ccont_dot hu (vcont_mulmx S hv).
- have [hu hv] := h2 z hz.
  have [_ h] : ccont (fun t => dot (m_P l *m v t) (S *m v t) + dot (u t) (S *m (m_Q l *m u t))) z.
    apply: ccont_add; apply: ccont_dot => //; repeat apply: vcont_mulmx => //.
  exact: (@continuous_scal_r R_UniformSpace R_AbsRing R_NormedModule k0 _ z h).
Qed.

Lemma flow_stack (ls : seq (medium m)) fs top bottom : (forall l, List.In l ls -> (0 <= m_d l)%coqR) ->
  boundary_value_problem k0 ls top fs bottom -> dissipated loss ls (map (@m_d m) ls) fs (flow bottom - flow top)%coqR.
Proof.
elim: ls fs top => [|l ls IH] [|[u v] fs] top hd [] //=; first by move=> -> _; rewrite Rminus_diag_eq.
move=> [<- ht] [hs ha].
exists (flow (u (m_d l), v (m_d l)) - flow (u 0%coqR, v 0%coqR))%coqR, (flow bottom - flow (u (m_d l), v (m_d l)))%coqR.
split; [by apply: flow_layer hs; apply: hd; left|by apply: IH; [move=> a h; apply: hd; right|split]|ring].
Qed.
End Flux.

(** ** Classical mount *)
Lemma Im_conjE (x : C) : Im (conj x) = (- Im x)%coqR. Proof. by []. Qed.
Lemma Im0 : Im 0 = 0%coqR. Proof. by []. Qed.
Lemma ImB (x y : C) : Im (x - y) = (Im x - Im y)%coqR. Proof. by []. Qed.

Lemma real_conj x : is_real x -> conj x = x.
Proof. by case=> r ->; rewrite conjR. Qed.

Lemma dot_diag n (a b : 'cV[C]_n) (k : nat -> C) : (forall i : 'I_n, is_real (k i)) ->
  dot a (\col_i (k i * b i ord0)) = dot (\col_i (k i * a i ord0)) b.
Proof. by move=> hk; apply: eq_bigr => i _; rewrite !mxE conjM (real_conj (hk i)) mulrCA mulrA. Qed.

Lemma sum_pick n (i : 'I_n) (F : 'I_n -> C) : \sum_j (if i == j then F j else 0) = F i.
Proof. by rewrite (bigD1 i) //= eqxx big1 ?addr0 // => j ne; rewrite eq_sym (negbTE ne). Qed.

Lemma loss_1d n (tm : bool) (k0 : R) (kx : nat -> C) (c : conv3 n) d f z : (forall i : 'I_n, is_real (kx i)) ->
  loss 1%:M k0 (medium_1d tm kx c d) f z = joule_1d tm k0 kx c f z.
Proof.
case: c => [[ex ey] ez] hk; rewrite /loss /medium_1d /joule_1d !mul1mx; case: tm => /=.
- congr (_ * _)%coqR; rewrite ImD; congr (_ + _)%coqR.
    by rewrite quadE -(dot_conj (f.2 z)).
  set u := f.1 z.
  have -> : (\matrix_(i, j) (kx i * ez i j * kx j - (if i == j then 1 else 0))) *m u =
     (\col_i (kx i * (ez *m \col_j (kx j * u j ord0)) i ord0)) - u.
    apply/colP => i; rewrite !mxE mulr_sumr.
    rewrite (eq_bigr (fun j => kx i * (ez i j * (kx j * u j ord0)) - (if i == j then u j ord0 else 0))); last first.
      by move=> j _; rewrite !mxE mulrBl -!mulrA; case: eqP => _; rewrite ?mul1r ?mul0r.
    rewrite sumrB sum_pick.
    by congr (_ - _); apply: eq_bigr => j _; rewrite mxE.
  rewrite dotDr dotNr ImB Im_dot_self Rminus_0_r dot_diag //.
  by rewrite quadE.
- congr (_ * _)%coqR; rewrite mul1mx ImD Im_dot_self Rplus_0_l.
  set u := f.1 z.
  have -> : (\matrix_(i, j) ((if i == j then kx i ^+ 2 else 0) - ey i j)) *m u =
     (\col_i (kx i * (\col_i (kx i * u i ord0)) i ord0)) - ey *m u.
    apply/colP => i; rewrite !mxE.
    rewrite (eq_bigr (fun j => (if i == j then kx i ^+ 2 * u j ord0 else 0) - ey i j * u j ord0)); last first.
      by move=> j _; rewrite !mxE mulrBl; case: eqP => _; rewrite ?mul0r.
    rewrite sumrB sum_pick.
    by rewrite expr2 mulrA.
  by rewrite dotDr dotNr ImB dot_diag // Im_dot_self quadE /Rminus Rplus_0_l.
Qed.

Lemma dissipated_map (L L' F : Type) (dens : L -> F -> R -> R) (dens' : L' -> F -> R -> R) (ls : seq L) (ls' : seq L') ds fs a :
  size ds = size ls -> (size ds <= size ls')%N ->
  (forall k l l', List.nth_error ls k = Some l -> List.nth_error ls' k = Some l' -> forall f z, dens l f z = dens' l' f z) ->
  dissipated dens ls ds fs a -> dissipated dens' ls' ds fs a.
Proof.
elim: ds ls ls' fs a => [|d ds IH] [|l ls] [|l' ls'] [|f fs] a //= [hs] hs' he [b [c [h1 h2 h3]]].
exists b, c; split=> //; last by apply: (IH ls) => // k x x' hx hx'; exact: (he k.+1).
by apply: is_RInt_ext h1 => z _; exact: (he 0%N).
Qed.

Lemma layers_size n (cs : seq (conv3 n)) ts ls : layers_of cs ts = Some ls -> (size ts <= size cs)%N.
Proof.
elim: ts cs ls => [|t ts IH] [|[[ex ey] ez] cs] ls //=.
by case e: (layers_of cs ts) => [l|] // _; exact: IH e.
Qed.
Lemma media_1d_nth n tm kx (cs : seq (conv3 n)) ts k l c :
  List.nth_error (media_1d tm kx cs ts) k = Some l -> List.nth_error cs k = Some c -> exists d, l = medium_1d tm kx c d.
Proof.
elim: ts cs k => [|t ts IH] [|c0 cs] [|k] //=; last exact: IH.
by move=> [<-] [<-]; exists t.
Qed.
Lemma media_sp_nth n kx ky (cs : seq (conv3 n)) ts k l c :
  List.nth_error (media_sp kx ky cs ts) k = Some l -> List.nth_error cs k = Some c -> exists d, l = medium_sp kx ky c d.
Proof.
elim: ts cs k => [|t ts IH] [|c0 cs] [|k] //=; last exact: IH.
by move=> [<-] [<-]; exists t.
Qed.
Lemma media_1d_d n tm kx (cs : seq (conv3 n)) ts : (size ts <= size cs)%N -> map (@m_d n) (media_1d tm kx cs ts) = ts.
Proof. by elim: ts cs => [|t ts IH] [|[[ex ey] ez] cs] //= h; rewrite IH //; case: tm {IH}. Qed.
Lemma media_sp_d n kx ky (cs : seq (conv3 n)) ts : (size ts <= size cs)%N -> map (@m_d _) (media_sp kx ky cs ts) = ts.
Proof. by elim: ts cs => [|t ts IH] [|[[ex ey] ez] cs] //= h; rewrite IH. Qed.

Lemma two_i_inj (x y : R) : 2%:R * ci * RtoC x = 2%:R * ci * RtoC y -> x = y.
Proof. by move/(mulfI two_i_neq0)/RtoC_inj. Qed.

Lemma sumRC n (f : 'I_n -> R) : RtoC (total f) = \sum_(i < n) RtoC (f i).
Proof. by rewrite /total (big_morph RtoC RtoC_add (erefl (RtoC 0))). Qed.
Lemma total_scale n (f : 'I_n -> R) (k : R) : total (fun i => f i * k)%coqR = (total f * k)%coqR.
Proof. by apply: RtoC_inj; rewrite RtoC_mul !sumRC mulr_suml; apply: eq_bigr => i _; rewrite RtoC_mul. Qed.
Lemma total_ext n (f g : 'I_n -> R) : (forall i, f i = g i) -> total f = total g.
Proof. by move=> h; apply: eq_bigr => i _. Qed.

Section Balance1D.
Variables (n : nat) (tm : bool) (nt th : R) (nb : C) (kx : nat -> C).
Hypotheses (hn : (0 < n)%N) (hnt : (0 < nt)%coqR) (hth : (0 <= th < PI / 2)%coqR).
Hypothesis hc : kz_of (RtoC nt) (kx (n %/ 2)%N) 0 = RtoC (nt * cos th).
Let wt : R := if tm then (/ (nt * nt))%coqR else 1%coqR.

Lemma weigh_nt x : weigh tm (RtoC nt) x = RtoC wt * x.
Proof.
rewrite /weigh /wt; case: tm; last by rewrite mul1r.
by rewrite expr2 -RtoC_mul -RtoC_inv 1?mulrC //; nra.
Qed.

Lemma flow_above (Rv : 'cV[C]_n) :
  flow 1%:M (above_1d tm (RtoC nt) (RtoC th) kx Rv) =
  (- (wt * (nt * cos th - total (fun i : 'I_n => nrm2 (Rv i ord0) * Re (kz_of (RtoC nt) (kx i) 0)))))%coqR.
Proof.
rewrite /flow mul1mx; set f := (above_1d _ _ _ _ _).1; set v := (above_1d _ _ _ _ _).2.
have -> : Im (dot f v) = (- Im (dot f (- v)))%coqR by rewrite dotNr ImN Ropp_involutive.
congr (- _)%coqR; apply: two_i_inj; rewrite -skew_Im.
rewrite (@top_flux n nt th hn wt (fun i => kz_of (RtoC nt) (kx i) 0) Rv) //.
- rewrite (RtoC_mul wt) RtoC_sub sumRC !mulrA; congr (_ * (_ - _)).
  by apply: eq_bigr => i _; rewrite RtoC_mul.
- by move=> i; rewrite mxE cent addrC.
- move=> i; rewrite !mxE !weigh_nt ccos_real -RtoC_mul; case: eqP => _; mring.
Qed.

Lemma flow_below (Tv : 'cV[C]_n) :
  flow 1%:M (below_1d tm nb kx Tv) =
  (- total (fun i : 'I_n => nrm2 (Tv i ord0) * Re (weigh tm nb (kz_of nb (kx i) 0))))%coqR.
Proof.
rewrite /flow mul1mx; set v := (below_1d _ _ _ _).2; rewrite [(below_1d _ _ _ _).1]/=.
have -> : Im (dot Tv v) = (- Im (dot Tv (- v)))%coqR by rewrite dotNr ImN Ropp_involutive.
congr (- _)%coqR; apply: two_i_inj; rewrite -skew_Im.
rewrite (@weight_flux n (fun i => weigh tm nb (kz_of nb (kx i) 0))); last by move=> i; rewrite !mxE; mring.
by rewrite sumRC; congr (_ * _); apply: eq_bigr => i _; rewrite RtoC_mul.
Qed.
End Balance1D.

Lemma kx_real s w : physical s -> forall i, is_real (kx_vector s w i) /\ is_real (ky_vector s w i).
Proof.
move=> [[nt h0 h1] [th h2 h3] hp _ _] i; have [f hf] := phi_real hp; have [kxE kyE] := kx_phys w h1 h3 h2 hf.
by rewrite kxE kyE; split; eexists.
Qed.

Section Balance.
Variable pinv : forall n, 'M[C]_n -> 'M[C]_n.
Variable eig : forall n, 'M[C]_n -> 'rV[C]_n * 'M[C]_n.
Hypothesis heig : eigen_oracle eig.

Lemma kz_mid s w (nt th : R) : n_top s = RtoC nt -> (0 < nt)%coqR -> theta s = RtoC th -> (0 <= th < PI / 2)%coqR ->
  phi s = None -> kz_of (RtoC nt) (kx_vector s w (ff_x s %/ 2)%N) 0 = RtoC (nt * cos th).
Proof.
move=> h1 h0 h3 h2 hf; rewrite /kz_of expr0n subr0; apply: kz_center => //.
have [kxE _] := kx_phys (f := 0) w h1 h3 h2 (congr1 (fun o => if o is Some p then p else 0) hf).
by rewrite kxE /ff_x half_ff order_mid Rmult_0_l Rplus_0_r cos_0 Rmult_1_r.
Qed.

Lemma balance_1d s w (convs : seq (conv3 (ff_x s))) r T1 infos (nt th : R) :
  physical s -> phi s = None -> n_top s = RtoC nt -> theta s = RtoC th -> (0 <= th < PI / 2)%coqR ->
  (forall t, List.In t (thickness s) -> (0 <= t)%coqR) ->
  solve_1d pinv eig false s w convs = Some (r, T1, infos) ->
  let tm := is_tm (pol s) in let kx := kx_vector s w in
  exists2 a, dissipated (joule_1d tm (k0_of w) kx) convs (thickness s)
               (field_profiles_1d (pol s) (k0_of w) kx T1 infos) a
           & power_balance (incident_power tm nt th) r a.
Proof.
move=> hp hf h1 h3 h2 hd hs tm kx.
have h0 : (0 < nt)%coqR by case: hp => -[x hx ex] *; move: ex; rewrite h1 => -[->].
have [hb _] := bvp_solve_1d heig hs.
have hsz : (size (thickness s) <= size convs)%N.
  by move: hs; rewrite /solve_1d; case e: (layers_of _ _) => [ls|] // _; exact: layers_size e.
have := flow_stack 1%:M _ hb; rewrite -/tm -/kx.
rewrite media_1d_d // => H; have {H} := H _.
set a := (flow _ _ - _)%coqR => H.
exists a.
- apply: dissipated_map (H _).
  + by rewrite -(size_map (@m_d _)) media_1d_d.
  + exact: hsz.
  + move=> k l l' e e' f z; have [d ->] := media_1d_nth e e'; apply: loss_1d => i; exact: (kx_real w hp i).1.
  + move=> l hl; apply: hd; rewrite -(media_1d_d tm kx hsz); exact: List.in_map.
rewrite /power_balance.
rewrite /a h1 h3 flow_below flow_above //; [|exact: kz_mid].
have he := eff_amp h1 h0 h3 h2 hs.
have c0 := cos_pos_below h2.
set A := total (fun i => _ * Re (kz_of (RtoC nt) _ _))%coqR; set B := total (fun i => _ * Re (weigh _ _ _))%coqR.
have -> : total (de_ri r) = (A * / (nt * cos th))%coqR.
  rewrite -total_scale; apply: total_ext => i; have [-> _] := he i.
  by rewrite kz_1dE h1 /Rdiv -Rmult_assoc.
have -> : total (de_ti r) = (B * / incident_power tm nt th)%coqR.
  rewrite -total_scale; apply: total_ext => i; have [_ ->] := he i.
  by rewrite kz_1dE /incident_power /weigh -/tm -/kx; case: (tm); rewrite /Rdiv -Rmult_assoc.
rewrite /incident_power; case: (tm); field; split; lra.
Qed.
End Balance.
