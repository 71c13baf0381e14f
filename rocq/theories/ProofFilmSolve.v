(** Unpatterned stacks, at the level of a whole solve. *)
From Coq Require Import Reals Lra.
From mathcomp Require Import all_ssreflect ssralg matrix.
From Coquelicot Require Import Complex.
From Verif Require Import Cplx Mx ModelTM ProofFlux ProofEnergy1D Spec SpecSolve SpecFilm ProofSetup ProofFilm ProofCompose.

Set Implicit Arguments.
Unset Strict Implicit.
Unset Printing Implicit Defensive.
Local Open Scope ring_scope.
Import GRing.Theory.

Lemma layers_films n (films : seq (C * R)) :
  layers_of (map (fun ed => uniform_convs n ed.1) films) (map snd films) = Some (map (film_layer n) films).
Proof. by elim: films => [|[e d] fs IH] //=; rewrite IH. Qed.

Lemma is_tmE pol : is_tm pol = reqb pol 1.
Proof. by []. Qed.

Lemma kz_losslessE (nn x : R) : conj (csqrt (RtoC nn ^+ 2 - RtoC x ^+ 2)) = kz_lossless nn x.
Proof.
rewrite !expr2 -!RtoC_mul -RtoC_sub /kz_lossless; case: Rle_dec => h.
  by rewrite csqrt_nonneg ?conjR //; lra.
rewrite csqrt_neg; last lra.
by rewrite conjM conjI conjR mulNr; congr (- (_ * RtoC (sqrt _))); ring.
Qed.

Section Top.
Variable pinv : forall n, 'M[C]_n -> 'M[C]_n.
Variable eig : forall n, 'M[C]_n -> 'rV[C]_n * 'M[C]_n.
Hypothesis heig : eigen_oracle eig.

(** Only the zeroth order is excited: any indices, any angle, any (absorbing) films. *)
Lemma film_no_diffraction s w films r T1 infos :
  thickness s = map snd films ->
  solve_1d pinv eig false s w (map (fun ed => uniform_convs (ff_x s) ed.1) films) = Some (r, T1, infos) ->
  forall i : 'I_(ff_x s), (i : nat) <> fto_x s ->
  [/\ R_s r i ord0 = 0, R_p r i ord0 = 0, T_s r i ord0 = 0 & T_p r i ord0 = 0].
Proof.
move=> ht; rewrite /solve_1d ht layers_films => /(film_rcwa_1d (eigen_eig_ok heig)) /= [hp [h1 [h2 h3]]] i ni.
have mid : (i == (ff_x s %/ 2)%N :> nat) = false by rewrite /ff_x half_ff; apply/eqP.
have [_ ] := h3 i; rewrite mid; move: h1 h2; rewrite /amp_R /amp_T /other_R /other_T.
by case: (reqb _ _) => -> -> -> ->; rewrite !mxE.
Qed.

(** The zeroth order obeys the characteristic-matrix theory. *)
Lemma film_amplitudes s w films r T1 infos (nt th nb : R) :
  n_top s = RtoC nt -> (0 < nt)%coqR -> theta s = RtoC th -> (0 <= th < PI / 2)%coqR -> phi s = None ->
  n_bot s = RtoC nb ->
  thickness s = map snd films ->
  solve_1d pinv eig false s w (map (fun ed => uniform_convs (ff_x s) ed.1) films) = Some (r, T1, infos) ->
  let tm := is_tm (pol s) in
  let kx := (nt * sin th)%coqR in
  let y0 := if tm then ci * RtoC (cos th / nt) else ci * RtoC (nt * cos th) in
  let EH := film_stack tm (k0_of w) (RtoC kx) films (half_space tm nb kx) in
  [/\ (pol s = 0%coqR \/ pol s = 1%coqR), cross_R tm r = 0, cross_T tm r = 0, y0 * EH.1 + EH.2 != 0 &
  forall i : 'I_(ff_x s), (i : nat) = fto_x s ->
    co_R tm r i ord0 = film_r y0 EH /\ co_T tm r i ord0 = film_t y0 EH].
Proof.
move=> h1 h0 h3 h2 hphi hb ht; rewrite /solve_1d ht layers_films => /(film_rcwa_1d (eigen_eig_ok heig)) /= [hp [c1 [c2 h4]]].
have hpv : phi_val s = RtoC 0 by rewrite /phi_val hphi.
have [kxE _] := kx_phys w h1 h3 h2 hpv.
have ec i : i = fto_x s -> kx_vector s w i = RtoC (nt * sin th).
  by move=> ->; rewrite kxE order_mid cos_0; congr RtoC; ring.
have key (i : 'I_(ff_x s)) (tm := is_tm (pol s)) (kx := (nt * sin th)%coqR)
  (y0 := if tm then ci * RtoC (cos th / nt) else ci * RtoC (nt * cos th)) : (i : nat) = fto_x s ->
  [/\ admittance tm (n_top s ^+ 2) (ci * kz_1d (n_top s) (kx_vector s w) i) = y0,
      admittance tm (n_bot s ^+ 2) (ci * kz_1d (n_bot s) (kx_vector s w) i) = half_space tm nb kx,
      kx_vector s w i = RtoC kx
    & (if tm then ci * ccos (theta s) / n_top s else ci * n_top s * ccos (theta s)) = y0].
  move=> ei; rewrite /kz_1d (ec i ei) h1 hb h3 ccos_real (kz_center h0 h2) // kz_losslessE.
  have n0 : RtoC nt != 0 by apply: RtoC_neq0; lra.
  split=> //.
  - rewrite /admittance /y0 /tm; case: (is_tm _) => //.
    rewrite RtoC_mul /Rdiv RtoC_mul RtoC_inv; last lra.
    rewrite expr2 invfM; have e1 := mulfV n0; move: e1; set x := (RtoC nt)^-1 => e1.
    transitivity (ci * (RtoC (cos th) * x) * (RtoC nt * x)); first cring.
    by rewrite e1 mulr1.
  - by rewrite /half_space RtoC_mul expr2.
  - rewrite /y0 /tm; case: (is_tm _); first by rewrite /Rdiv RtoC_mul RtoC_inv ?mulrA //; lra.
    by rewrite RtoC_mul mulrA.
have lm : (fto_x s < ff_x s)%N by rewrite /ff_x ltnS -addnn leq_addr.
pose i0 : 'I_(ff_x s) := Ordinal lm.
have [k1 k2 k3 k4] := key i0 erefl.
split=> //; rewrite -?k1 -?k2 -?k3; first by have [] := h4 i0.
move=> i ei; have [d0 eR eT] := h4 i.
have mid : (i == (ff_x s %/ 2)%N :> nat) = true by rewrite /ff_x half_ff ei eqxx.
rewrite mid in eR eT.
have [l1 l2 l3 l4] := key i ei.
rewrite -!is_tmE l1 l2 l3 l4 in d0 eR eT *; rewrite k1 k2 k3.
rewrite /co_R /co_T -/(amp_R (pol s) r) -/(amp_T (pol s) r) eR eT /film_r /film_t; split.
- set y := if is_tm (pol s) then _ else _ in d0 *; set EH := film_stack _ _ _ _ _ in d0 *.
  have -> : EH.1 * ((y + y) / (y * EH.1 + EH.2)) - 1 = (EH.1 * (y + y) - (y * EH.1 + EH.2)) / (y * EH.1 + EH.2).
    by rewrite mulrBl mulfV // mulrA.
  congr (_ / _); cring.
- by congr (_ / _); rewrite mulr_natl mulr2n.
Qed.

End Top.

(** ** Bare interface *)
Section Fresnel.
Variable pinv : forall n, 'M[C]_n -> 'M[C]_n.
Variable eig : forall n, 'M[C]_n -> 'rV[C]_n * 'M[C]_n.
Hypothesis heig : eigen_oracle eig.

Lemma zero_stack_1d s w k (convs : seq (conv3 (ff_x s))) (r : diffraction (ff_x s)) :
  reported_1d (solve_1d pinv eig false (with_thickness s (nseq k 0%coqR)) w convs) = Some r ->
  reported_1d (solve_1d pinv eig false (with_thickness s [::]) w [::]) = Some r.
Proof.
elim: k convs => [|k IH] convs; first by case: convs.
case: convs => [|c cs]; first by rewrite /solve_1d.
move=> h; apply: (IH cs).
exact: (zero_solve_1d (s := s) (ts1 := [::]) (ts2 := nseq k 0%coqR) (cs1 := [::]) (c := c) (cs2 := cs) erefl h).
Qed.

Lemma ci_neq0 : ci != 0.
Proof. by apply/eqP; case=> h; lra. Qed.

Lemma Rdiv_ci (a b : R) : (ci * RtoC a) / (ci * RtoC b) = RtoC a / RtoC b.
Proof. by rewrite invfM mulrACA mulfV ?ci_neq0 // mul1r. Qed.

Lemma half_space_snell tm (n1 t1 n2 t2 : R) : (0 < n2)%coqR -> (0 <= t2 < PI / 2)%coqR ->
  (n1 * sin t1 = n2 * sin t2)%coqR ->
  half_space tm n2 (n1 * sin t1) = ci * RtoC (if tm then (cos t2 / n2)%coqR else (n2 * cos t2)%coqR).
Proof.
move=> h0 h2 ->; rewrite /half_space.
have -> : kz_lossless n2 (n2 * sin t2) = RtoC (n2 * cos t2).
  by rewrite -kz_losslessE; apply: kz_center.
case: tm => //=.
rewrite -mulrA -RtoC_div; last nra.
by congr (_ * RtoC _); field; lra.
Qed.

Lemma cos_pos_below t : (0 <= t < PI / 2)%coqR -> (0 < cos t)%coqR.
Proof. by move=> h; apply: cos_gt_0; have := PI_RGT_0; lra. Qed.

Lemma fresnel_solve s w k (convs : seq (conv3 (ff_x s))) r T1 infos (nt th nb tb : R) :
  n_top s = RtoC nt -> (0 < nt)%coqR -> theta s = RtoC th -> (0 <= th < PI / 2)%coqR -> phi s = None ->
  n_bot s = RtoC nb -> (0 < nb)%coqR -> (0 <= tb < PI / 2)%coqR -> (nt * sin th = nb * sin tb)%coqR ->
  thickness s = nseq k 0%coqR ->
  solve_1d pinv eig false s w convs = Some (r, T1, infos) ->
  forall i : 'I_(ff_x s), let tm := is_tm (pol s) in
  [/\ cross_R tm r i ord0 = 0, cross_T tm r i ord0 = 0,
      co_R tm r i ord0 = (if (i : nat) == fto_x s then RtoC (fresnel_r tm nt th nb tb) else 0)
    & co_T tm r i ord0 = (if (i : nat) == fto_x s then RtoC (fresnel_t tm nt th nb tb) else 0)].
Proof.
move=> h1 h0 h3 h2 hphi hb b0 htb snell ht hs i tm.
have e0 : reported_1d (solve_1d pinv eig false (with_thickness s (nseq k 0%coqR)) w convs) = Some r.
  rewrite -ht -[Some r]/(reported_1d (Some (r, T1, infos))) -hs.
  by clear; case: s convs.
have e1 := zero_stack_1d e0.
case e2: (solve_1d pinv eig false (with_thickness s [::]) w [::]) e1 => [[[r' T1'] infos']|] //= [er].
rewrite er in e2 *; clear er r' e0 hs.
set s' := with_thickness s [::] in e2.
have [_ c1 c2 _ hc] := film_amplitudes heig (s := s') (films := [::]) h1 h0 h3 h2 hphi hb erefl e2.
have hn := film_no_diffraction heig (s := s') (films := [::]) erefl e2.
rewrite -[is_tm (pol s')]/tm in c1 c2 hc.
split; rewrite ?c1 ?c2 ?mxE //.
all: case: eqP => hi; last by have [h11 h12 h13 h14] := hn i hi; rewrite /co_R /co_T; case: (tm).
all: have [eR eT] := hc i hi; rewrite ?eR ?eT /film_r /film_t /film_stack /= (half_space_snell tm b0 htb snell).
all: have p1 := cos_pos_below h2; have p2 := cos_pos_below htb.
all: rewrite mulr1 /fresnel_r /fresnel_t.
all: have q1 := Rmult_lt_0_compat _ _ h0 p1; have q2 := Rmult_lt_0_compat _ _ b0 p2.
all: have q3 := Rmult_lt_0_compat _ _ h0 p2; have q4 := Rmult_lt_0_compat _ _ b0 p1.
all: have i1 := Rinv_0_lt_compat _ h0; have i2 := Rinv_0_lt_compat _ b0.
all: have q5 := Rmult_lt_0_compat _ _ p1 i1; have q6 := Rmult_lt_0_compat _ _ p2 i2.
- case: (tm); rewrite -mulrDr -mulrBr -RtoC_add -RtoC_sub Rdiv_ci -RtoC_div.
  + congr RtoC; field; lra.
  + by rewrite /Rdiv; lra.
  + by [].
  + lra.
- have e2c : 2%:R = RtoC 2 by rewrite -[2%coqR]/(1 + 1)%coqR RtoC_add.
  case: (tm); rewrite e2c mulrCA -RtoC_mul -mulrDr -RtoC_add Rdiv_ci -RtoC_div.
  + congr RtoC; field; lra.
  + by rewrite /Rdiv; lra.
  + by congr RtoC; rewrite /Rdiv; ring.
  + lra.
Qed.

(** ** Index-matched stacks *)
Lemma film_matched (y : C) (ph : C) (E : C) : y != 0 -> film_matrix ph y (E, y * E) = (cexp ph * E, y * (cexp ph * E)).
Proof.
move=> y0; rewrite /film_matrix /ccosh /csinh /=.
have e2 : 2%:R^-1 * 2%:R = 1 :> C by rewrite mulVf ?Ctwo_neq0.
have ey := mulVf y0.
move: e2 ey; set h := 2%:R^-1; set yi := y^-1 => e2 ey.
have eE : cexp ph = cexp ph * (h * (1 + 1)) by rewrite -[1 + 1]/(2%:R) e2 mulr1.
congr (_, _).
  transitivity ((cexp ph + cexp (- ph)) * h * E + (cexp ph - cexp (- ph)) * h * E * (yi * y)); first cring.
  rewrite ey; rewrite [in RHS]eE; cring.
rewrite [in RHS]eE; cring.
Qed.

Lemma film_stack_matched tm k0 (kx e q : C) (films : seq (C * R)) (y : C) :
  csqrt (kx ^+ 2 - e) = q -> admittance tm e q = y -> y != 0 -> (forall ed, List.In ed films -> ed.1 = e) ->
  film_stack tm k0 kx films y =
  (cexp (RtoC k0 * q * RtoC (total_thickness films)), y * cexp (RtoC k0 * q * RtoC (total_thickness films))).
Proof.
move=> hq hy y0; elim: films => [|ed fs IH] he.
  by rewrite /film_stack /total_thickness /= mulr0 cexp0 mulr1.
have := IH (fun ed h => he ed (or_intror h)); rewrite /film_stack /= => ->.
rewrite /film (he ed (or_introl erefl)) hq hy film_matched //.
have -> : cexp (RtoC k0 * q * RtoC ed.2) * cexp (RtoC k0 * q * RtoC (total_thickness fs)) =
  cexp (RtoC k0 * q * RtoC (ed.2 + total_thickness fs)) by rewrite -cexpD RtoC_add mulrDr.
by [].
Qed.

Lemma matched_solve s w films r T1 infos (nt th : R) :
  n_top s = RtoC nt -> (0 < nt)%coqR -> theta s = RtoC th -> (0 <= th < PI / 2)%coqR -> phi s = None ->
  n_bot s = RtoC nt -> (forall ed, List.In ed films -> ed.1 = RtoC (nt * nt)) ->
  thickness s = map snd films ->
  solve_1d pinv eig false s w (map (fun ed => uniform_convs (ff_x s) ed.1) films) = Some (r, T1, infos) ->
  let tm := is_tm (pol s) in
  forall i : 'I_(ff_x s),
  [/\ cross_R tm r i ord0 = 0, cross_T tm r i ord0 = 0, co_R tm r i ord0 = 0
    & co_T tm r i ord0 = (if (i : nat) == fto_x s
        then cexp (- (ci * RtoC (k0_of w * (nt * cos th) * total_thickness films))) else 0)].
Proof.
move=> h1 h0 h3 h2 hphi hb he ht hs tm i.
have [_ c1 c2 _ hc] := film_amplitudes heig h1 h0 h3 h2 hphi hb ht hs.
have hn := film_no_diffraction heig ht hs.
rewrite -/tm in c1 c2 hc.
have p1 := cos_pos_below h2; have q1 := Rmult_lt_0_compat _ _ h0 p1.
have i1 := Rinv_0_lt_compat _ h0; have q5 := Rmult_lt_0_compat _ _ p1 i1.
split; rewrite ?c1 ?c2 ?mxE //.
all: case: (i =P fto_x s :> nat) => hi; last by have [h11 h12 h13 h14] := hn i hi; rewrite /co_R /co_T; case: (tm).
all: have [eR eT] := hc i hi; rewrite ?eR ?eT.
all: set y0 := if tm then _ else _.
all: have yn : y0 != 0 by rewrite /y0; case: (tm); rewrite mulf_neq0 ?ci_neq0 //; apply: RtoC_neq0; rewrite /Rdiv; lra.
all: have ey : half_space tm nt (nt * sin th) = y0 by rewrite (half_space_snell tm h0 h2 erefl) /y0; case: (tm).
all: have eq : csqrt (RtoC (nt * sin th) ^+ 2 - RtoC (nt * nt)) = ci * RtoC (nt * cos th).
1,3: rewrite expr2 -RtoC_mul -RtoC_sub.
1,2: have -> : (nt * sin th * (nt * sin th) - nt * nt = - ((nt * cos th) * (nt * cos th)))%coqR by
       have := sin2_cos2 th; rewrite /Rsqr => e; transitivity (nt * nt * (sin th * sin th - (sin th * sin th + cos th * cos th)))%coqR; [rewrite e; ring|ring].
1,2: rewrite csqrt_neg ?Ropp_involutive ?sqrt_square //; nra.
all: have ea : admittance tm (RtoC (nt * nt)) (ci * RtoC (nt * cos th)) = y0.
1,3: rewrite /y0; case: (tm) => //=; rewrite -mulrA -RtoC_div; [by congr (_ * RtoC _); field; lra|nra].
all: rewrite ey (film_stack_matched (k0_of w) eq ea yn he) /film_r /film_t /=.
- by rewrite subrr mul0r.
- rewrite -mulrDr -[X in 2%:R * X](mulr1 y0) mulrCA.
  set c := cexp _; have c0 : c != 0 by apply: cexp_neq0.
  have -> : c + c = 2%:R * c by rewrite mulr_natl mulr2n.
  rewrite invfM mulrACA mulfV // mul1r mulr1 invfM mulrA mulfV ?mul1r ?Ctwo_neq0 //.
  rewrite -cexpN; congr (cexp (- _)).
  rewrite !RtoC_mul; cring.
Qed.

End Fresnel.
