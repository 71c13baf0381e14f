(** Unpatterned stacks: when the solver returns, TE / TM agreement at normal incidence, absorbing substrates. *)
From Coq Require Import Reals Lra Psatz.
From mathcomp Require Import all_ssreflect ssralg matrix mxalgebra.
From Coquelicot Require Import Complex.
From Verif Require Import Cplx Mx ModelTM ProofFlux ProofEnergy1D Spec SpecSolve SpecFilm ProofSetup ProofEff ProofFilm ProofStack
  ProofCompose ProofFilmSolve ProofSubstrate.

Set Implicit Arguments.
Unset Strict Implicit.
Unset Printing Implicit Defensive.
Local Open Scope ring_scope.
Import GRing.Theory.

(** ** When a film solve returns *)
Section Returns.
Variable pinv : forall n, 'M[C]_n -> 'M[C]_n.
Variable eig : forall n, 'M[C]_n -> 'rV[C]_n * 'M[C]_n.
Hypothesis heig : eigen_oracle eig.
Hypothesis hdiag : forall n (f : nat -> C), (eig (diagf n f)).2 \in unitmx.

Lemma film_modes_some (pol : R) n (kx : nat -> C) (ed : C * R) :
  (pol = 0%coqR \/ pol = 1%coqR) -> ed.1 != 0 ->
  exists W V q, transfer_1d_2 pinv eig false pol kx (epx (film_layer n ed)) (epy (film_layer n ed)) (epzi (film_layer n ed))
     = Some (W, V, q) /\ W \in unitmx.
Proof.
move=> hp e0; rewrite /transfer_1d_2 /=.
case: hp => ->.
  rewrite reqb_refl; set A := _ - _.
  have -> : A = diagf n (fun i => kx i * kx i - ed.1).
    by rewrite /A scalar_diagf diagfM diagfN diagfD.
  have := hdiag n (fun i => kx i * kx i - ed.1); case: (eig _) => lam W /= uW.
  by exists W, (W *m diag_mx (sqrtv lam)), (sqrtv lam).
rewrite reqb10 reqb_refl; set A := _ *m (_ - _).
have -> : A = diagf n (fun i => ed.1 * (kx i * ed.1^-1 * kx i - 1)).
  by rewrite /A !scalar_diagf !diagfM diagfN diagfD diagfM.
have := hdiag n (fun i => ed.1 * (kx i * ed.1^-1 * kx i - 1)); case: (eig _) => lam W /= uW.
rewrite /meeinv.
have -> : (ed.1)%:M \in @unitmx _ n.
  by rewrite scalar_diagf diagf_unit; apply/forallP.
by exists W; eexists; eexists; split; first by reflexivity.
Qed.

(** Every film has a non-zero admittance and no interface is resonant. *)
Fixpoint films_ok n (pol : R) (kx : nat -> C) (k0 : R) (films : seq (C * R)) (yb : nat -> C) : Prop :=
  match films with
  | [::] => True
  | ed :: fs => [/\ ed.1 != 0, films_ok n pol kx k0 fs yb
      & forall i : 'I_n,
          let y := admittance (reqb pol 1) ed.1 (csqrt (kx i ^+ 2 - ed.1)) in
          let EH := film_stack (reqb pol 1) k0 (kx i) fs (yb i) in
          y != 0 /\ y * EH.1 + EH.2 != 0]
  end.

Lemma film_run_some n (pol : R) (kx : nat -> C) (k0 : R) films yb :
  (pol = 0%coqR \/ pol = 1%coqR) -> films_ok n pol kx k0 films yb ->
  exists F' G' T' infos,
    stack_with (step_1d pinv eig false pol kx k0) (map (film_layer n) films) (1%:M, diagf n yb, 1%:M, [::])
      = Some (F', G', T', infos).
Proof.
move=> hp; elim: films => [|ed fs IH] /=; first by move=> _; do 4 eexists; reflexivity.
move=> [e0 hfs hi]; have [F' [G' [T' [infos hs]]]] := IH hfs.
have [P [s [uP s0 eF eG eT]]] := film_run (eigen_eig_ok heig) hs.
rewrite hs /step_1d.
have [W [V [q [hm uW]]]] := film_modes_some n kx hp e0.
rewrite hm; have [_ eV eX] := film_modes (eigen_eig_ok heig) k0 hm.
rewrite /transfer_1d_3 /layer_update /meeinv uW.
set y := fun i => admittance (reqb pol 1) ed.1 (csqrt (kx i ^+ 2 - ed.1)) in eV.
have uy : diagf n y \in unitmx by rewrite diagf_unit; apply/forallP => i; have [] := hi i.
have uV : V \in unitmx by rewrite eV unitmx_mul uW uy.
rewrite uV.
have iV : invmx V = invmx W *m diagf n (fun i => (y i)^-1).
  by apply: inv_eq; rewrite -diagf_inv // eV -!mulmxA mulKVmx // mulmxV.
set A := half *: _.
have -> : A \in unitmx.
  have -> : A = invmx W *m (diagf n (fun i => half * ((y i)^-1 * (s i)^-1 *
      (y i * (stackE kx k0 pol fs yb i).1 + (stackE kx k0 pol fs yb i).2))) *m P).
    rewrite /A iV eF eG -!mulmxA -mulmxDr scalemxAr; congr (_ *m _).
    rewrite !mulmxA diagfM -mulmxDl diagfD scalemxAl diagfZ; congr (_ *m _).
    apply: diagf_eq => i li; congr (_ * _).
    have := mulVf (proj1 (hi (Ordinal li))); rewrite /= -/(y i); set yi := (y i)^-1; set si := (s i)^-1 => ey.
    set E := (stackE _ _ _ _ _ _).1; set H := (stackE _ _ _ _ _ _).2.
    transitivity (yi * y i * (E * si) + yi * (H * si)); first by rewrite ey mul1r.
    by cring.
  rewrite unitmx_mul unitmx_inv uW unitmx_mul uP andbT /= diagf_unit; apply/forallP => i.
  have [y0 yE] := hi i.
  by rewrite !mulf_neq0 ?invr_neq0 ?half_neq0 ?s0.
by do 4 eexists; reflexivity.
Qed.

Lemma film_solve_some s w films :
  (pol s = 0%coqR \/ pol s = 1%coqR) -> thickness s = map snd films ->
  let tm := is_tm (pol s) in
  let kx := kx_vector s w in
  let yb i := admittance tm (n_bot s ^+ 2) (ci * kz_1d (n_bot s) kx i) in
  let y0 i := admittance tm (n_top s ^+ 2) (ci * kz_1d (n_top s) kx i) in
  films_ok (ff_x s) (pol s) kx (k0_of w) films yb ->
  (forall i : 'I_(ff_x s), let EH := film_stack tm (k0_of w) (kx i) films (yb i) in y0 i * EH.1 + EH.2 != 0) ->
  exists r T1 infos,
    solve_1d pinv eig false s w (map (fun ed => uniform_convs (ff_x s) ed.1) films) = Some (r, T1, infos).
Proof.
move=> hp ht tm kx yb y0 hf hc; rewrite /solve_1d ht layers_films /rcwa_1d /transfer_1d_1.
have [F [G [T [infos hs]]]] := film_run_some hp hf.
have [P [sc [uP s0 eF eG eT]]] := film_run (eigen_eig_ok heig) hs.
have cl (y : nat -> C) : (forall i : 'I_(ff_x s), y i = y0 i) -> G + diagf (ff_x s) y *m F \in unitmx.
  move=> ey.
  have -> : G + diagf (ff_x s) y *m F = diagf (ff_x s) (fun i => (sc i)^-1 *
      (y0 i * (stackE kx (k0_of w) (pol s) films yb i).1 + (stackE kx (k0_of w) (pol s) films yb i).2)) *m P.
    rewrite eF eG mulmxA diagfM -mulmxDl diagfD; congr (_ *m _); apply: diagf_eq => i li.
    rewrite (ey (Ordinal li)) /=; set E := (stackE _ _ _ _ _ _).1; set H := (stackE _ _ _ _ _ _).2; set si := (sc i)^-1.
    by cring.
  rewrite unitmx_mul uP andbT diagf_unit; apply/forallP => i.
  by rewrite mulf_neq0 ?invr_neq0 //; apply: (hc i).
case: hp (hp) => hp hp'.
  have e0 : is_tm (pol s) = false by rewrite hp is_tmE reqb01.
  rewrite hp reqb_refl; rewrite hp in hs.
  have -> : ci *: diagf (ff_x s) (kz_1d (n_bot s) kx) = diagf (ff_x s) yb.
    by rewrite diagfZ /yb /tm /admittance e0.
  rewrite hs /transfer_1d_4 reqb_refl /meeinv diagfZ cl; first by do 3 eexists; reflexivity.
  by move=> i; rewrite /y0 /tm e0.
have e0 : is_tm (pol s) = true by rewrite hp is_tmE reqb_refl.
rewrite hp reqb10 reqb_refl; rewrite hp in hs.
have -> : ci *: diagf (ff_x s) (fun i => kz_1d (n_bot s) kx i / n_bot s ^+ 2) = diagf (ff_x s) yb.
  by rewrite diagfZ /yb /tm /admittance e0; apply: diagf_eq => i _; rewrite mulrA.
rewrite hs /transfer_1d_4 reqb10 reqb_refl /meeinv diagfZ cl; first by do 3 eexists; reflexivity.
by move=> i; rewrite /y0 /tm e0 /admittance mulrAC.
Qed.

End Returns.

(** ** Efficiencies from amplitudes, 1D *)
Lemma eff_amp pinv eig up s w (convs : seq (conv3 (ff_x s))) r T1 infos (nt th : R) :
  n_top s = RtoC nt -> (0 < nt)%coqR -> theta s = RtoC th -> (0 <= th < PI / 2)%coqR ->
  solve_1d pinv eig up s w convs = Some (r, T1, infos) ->
  let tm := is_tm (pol s) in let kx := kx_vector s w in
  forall i : 'I_(ff_x s),
  de_ri r i = (nrm2 (co_R tm r i ord0) * (Re (kz_1d (n_top s) kx i) / (nt * cos th)))%coqR /\
  de_ti r i = (nrm2 (co_T tm r i ord0) *
     (if tm then Re (kz_1d (n_bot s) kx i / n_bot s ^+ 2)%R / (cos th / nt) else Re (kz_1d (n_bot s) kx i) / (nt * cos th)))%coqR.
Proof.
move=> h1 h0 h3 h2 hs tm kx i; move: hs; rewrite /solve_1d; case: (layers_of _ _) => [ls|] //.
move=> /rcwa_1d_inv [F [G [T]]]; rewrite /transfer_1d_4 h1 h3 ccos_real.
have c0 := cos_pos_below h2.
have kc0 := Rmult_lt_0_compat _ _ h0 c0; have cn0 := Rdiv_lt_0_compat _ _ c0 h0.
rewrite -[RtoC (cos th) / RtoC nt]RtoC_div; last lra.
rewrite -RtoC_mul.
case: ifP => [/reqbP ep|_].
  have e0 : is_tm (pol s) = false by rewrite ep is_tmE reqb01.
  case: (meeinv _ _ _) => [M|] // [<- _]; rewrite /tm e0 /= !de_form !Re_divR; [by []|lra|lra].
case: ifP => // /reqbP ep.
have e0 : is_tm (pol s) = true by rewrite ep is_tmE reqb_refl.
by case: (meeinv _ _ _) => [M|] // [<- _]; rewrite /tm e0 /= !de_form !Re_divR; [by []|lra|lra].
Qed.

(** ** TE and TM at normal incidence *)
Lemma film_dual (ph y E H : C) : y != 0 ->
  film_matrix ph (- y^-1) (H, - E) = ((film_matrix ph y (E, H)).2, - (film_matrix ph y (E, H)).1).
Proof.
move=> y0; rewrite /film_matrix /=; congr (_, _).
  rewrite invrN invrK; cring.
set yi := y^-1; cring.
Qed.

Lemma film_matrix_scale (ph y a : C) EH :
  film_matrix ph y (a * EH.1, a * EH.2) = (a * (film_matrix ph y EH).1, a * (film_matrix ph y EH).2).
Proof. by rewrite /film_matrix /=; congr (_, _); set yi := y^-1; cring. Qed.

Lemma film_stack_dual k0 (films : seq (C * R)) yb : yb != 0 -> (forall ed, List.In ed films -> ed.1 != 0) ->
  film_stack true k0 0 films (- yb^-1) =
  (yb^-1 * (film_stack false k0 0 films yb).2, - (yb^-1 * (film_stack false k0 0 films yb).1)).
Proof.
move=> y0; elim: films => [|ed fs IH] h.
  by rewrite /film_stack /= mulVf // mulr1.
have e0 := h ed (or_introl erefl).
rewrite /film_stack /= -!/(film_stack _ _ _ fs _) IH; last by move=> ed' h'; apply: h; right.
rewrite /film /admittance expr2 mul0r sub0r.
set q := csqrt (- ed.1).
have q0 : q != 0 by apply/eqP => /csqrt_eq0 /eqP; rewrite oppr_eq0 (negbTE e0).
have -> : q / ed.1 = - q^-1.
  have qq := csqrt_sqr (- ed.1); rewrite -/q in qq.
  by rewrite -[ed.1]opprK -qq invrN invfM mulrN mulVKf.
set X := film_stack false _ _ _ _.
have -> : (yb^-1 * X.2, - (yb^-1 * X.1)) = (yb^-1 * (X.2, - X.1).1, yb^-1 * (X.2, - X.1).2) by rewrite /= mulrN.
by rewrite film_matrix_scale film_dual //= mulrN.
Qed.

Definition with_pol (s : setup) (p : R) : setup :=
  Setup (n_top s) (n_bot s) (theta s) (phi s) (psi s) p (fto_x s) (fto_y s) (period_x s) (period_y s) (thickness s).

Lemma nrm2M (x y : C) : nrm2 (x * y) = (nrm2 x * nrm2 y)%coqR.
Proof. by cunf; ring. Qed.

Arguments half_space : simpl never.
Arguments film_stack : simpl never.

Section Normal.
Variable pinv : forall n, 'M[C]_n -> 'M[C]_n.
Variable eig : forall n, 'M[C]_n -> 'rV[C]_n * 'M[C]_n.
Hypothesis heig : eigen_oracle eig.

Lemma normal_te_tm s w films (nt nb : R) r T1 infos r' T1' infos' :
  n_top s = RtoC nt -> (0 < nt)%coqR -> theta s = RtoC 0 -> phi s = None -> n_bot s = RtoC nb -> (0 < nb)%coqR ->
  (forall ed, List.In ed films -> ed.1 != 0) ->
  thickness s = map snd films ->
  let convs := map (fun ed => uniform_convs (ff_x s) ed.1) films in
  solve_1d pinv eig false (with_pol s 0) w convs = Some (r, T1, infos) ->
  solve_1d pinv eig false (with_pol s 1) w convs = Some (r', T1', infos') ->
  forall i : 'I_(ff_x s),
  [/\ R_p r' i ord0 = - R_s r i ord0, T_p r' i ord0 = RtoC (nb / nt) * T_s r i ord0,
      de_ri r' i = de_ri r i & de_ti r' i = de_ti r i].
Proof.
move=> h1 h0 h3 hphi hb b0 he ht convs hs hs' i.
have p2 := PI_RGT_0.
have h2 : (0 <= 0 < PI / 2)%coqR by lra.
have t0 : is_tm 0 = false by rewrite is_tmE reqb01.
have t1 : is_tm 1 = true by rewrite is_tmE reqb_refl.
have [_ _ _ d1 hc] := film_amplitudes heig (s := with_pol s 0) h1 h0 h3 h2 hphi hb ht hs.
have [_ _ _ d2 hc'] := film_amplitudes heig (s := with_pol s 1) h1 h0 h3 h2 hphi hb ht hs'.
have hn := film_no_diffraction heig (s := with_pol s 0) ht hs.
have hn' := film_no_diffraction heig (s := with_pol s 1) ht hs'.
have ef := eff_amp (s := with_pol s 0) h1 h0 h3 h2 hs i.
have ef' := eff_amp (s := with_pol s 1) h1 h0 h3 h2 hs' i.
rewrite /= in hc hc' hn hn' ef ef' d1 d2.
rewrite t0 in hc ef d1; rewrite t1 in hc' ef' d2.
rewrite cos_0 sin_0 in d1 d2 hc hc' ef ef'.
rewrite Rmult_0_r Rmult_1_r in d1 d2 hc hc' ef ef'.
have z0 : RtoC 0 = 0 by [].
have hkz : kz_lossless nb 0 = RtoC nb.
  rewrite /kz_lossless; case: Rle_dec => h; last by nra.
  by congr RtoC; rewrite -[RHS]sqrt_square; [congr sqrt; ring|lra].
have hh0 : half_space false nb 0 = ci * RtoC nb by rewrite /half_space hkz.
have hh1 : half_space true nb 0 = - (ci * RtoC nb)^-1.
  rewrite /half_space hkz /admittance.
  have n0 : RtoC nb != 0 by apply: RtoC_neq0; lra.
  have i0 := ci_neq0.
  rewrite RtoC_mul !invfM.
  have -> : ci^-1 = - ci.
    by apply: (mulfI i0); rewrite mulfV // mulrN ci2 opprK.
  have en := mulfV n0; move: en; set x := (RtoC nb)^-1 => en.
  transitivity (ci * x * (RtoC nb * x)); first cring.
  by rewrite en mulr1; cring.
have hy : ci * RtoC (1 / nt) = - (ci * RtoC nt)^-1.
  have i0 := ci_neq0.
  rewrite invfM.
  have -> : ci^-1 = - ci.
    by apply: (mulfI i0); rewrite mulfV // mulrN ci2 opprK.
  by rewrite RtoC_div ?div1r ?mulNr ?opprK //; lra.
case: (i =P fto_x s :> nat) => hi; last first.
  have [a1 a2 a3 a4] := hn i hi; have [b1 b2 b3 b4] := hn' i hi.
  have [-> ->] := ef; have [-> ->] := ef'; rewrite /co_R /co_T /=.
  by rewrite a1 a3 b2 b4 !mulr0 oppr0; split=> //; cunf; ring.
have [eR eT] := hc i hi; have [eR' eT'] := hc' i hi.
have [-> ->] := ef; have [-> ->] := ef'.
rewrite /co_R /co_T /= in eR eT eR' eT' *.
have y0 : ci * RtoC nb != 0 by rewrite mulf_neq0 ?ci_neq0 //; apply: RtoC_neq0; lra.
have y1 : ci * RtoC nt != 0 by rewrite mulf_neq0 ?ci_neq0 //; apply: RtoC_neq0; lra.
rewrite z0 hh1 (film_stack_dual _ y0 he) hy in eR' eT' d2.
rewrite z0 hh0 in eR eT d1.
move: eR eT d1 eR' eT' d2; set X := film_stack _ _ _ _ _; set yb := ci * RtoC nb; set y := ci * RtoC nt.
rewrite -/yb -/y in y0 y1 *.
move=> eR eT d1 eR' eT' /= d2.
have kb : (RtoC nb / RtoC nt) = yb / y by rewrite /yb /y invfM mulrACA mulfV ?ci_neq0 // mul1r.
have rR : R_p r' i ord0 = - R_s r i ord0.
  rewrite eR eR' /film_r /=.
  apply: (mulIf d2); rewrite mulfVK //.
  have -> : - (y)^-1 * (yb^-1 * X.2) + - (yb^-1 * X.1) = - (y^-1 * yb^-1 * (y * X.1 + X.2)).
    rewrite mulrDr; have -> : y^-1 * yb^-1 * (y * X.1) = y^-1 * y * (yb^-1 * X.1) by set a := y^-1; set b := yb^-1; cring.
    by rewrite mulVf // mul1r; set a := y^-1; set b := yb^-1; cring.
  have -> : - ((y * X.1 - X.2) / (y * X.1 + X.2)) * - (y^-1 * yb^-1 * (y * X.1 + X.2))
     = (y * X.1 - X.2) * (y^-1 * yb^-1) * ((y * X.1 + X.2) / (y * X.1 + X.2)).
    by set a := y^-1; set b := yb^-1; set c := (y * X.1 + X.2)^-1; cring.
  rewrite mulfV // mulr1 mulrBl.
  have -> : y * X.1 * (y^-1 * yb^-1) = y^-1 * y * (yb^-1 * X.1) by set a := y^-1; set b := yb^-1; cring.
  by rewrite mulVf // mul1r; set a := y^-1; set b := yb^-1; cring.
have rT : T_p r' i ord0 = RtoC (nb / nt) * T_s r i ord0.
  rewrite RtoC_div; last lra.
  rewrite kb eT eT' /film_t /=.
  apply: (mulIf d2); rewrite mulfVK //.
  have -> : - (y)^-1 * (yb^-1 * X.2) + - (yb^-1 * X.1) = - (y^-1 * yb^-1 * (y * X.1 + X.2)).
    rewrite mulrDr; have -> : y^-1 * yb^-1 * (y * X.1) = y^-1 * y * (yb^-1 * X.1) by set a := y^-1; set b := yb^-1; cring.
    by rewrite mulVf // mul1r; set a := y^-1; set b := yb^-1; cring.
  have -> : yb / y * (2%:R * y / (y * X.1 + X.2)) * - (y^-1 * yb^-1 * (y * X.1 + X.2)) =
     - (2%:R * y^-1 * (yb * yb^-1) * (y * y^-1) * ((y * X.1 + X.2) * (y * X.1 + X.2)^-1)).
    by set a := y^-1; set b := yb^-1; set c := (y * X.1 + X.2)^-1; set two := 2%:R; cring.
  by rewrite !mulfV // !mulr1 mulrN.
split=> //.
- have -> : nrm2 (R_p r' i ord0) = nrm2 (R_s r i ord0) by rewrite rR; cunf; ring.
  by [].
rewrite rT nrm2M.
have kzb : kz_1d (n_bot s) (kx_vector s w) i = RtoC nb.
  have hpv : phi_val s = RtoC 0 by rewrite /phi_val hphi.
  have [kxE _] := kx_phys w h1 h3 h2 hpv.
  rewrite /kz_1d hb kxE hi order_mid sin_0.
  have -> : (nt * 0 * cos 0 + 0 * (w / period_x s) = 0)%coqR by ring.
  by rewrite kz_losslessE.
rewrite -[kx_vector (with_pol s 1) w]/(kx_vector s w) -[kx_vector (with_pol s 0) w]/(kx_vector s w) kzb hb.
rewrite Re_div_sq; last lra.
rewrite /nrm2 Re_RtoC Im_RtoC; field; lra.
Qed.

End Normal.

(** ** Absorbing substrates *)
Lemma csqrt_of_sqr (z : C) : (0 < Re z)%coqR -> csqrt (z * z) = z.
Proof.
move=> h; have e := csqrt_sqr (z * z); have g := csqrt_Re_ge0 (z * z).
move: e g; set x := csqrt _ => e g.
have /eqP : (x - z) * (x + z) = 0.
  transitivity (x * x - z * z); first by cring.
  by rewrite e subrr.
rewrite mulf_eq0 => /orP [/eqP h1|/eqP h1].
  by apply/eqP; rewrite -subr_eq0 h1.
exfalso; have := congr1 Re h1; rewrite -[Re 0]/0%coqR; move: g h; cunf => g h h'; lra.
Qed.

Lemma kx_bare nr k p ts w i : (i < 1)%N -> kx_vector (bare nr k p ts) w i = 0.
Proof.
case: i => // _; rewrite /kx_vector /sin_theta /phi_val /order /=.
case: Rle_dec => h.
  by move: h; rewrite -[Re _]/0%coqR /pi32 => h; lra.
by rewrite csin_real sin_0; cext.
Qed.

Lemma csqrt1 : csqrt 1 = 1.
Proof. by have := csqrt_nonneg Rle_0_1; rewrite sqrt_1. Qed.

Lemma nrm2_pos (z : C) : z != 0 -> (0 < nrm2 z)%coqR.
Proof.
move=> h; case: (Rle_lt_or_eq_dec _ _ (nrm2_ge0 z)) => // e.
by move: h; rewrite (nrm2_eq0 (esym e)) eqxx.
Qed.

Lemma nrm2_div (x y : C) : y != 0 -> nrm2 (x / y) = (nrm2 x / nrm2 y)%coqR.
Proof.
move=> h; have p := nrm2_pos h.
have e : (nrm2 (x / y)%R * nrm2 y = nrm2 x)%coqR by rewrite -nrm2M mulfVK.
by rewrite -e; field; lra.
Qed.

Lemma nrm2_cexp z : nrm2 (cexp z) = exp (Re z + Re z).
Proof.
have := sin2_cos2 (Im z); rewrite /Rsqr => h.
rewrite exp_plus; transitivity (exp (Re z) * exp (Re z) * (sin (Im z) * sin (Im z) + cos (Im z) * cos (Im z)))%coqR.
  rewrite /nrm2 /cexp; set a := Re z; set b := Im z; rewrite /Re /Im /=; ring.
by rewrite h; ring.
Qed.

Section Absorb.
Variable pinv : forall n, 'M[C]_n -> 'M[C]_n.
Variable eig : forall n, 'M[C]_n -> 'rV[C]_n * 'M[C]_n.
Hypothesis heig : eigen_oracle eig.
Hypothesis hsplit : splits_diagonal eig.

Lemma hsplit_f n (f : nat -> C) : (eig (diagf n f)).2 \in unitmx.
Proof. exact: hsplit. Qed.

Section One.
Variables nr k : R.
Hypothesis nr0 : (0 < nr)%coqR.
Let nb : C := (nr, (- k)%coqR).

Lemma kzb_bare p ts w (i : 'I_1) : kz_1d nb (kx_vector (bare nr k p ts) w) i = conj nb.
Proof.
rewrite /kz_1d kx_bare // expr2 expr2 mulr0 subr0 csqrt_of_sqr //.
Qed.
Lemma kzt_bare p ts w (i : 'I_1) : kz_1d (RtoC 1) (kx_vector (bare nr k p ts) w) i = 1.
Proof. by rewrite /kz_1d kx_bare // !expr2 mulr0 subr0 (_ : RtoC 1 = 1) // mulr1 csqrt1 conj1. Qed.

Lemma nb0 : nb != 0.
Proof. by apply/eqP => -[h]; lra. Qed.

(** The quantity that plays the role of 1 / n in the TM solve. *)
Let u : C := conj nb / nb ^+ 2.

Lemma Re_u : (Re u = nr * (nr * nr - 3 * (k * k)) / (nrm2 nb * nrm2 nb))%coqR.
Proof.
have p := nrm2_pos nb0.
have e : u = conj nb * (conj nb * conj nb) / RtoC (nrm2 nb * nrm2 nb).
  rewrite /u RtoC_mul -!mul_conj expr2 !invfM.
  have h0 := nb0; have h1 : conj nb != 0 by rewrite conj_eq0.
  have e1 := mulfV h1; move: e1; set a := nb^-1; set b := (conj nb)^-1; set c := conj nb => e1.
  transitivity (c * (c * b) * (c * b) * (a * a)); first by rewrite e1 !mulr1.
  by cring.
rewrite e Re_divR; last nra.
by congr (_ / _)%coqR; rewrite /nb; cunf; ring.
Qed.

Lemma bare_tm w : 1 + u != 0 ->
  exists r T1 infos, solve_1d pinv eig false (bare nr k 1 [::]) w [::] = Some (r, T1, infos) /\
  [/\ R_p r ord0 ord0 = (1 - u) / (1 + u), T_p r ord0 ord0 = 2%:R / (1 + u),
      de_ri r ord0 = nrm2 (R_p r ord0 ord0) & de_ti r ord0 = (nrm2 (T_p r ord0 ord0) * Re u)%coqR].
Proof.
move=> h.
have t1 : is_tm 1 = true by rewrite is_tmE reqb_refl.
set s := bare nr k 1 [::].
have yb (i : 'I_1) : admittance true (n_bot s ^+ 2) (ci * kz_1d (n_bot s) (kx_vector s w) i) = ci * u.
  by rewrite /admittance -[n_bot s]/nb kzb_bare /u mulrA.
have y0 (i : 'I_1) : admittance true (n_top s ^+ 2) (ci * kz_1d (n_top s) (kx_vector s w) i) = ci.
  by rewrite /admittance -[n_top s]/(1 : C) kzt_bare mulr1 expr2 mulr1 divr1.
have hc (i : 'I_1) : ci * 1 + ci * u != 0 by rewrite -mulrDr mulf_neq0 ?ci_neq0.
have [r [T1 [infos e]]] : exists r T1 infos, solve_1d pinv eig false s w (map (fun ed : C * R => uniform_convs (ff_x s) ed.1) [::]) = Some (r, T1, infos).
  apply: (film_solve_some pinv heig hsplit_f (s := s) (w := w) (films := [::])) => //; first by right.
  by move=> i; rewrite t1 y0 yb; apply: (hc i).
exists r, T1, infos; split=> //.
have := e; rewrite /solve_1d /= => /(@film_rcwa_1d _ _ (eigen_eig_ok heig) _ _ _ _ _ _ _ [::]) /= [_ [_ [_ hh]]].
have [_] := hh ord0; rewrite -is_tmE t1 yb y0 /amp_R /amp_T -is_tmE t1 /film_stack /=.
rewrite ccos_real cos_0 (_ : RtoC 1 = 1) // mulr1 divr1 => eR eT.
have ci2' : ci + ci = ci * 2%:R by rewrite mulr_natr mulr2n.
have q : ci + ci * u = ci * (1 + u) by rewrite mulrDr mulr1.
have q' : ci * (1 + u) != 0 by rewrite mulf_neq0 ?ci_neq0.
rewrite q ci2' invfM mulrACA mulfV ?ci_neq0 // !mul1r in eR eT.
have h1 : (0 <= 0 < PI / 2)%coqR by have := PI_RGT_0; lra.
have [ef1 ef2] := eff_amp (s := s) (nt := 1) (th := 0) erefl Rlt_0_1 erefl h1 e ord0.
rewrite /= t1 in ef1 ef2; split=> //.
- rewrite eR; apply: (mulIf h); rewrite mulrBl !mulfVK // -[2%:R]/(1 + 1 : C); cring.
- by rewrite ef1 (kzt_bare 1 [::] w ord0) /co_R cos_0 -[Re 1]/1%coqR; field.
- by rewrite ef2 (kzb_bare 1 [::] w ord0) /co_T cos_0 -/u; field.
Qed.

Lemma bare_tm_bad w : (1 <= nr)%coqR -> (nr * nr < 3 * (k * k))%coqR ->
  exists r T1 infos, [/\ solve_1d pinv eig false (bare nr k 1 [::]) w [::] = Some (r, T1, infos),
     (de_ti r ord0 < 0)%coqR & (1 < de_ri r ord0)%coqR].
Proof.
move=> n1 hk; have p := nrm2_pos nb0.
have hu : (Re u < 0)%coqR.
  rewrite Re_u /Rdiv; have ip := Rinv_0_lt_compat _ (Rmult_lt_0_compat _ _ p p).
  suff : (0 < nr * (3 * (k * k) - nr * nr) * / (nrm2 nb * nrm2 nb))%coqR by lra.
  by apply: Rmult_lt_0_compat => //; apply: Rmult_lt_0_compat; lra.
have hd : 1 + u != 0.
  apply/eqP => e.
  have e2 : nb ^+ 2 + conj nb = 0.
    have -> : nb ^+ 2 + conj nb = nb ^+ 2 * (1 + u).
      by rewrite mulrDr mulr1 /u mulrC mulfVK // expf_neq0 // nb0.
    by rewrite e mulr0.
  have := congr1 Im e2; rewrite expr2 -[Im 0]/0%coqR /nb; cunf => h.
  have k0 : k = 0%coqR by nra.
  by move: hk; rewrite k0; nra.
have [r [T1 [infos [e [eR eT er et]]]]] := bare_tm w hd.
exists r, T1, infos; split=> //.
- rewrite et; have t0 : (0 < nrm2 (T_p r ord0 ord0))%coqR by apply: nrm2_pos; rewrite eT mulf_neq0 ?invr_neq0 ?Ctwo_neq0.
  by nra.
- rewrite er eR nrm2_div //; have d0 := nrm2_pos hd.
  apply: (Rmult_lt_reg_r (nrm2 (1 + u))) => //.
  rewrite /Rdiv Rmult_assoc Rinv_l; last lra.
  by move: hu; cunf => hu; nra.
Qed.

Lemma bare_te w :
  exists r T1 infos, solve_1d pinv eig false (bare nr k 0 [::]) w [::] = Some (r, T1, infos) /\
  R_s r ord0 ord0 = (1 - conj nb) / (1 + conj nb) /\ (de_ri r ord0 < 1)%coqR.
Proof.
have h : 1 + conj nb != 0.
  by apply/eqP => e; have := congr1 Re e; rewrite -[Re 0]/0%coqR /nb; cunf => h; lra.
have t1 : is_tm 0 = false by rewrite is_tmE reqb01.
set s := bare nr k 0 [::].
have yb (i : 'I_1) : admittance false (n_bot s ^+ 2) (ci * kz_1d (n_bot s) (kx_vector s w) i) = ci * conj nb.
  by rewrite /admittance -[n_bot s]/nb kzb_bare.
have y0 (i : 'I_1) : admittance false (n_top s ^+ 2) (ci * kz_1d (n_top s) (kx_vector s w) i) = ci.
  by rewrite /admittance -[n_top s]/(1 : C) kzt_bare mulr1.
have hc (i : 'I_1) : ci * 1 + ci * conj nb != 0 by rewrite -mulrDr mulf_neq0 ?ci_neq0.
have [r [T1 [infos e]]] : exists r T1 infos, solve_1d pinv eig false s w (map (fun ed : C * R => uniform_convs (ff_x s) ed.1) [::]) = Some (r, T1, infos).
  apply: (film_solve_some pinv heig hsplit_f (s := s) (w := w) (films := [::])) => //; first by left.
  by move=> i; rewrite t1 y0 yb; apply: (hc i).
exists r, T1, infos; split=> //.
have := e; rewrite /solve_1d /= => /(@film_rcwa_1d _ _ (eigen_eig_ok heig) _ _ _ _ _ _ _ [::]) /= [_ [_ [_ hh]]].
have [_] := hh ord0; rewrite -is_tmE t1 yb y0 /amp_R /amp_T -is_tmE t1 /film_stack /=.
rewrite ccos_real cos_0 (_ : RtoC 1 = 1) // !mulr1 => eR _.
have ci2' : ci + ci = ci * 2%:R by rewrite mulr_natr mulr2n.
have q : ci + ci * conj nb = ci * (1 + conj nb) by rewrite mulrDr mulr1.
rewrite q ci2' invfM mulrACA mulfV ?ci_neq0 // !mul1r in eR.
have eR2 : R_s r ord0 ord0 = (1 - conj nb) / (1 + conj nb).
  by rewrite eR; apply: (mulIf h); rewrite mulrBl !mulfVK // -[2%:R]/(1 + 1 : C); cring.
split=> //.
have h1 : (0 <= 0 < PI / 2)%coqR by have := PI_RGT_0; lra.
have [ef1 _] := eff_amp (s := s) (nt := 1) (th := 0) erefl Rlt_0_1 erefl h1 e ord0.
rewrite /= t1 in ef1.
rewrite ef1 (kzt_bare 0 [::] w ord0) /co_R cos_0 -[Re 1]/1%coqR eR2 nrm2_div // (_ : (1 / (1 * 1) = 1)%coqR) ?Rmult_1_r; last by field.
have d0 := nrm2_pos h.
apply: (Rmult_lt_reg_r (nrm2 (1 + conj nb))) => //.
rewrite /Rdiv Rmult_assoc Rinv_l; last lra.
by rewrite /nb; cunf; nra.
Qed.

End One.

(** With a layer of the substrate's own material the solver still returns. *)
Lemma own_layer_returns nr k w d : (0 < k <= nr)%coqR -> (0 < w)%coqR -> (0 < d)%coqR ->
  let nb : C := (nr, (- k)%coqR) in
  exists r T1 infos, solve_1d pinv eig false (bare nr k 0 [:: d]) w [:: uniform_convs 1 (nb * nb)] = Some (r, T1, infos).
Proof.
move=> [k0 kn] w0 d0 nb; have n0 : (0 < nr)%coqR by lra.
have t0 : is_tm 0 = false by rewrite is_tmE reqb01.
set s := bare nr k 0 [:: d].
have bnz : nb != 0 by apply/eqP => -[h]; lra.
have yb (i : 'I_1) : admittance false (n_bot s ^+ 2) (ci * kz_1d (n_bot s) (kx_vector s w) i) = ci * conj nb.
  by rewrite /admittance -[n_bot s]/nb kzb_bare.
have y0 (i : 'I_1) : admittance false (n_top s ^+ 2) (ci * kz_1d (n_top s) (kx_vector s w) i) = ci.
  by rewrite /admittance -[n_top s]/(1 : C) kzt_bare mulr1.
have hq (i : 'I_1) : csqrt (kx_vector s w i ^+ 2 - nb * nb) = ci * nb.
  rewrite kx_bare // expr2 mulr0 sub0r -[RHS]csqrt_of_sqr; last by rewrite /nb; cunf; lra.
  by congr csqrt; rewrite mulrACA ci2 mulN1r.
apply: (film_solve_some pinv heig hsplit_f (s := s) (w := w) (films := [:: (nb * nb, d)])) => //; first by left.
  split=> //; first by rewrite mulf_neq0.
  move=> i y EH.
  have -> : y = ci * nb by rewrite /y -is_tmE t0 /admittance hq.
  have -> : EH = (1, ci * conj nb) by rewrite /EH /film_stack /= -[is_tm (pol s)]/(is_tm 0) t0 yb.
  rewrite mulf_neq0 ?ci_neq0 //; split=> //=.
  rewrite mulr1 -mulrDr mulf_neq0 ?ci_neq0 //.
  by apply/eqP => e; have := congr1 Re e; rewrite -[Re 0]/0%coqR /nb; cunf => h; lra.
move=> i; rewrite t0 yb y0 /film_stack /film /= hq mulr1.
set ph := _ * (ci * nb) * _; apply/eqP => e.
have pr : (0 < Re ph)%coqR.
  have := PI_RGT_0 => pi0.
  rewrite /ph /nb /k0_of; set c := (2 * PI / w)%coqR.
  have c0 : (0 < c)%coqR by apply: Rdiv_lt_0_compat; lra.
  have -> : Re (RtoC c * (ci * (nr, (- k)%coqR)) * RtoC d) = (c * k * d)%coqR by cunf; ring.
  by apply: Rmult_lt_0_compat => //; apply: Rmult_lt_0_compat.
have e2 : cexp ph * ((nb + conj nb) * (1 + nb)) = - (cexp (- ph) * ((nb - conj nb) * (1 - nb))).
  have y1 : ci * nb != 0 by rewrite mulf_neq0 ?ci_neq0.
  have ey := mulfV y1; move: ey; set yi := (ci * nb)^-1 => ey.
  have ci0 := ci_neq0.
  move: e; rewrite /ccosh /csinh mulr1 -/yi.
  set a := cexp ph; set b := cexp (- ph); set h := 2%:R^-1 => e.
  have h0 : h != 0 by rewrite invr_neq0 ?Ctwo_neq0.
  apply/eqP; rewrite -addr_eq0; apply/eqP.
  apply: (mulfI h0); apply: (mulfI ci0); rewrite !mulr0.
  transitivity (nb * 0 : C); last by rewrite mulr0.
  rewrite -e.
  transitivity (ci * h * (a * ((nb + conj nb) * (1 + nb)) + b * ((nb - conj nb) * (1 - nb)))); first by cring.
  transitivity (nb * (ci * ((a + b) * h) + ci * ((a - b) * h * (ci * conj nb * yi)) + ci * nb * ((a - b) * h) + (a + b) * h * (ci * conj nb))); last by cring.
  have -> : nb * (ci * ((a + b) * h) + ci * ((a - b) * h * (ci * conj nb * yi)) + ci * nb * ((a - b) * h) + (a + b) * h * (ci * conj nb))
     = ci * nb * ((a + b) * h) + (ci * nb * yi) * (ci * (a - b) * h * conj nb) + ci * nb * nb * ((a - b) * h) + nb * (a + b) * h * (ci * conj nb) by cring.
  rewrite ey; cring.
have := congr1 nrm2 e2.
have -> : nrm2 (- (cexp (- ph) * ((nb - conj nb) * (1 - nb)))) = (nrm2 (cexp (- ph)%R) * (nrm2 (nb - conj nb)%R * nrm2 (1 - nb)%R))%coqR.
  by rewrite -!nrm2M; cunf; ring.
rewrite !nrm2M !nrm2_cexp.
have l1 : (exp (Re (- ph)%R + Re (- ph)%R) < exp (Re ph + Re ph))%coqR.
  by apply: exp_increasing; have -> : Re (- ph) = (- Re ph)%coqR by []; lra.
have l2 : (0 <= nrm2 (nb - conj nb)%R * nrm2 (1 - nb)%R)%coqR by apply: Rmult_le_pos; apply: nrm2_ge0.
have l3 : (nrm2 (nb - conj nb)%R * nrm2 (1 - nb)%R < nrm2 (nb + conj nb)%R * nrm2 (1 + nb)%R)%coqR.
  have -> : nrm2 (nb - conj nb) = (4 * (k * k))%coqR by rewrite /nb; cunf; ring.
  have -> : nrm2 (nb + conj nb) = (4 * (nr * nr))%coqR by rewrite /nb; cunf; ring.
  have -> : nrm2 (1 - nb) = (1 - 2 * nr + nr * nr + k * k)%coqR by rewrite /nb; cunf; ring.
  have -> : nrm2 (1 + nb) = (1 + 2 * nr + nr * nr + k * k)%coqR by rewrite /nb; cunf; ring.
  have h1 : (k * k <= nr * nr)%coqR by nra.
  have h2 : (0 < k * k)%coqR by nra.
  nra.
have l4 := exp_pos (Re (- ph)%R + Re (- ph)%R).
nra.
Qed.

(** A layer of the absorbing substrate's own material changes the reflected amplitude (TE). *)
Lemma own_layer_visible nr k w d r T1 infos r' T1' infos' :
  (0 < nr)%coqR -> (0 < k)%coqR -> (0 < w)%coqR -> (0 < d)%coqR ->
  let nb : C := (nr, (- k)%coqR) in
  solve_1d pinv eig false (bare nr k 0 [::]) w [::] = Some (r, T1, infos) ->
  solve_1d pinv eig false (bare nr k 0 [:: d]) w [:: uniform_convs 1 (nb * nb)] = Some (r', T1', infos') ->
  R_s r' ord0 ord0 <> R_s r ord0 ord0.
Proof.
move=> n0 k0 w0 d0 nb.
have t0 : is_tm 0 = false by rewrite is_tmE reqb01.
rewrite /solve_1d /= => /(@film_rcwa_1d _ _ (eigen_eig_ok heig) _ _ _ _ _ _ _ [::]) /= [_ [_ [_ /(_ ord0)]]].
rewrite -is_tmE t0 /amp_R -is_tmE t0 /=; case=> D1 R1 _.
move=> /(@film_rcwa_1d _ _ (eigen_eig_ok heig) _ _ _ _ _ _ _ [:: (nb * nb, d)]) /= [_ [_ [_ /(_ ord0)]]].
rewrite -is_tmE t0 /amp_R -is_tmE t0 /=; case=> D2 R2 _.
rewrite R1 R2; clear R1 R2; move: D1 D2.
rewrite /film_stack /film /= -[RtoC 1]/(1 : C).
have nbE : (nr, (- k)%coqR) = nb by [].
rewrite -[kx_vector (bare nr k 0 [::]) w]/(kx_vector (bare nr k 0 [::]) w).
rewrite (@kzt_bare nr k 0 [::] w ord0).
rewrite (@kzb_bare nr k n0 0 [::] w ord0).
rewrite kx_bare // expr2 mulr0 sub0r.
have -> : csqrt (- (nb * nb)) = ci * nb.
  rewrite -[RHS]csqrt_of_sqr; last by rewrite /nb; cunf; lra.
  by congr csqrt; rewrite mulrACA ci2 mulN1r.
rewrite ccos_real cos_0 !mulr1.
set ph := _ * (ci * nb) * _; rewrite /film_matrix /= ?mulr1 nbE.
set yb := ci * conj nb; set y := ci * nb.
have y0 : y != 0 by rewrite mulf_neq0 ?ci_neq0 ?nb0.
set E := ccosh ph + csinh ph / y * yb; set H := y * csinh ph + ccosh ph * yb.
move=> D1 D2 h.
have e1 : E / (ci * E + H) = 1 / (ci + yb).
  have := h => /(congr1 (fun z => z + 1)); rewrite !subrK !mulrA ![_ * (ci + ci)]mulrC -!mulrA.
  by move=> /mulfI; rewrite mul1r; apply; rewrite -mulr2n -mulr_natr mulf_neq0 ?ci_neq0 ?Ctwo_neq0.
have e2 : E * yb = H.
  have : E * (ci + yb) = ci * E + H.
    have := congr1 (fun z => z * (ci * E + H) * (ci + yb)) e1; rewrite mulfVK // div1r mulrAC mulVf // mul1r.
    by [].
  by rewrite mulrDr mulrC => /addrI.
have e3 : csinh ph * (y * y - yb * yb) = 0.
  have : y * (E * yb) = y * H by rewrite e2.
  rewrite /E /H => e.
  have {e} : y * csinh ph * y - (y * y^-1) * (csinh ph * yb * yb) = 0.
    transitivity (y * (y * csinh ph + ccosh ph * yb) - y * ((ccosh ph + csinh ph / y * yb) * yb)); last by rewrite e subrr.
    by set yi := y^-1; cring.
  rewrite mulfV // mul1r => <-; cring.
have [/eqP s0|/eqP s0] : csinh ph == 0 \/ y * y - yb * yb == 0.
  by apply/orP; rewrite -mulf_eq0 e3.
- have : cexp ph = cexp (- ph).
    move: s0; rewrite /csinh => /eqP; rewrite mulf_eq0 invr_eq0 (negbTE Ctwo_neq0) orbF subr_eq0 => /eqP //.
  have pr : (0 < Re ph)%coqR.
    have := PI_RGT_0 => pi0.
    rewrite /ph /nb /k0_of; set c := (2 * PI / w)%coqR.
    have c0 : (0 < c)%coqR by apply: Rdiv_lt_0_compat; lra.
    have -> : Re (RtoC c * (ci * (nr, (- k)%coqR)) * RtoC d) = (c * k * d)%coqR by cunf; ring.
    by apply: Rmult_lt_0_compat => //; apply: Rmult_lt_0_compat.
  move=> e; have := congr1 nrm2 e; rewrite !nrm2_cexp.
  have -> : Re (- ph) = (- Re ph)%coqR by cunf.
  by move=> /exp_inv; lra.
- move: s0; rewrite /y /yb /nb => s0.
  have := congr1 Im s0; rewrite -[Im 0]/0%coqR; cunf => h'.
  have := Rmult_lt_0_compat _ _ n0 k0; nra.
Qed.

End Absorb.

(** ** Efficiencies of matched stacks and beyond the critical angle *)
Lemma Rdiv_eq1 (a b : R) : a = b -> (0 < b)%coqR -> (a / b = 1)%coqR.
Proof. by move=> -> h; field; lra. Qed.

Section More.
Variable pinv : forall n, 'M[C]_n -> 'M[C]_n.
Variable eig : forall n, 'M[C]_n -> 'rV[C]_n * 'M[C]_n.
Hypothesis heig : eigen_oracle eig.

Lemma kx_mid s w (nt th : R) i :
  n_top s = RtoC nt -> theta s = RtoC th -> (0 <= th < PI / 2)%coqR -> phi s = None -> i = fto_x s ->
  kx_vector s w i = RtoC (nt * sin th).
Proof.
move=> h1 h3 h2 hphi ->; have hpv : phi_val s = RtoC 0 by rewrite /phi_val hphi.
have [kxE _] := kx_phys w h1 h3 h2 hpv.
by rewrite kxE order_mid cos_0; congr RtoC; ring.
Qed.

Lemma matched_efficiencies s w films r T1 infos (nt th : R) :
  n_top s = RtoC nt -> (0 < nt)%coqR -> theta s = RtoC th -> (0 <= th < PI / 2)%coqR -> phi s = None ->
  n_bot s = RtoC nt -> (forall ed, List.In ed films -> ed.1 = RtoC (nt * nt)) ->
  thickness s = map snd films ->
  solve_1d pinv eig false s w (map (fun ed => uniform_convs (ff_x s) ed.1) films) = Some (r, T1, infos) ->
  forall i : 'I_(ff_x s), de_ri r i = 0%coqR /\ de_ti r i = (if (i : nat) == fto_x s then 1 else 0)%coqR.
Proof.
move=> h1 h0 h3 h2 hphi hb he ht hs i.
have [_ _ eR eT] := matched_solve heig h1 h0 h3 h2 hphi hb he ht hs i.
have [-> ->] := eff_amp h1 h0 h3 h2 hs i; rewrite eR eT; split; first by cunf; ring.
have c0 := cos_pos_below h2; have kc := Rmult_lt_0_compat _ _ h0 c0.
case: eqP => hi; last by cunf; ring.
rewrite nrm2_cexp.
have -> : Re (- (ci * RtoC (k0_of w * (nt * cos th) * total_thickness films))) = 0%coqR by cunf; ring.
rewrite Rplus_0_r exp_0 /kz_1d (kx_mid w h1 h3 h2 hphi hi) hb (kz_center h0 h2) // Re_div_sq ?Re_RtoC; last lra.
by case: (is_tm _); field; lra.
Qed.

Lemma tir_solve s w k (convs : seq (conv3 (ff_x s))) r T1 infos (nt th nb : R) :
  n_top s = RtoC nt -> (0 < nt)%coqR -> theta s = RtoC th -> (0 <= th < PI / 2)%coqR -> phi s = None ->
  n_bot s = RtoC nb -> (0 < nb)%coqR -> (nb < nt * sin th)%coqR ->
  thickness s = nseq k 0%coqR ->
  solve_1d pinv eig false s w convs = Some (r, T1, infos) ->
  forall i : 'I_(ff_x s), de_ri r i = (if (i : nat) == fto_x s then 1 else 0)%coqR /\ de_ti r i = 0%coqR.
Proof.
move=> h1 h0 h3 h2 hphi hb b0 hk ht hs0 i.
have e0 : reported_1d (solve_1d pinv eig false (with_thickness s (nseq k 0%coqR)) w convs) = Some r.
  rewrite -ht -[Some r]/(reported_1d (Some (r, T1, infos))) -hs0.
  by clear; case: s convs.
have e1 := zero_stack_1d e0.
case hs: (solve_1d pinv eig false (with_thickness s [::]) w [::]) e1 => [[[r' T1'] infos']|] //= [er].
rewrite er in hs *; clear er r' e0 hs0.
set s' := with_thickness s [::] in hs.
have [_ _ _ dn hc] := film_amplitudes heig (s := s') (films := [::]) h1 h0 h3 h2 hphi hb erefl hs.
have hn := film_no_diffraction heig (s := s') (films := [::]) erefl hs.
have [-> ->] := eff_amp (s := s') h1 h0 h3 h2 hs i.
rewrite -[pol s']/(pol s) in hc *; set tm := is_tm (pol s) in hc *.
case: eqP => hi; last first.
  have [h11 h12 h13 h14] := hn i hi; rewrite /co_R /co_T.
  by case: (tm); rewrite ?h11 ?h12 ?h13 ?h14; split; cunf; ring.
have [eR eT] := hc i hi; rewrite eR; rewrite /= in dn.
have c0 := cos_pos_below h2; have kc := Rmult_lt_0_compat _ _ h0 c0.
have kxi : kx_vector s' w i = RtoC (nt * sin th) by apply: (kx_mid w (s := s') h1 h3 h2 hphi hi).
have kzt : kz_1d (n_top s') (kx_vector s' w) i = RtoC (nt * cos th).
  by rewrite /kz_1d kxi [n_top s']h1 (kz_center h0 h2).
have kzb : kz_1d (n_bot s') (kx_vector s' w) i = - (ci * RtoC (sqrt (nt * sin th * (nt * sin th) - nb * nb))).
  rewrite /kz_1d kxi [n_bot s']hb kz_losslessE /kz_lossless; case: Rle_dec => h //; nra.
rewrite kzt kzb [n_bot s']hb Re_div_sq ?Re_RtoC; last lra.
split; last first.
  have -> : Re (- (ci * RtoC (sqrt (nt * sin th * (nt * sin th) - nb * nb)))) = 0%coqR by cunf; ring.
  by case: (tm); rewrite /Rdiv; ring.
have -> : (nt * cos th / (nt * cos th) = 1)%coqR by field; lra.
rewrite Rmult_1_r /film_r /film_stack /=.
have hh : half_space tm nb (nt * sin th) = RtoC (let z := sqrt (nt * sin th * (nt * sin th) - nb * nb) in if tm then z / (nb * nb) else z)%coqR.
  rewrite /half_space /kz_lossless; case: Rle_dec => h; first nra.
  rewrite mulrN mulrA ci2 mulN1r opprK /admittance; case: (tm) => //=.
  by rewrite -RtoC_div //; nra.
have dn' := dn; rewrite -[is_tm (pol s)]/tm /film_stack /= hh in dn'.
move: dn'; rewrite hh; set z := (let z := _ in _)%coqR.
case: (tm); rewrite mulr1 => dn'; rewrite nrm2_div //; apply: Rdiv_eq1; [|exact: nrm2_pos| |exact: nrm2_pos]; cunf; ring.
Qed.

End More.
