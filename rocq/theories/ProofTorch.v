(** The PyTorch solver compared with the NumPy solver. *)
From Coq Require Import Reals Lra Psatz FunctionalExtensionality.
From mathcomp Require Import all_ssreflect ssralg matrix mxalgebra.
From Coquelicot Require Import Complex.
From Verif Require Import Cplx Mx Spec ModelTM ModelTorch SpecSolve SpecTorch ProofFlux ProofEnergy1D ProofEnergy2D ProofSetup
  ProofEff ProofFilm ProofPinv ProofFilmSolve ProofSubstrate.

Set Implicit Arguments.
Unset Strict Implicit.
Unset Printing Implicit Defensive.
Local Open Scope ring_scope.
Import GRing.Theory.

(** ** Wave numbers *)
Lemma Cmod_real (x : R) : Cmod (RtoC x) = Rabs x.
Proof. exact: Cmod_R. Qed.

Lemma conj_kz (nn y : R) : conj (csqrt (RtoC nn - RtoC y)) =
  if Rlt_dec nn y then - ci * csqrt (RtoC y - RtoC nn) else csqrt (RtoC nn - RtoC y).
Proof.
rewrite -!RtoC_sub; case: Rlt_dec => h; last by rewrite csqrt_nonneg ?conjR //; lra.
rewrite csqrt_neg; last lra.
rewrite csqrt_nonneg; last lra.
by rewrite conjM conjI conjR; congr (_ * RtoC (sqrt _)); ring.
Qed.

Lemma abs_sq (x y : R) : (Rabs x < Rabs y <-> x * x < y * y)%coqR.
Proof.
split=> h; first by apply: Rsqr_lt_abs_1.
by apply: Rsqr_lt_abs_0.
Qed.

Lemma t_kz1E (nn x : R) kx i : kx i = RtoC x -> t_kz_1d (RtoC nn) kx i = kz_1d (RtoC nn) kx i.
Proof.
move=> e; rewrite /t_kz_1d /kz_1d e Cmod_real Re_RtoC !expr2 -!RtoC_mul conj_kz.
case: Rlt_dec => h; case: Rlt_dec => h' //.
  by case: h'; apply/abs_sq.
by case: h; apply/abs_sq.
Qed.

Lemma t_kz2E (nn x y : R) kx ky i : kx i = RtoC x -> ky i = RtoC y ->
  t_kz_2d (RtoC nn) kx ky i = kz_2d (RtoC nn) kx ky i.
Proof.
move=> e1 e2; rewrite /t_kz_2d /kz_2d e1 e2 Re_RtoC !expr2 -!RtoC_mul -!RtoC_add.
have -> : RtoC (nn * nn) - RtoC (x * x) - RtoC (y * y) = RtoC (nn * nn) - RtoC (x * x + y * y).
  by rewrite RtoC_add; cring.
rewrite Cmod_real conj_kz.
rewrite !Rabs_pos_eq; [|nra|nra].
by have -> : (nn ^ 2 = nn * nn)%coqR by ring.
Qed.

Lemma t_kx_phys s w : physical s -> t_kx_vector s w =1 kx_vector s w /\ t_ky_vector s w =1 ky_vector s w.
Proof.
move=> [[nt h0 h1] [th h2 h3] hp _ _].
have [f ef] := phi_real hp; have [k1 k2] := kx_phys w h1 h3 h2 ef.
rewrite /t_kx_vector /t_ky_vector h1 h3 ef csin_real ccos_real.
split=> i; rewrite ?k1 ?k2 ?csin_real -!RtoC_mul -RtoC_add conjR //.
Qed.

(** ** Signs *)
Lemma phase_side fx kx i : phase_conv fx kx i = side (kx i) (kx (fx %/ 2)%N).
Proof.
rewrite /phase_conv /branch_sign /side.
by case: Rlt_dec => h; case: Rlt_dec => h'; rewrite ?mulrNN ?mulr1 ?mul1r ?mulN1r.
Qed.
Lemma side_pm a b : side a b = 1 \/ side a b = -1.
Proof. by rewrite /side; case: Rlt_dec => h; case: Rlt_dec => h'; [left|right|right|left]. Qed.
Lemma side_nrm a b : nrm2 (side a b) = 1%coqR.
Proof. by case: (side_pm a b) => ->; rewrite /nrm2; cunf; ring. Qed.
Lemma nrm2_conj z : nrm2 (conj z) = nrm2 z.
Proof. by rewrite /nrm2 /conj /Re /Im /=; ring. Qed.
Lemma nrm2_M x y : nrm2 (x * y) = (nrm2 x * nrm2 y)%coqR.
Proof. by rewrite /nrm2 ReM ImM; ring. Qed.

Section Cmp.
Variable pinv : forall n, 'M[C]_n -> 'M[C]_n.
Variable eig : forall n, 'M[C]_n -> 'rV[C]_n * 'M[C]_n.
Variable up : bool.

Notation tinv := (t_inv pinv up).

(** ** The inversion: what NumPy inverts, PyTorch inverts to the same matrix. *)
Lemma tinv_of n (A B : 'M[C]_n) : meeinv pinv up A = Some B -> tinv A = B.
Proof. by rewrite /meeinv /t_inv; case: up; [case|case: ifP => // _ [<-]]. Qed.
Lemma tinv_some n (A B : 'M[C]_n) : meeinv pinv up A = Some B -> meeinv tinv true A = Some B.
Proof. by move/tinv_of => <-. Qed.

Ltac inv1 h := match goal with |- context [meeinv pinv up ?A] =>
  case h: (meeinv pinv up A) => [?|] //; rewrite (tinv_some h) end.

Lemma update_t m (W V X F G T : 'M[C]_m) r :
  layer_update pinv up W V X F G T = Some r -> layer_update tinv true W V X F G T = Some r.
Proof. by rewrite /layer_update; inv1 h1; inv1 h2; inv1 h3. Qed.

Lemma t12_t pol n kx (ex ey ez : 'M[C]_n) r :
  transfer_1d_2 pinv eig up pol kx ex ey ez = Some r -> transfer_1d_2 tinv eig true pol kx ex ey ez = Some r.
Proof.
rewrite /transfer_1d_2; case: ifP => // _; case: ifP => // _.
by case: (eig _) => l W; inv1 h1.
Qed.

Lemma tc2_t n kx ky (ex ey ez : 'M[C]_n) r :
  transfer_1d_conical_2 pinv eig up kx ky ex ey ez = Some r ->
  transfer_1d_conical_2 tinv eig true kx ky ex ey ez = Some r.
Proof.
by rewrite /transfer_1d_conical_2; case: (eig _) => l W; case: (eig _) => l' W'; inv1 h1; inv1 h2.
Qed.

Lemma s1_t pol n kx k0 (l : layer n) st r :
  step_1d pinv eig up pol kx k0 l st = Some r -> step_1d tinv eig true pol kx k0 l st = Some r.
Proof.
case: st => [[[F G] T] is']; rewrite /step_1d.
case e: (transfer_1d_2 _ _ _ _ _ _ _ _) => [[[W V] q]|] //; rewrite (t12_t e) /transfer_1d_3.
by case u: (layer_update _ _ _ _ _ _ _ _) => [[[[[? ?] ?] ?] ?]|] //; rewrite (update_t u).
Qed.

Lemma sc_t n kx ky c s k0 (l : layer n) st r :
  step_conical pinv eig up kx ky c s k0 l st = Some r -> step_conical tinv eig true kx ky c s k0 l st = Some r.
Proof.
case: st => [[[F G] T] is']; rewrite /step_conical.
case e: (transfer_1d_conical_2 _ _ _ _ _ _ _ _) => [[[W V] q]|] //; rewrite (tc2_t e) /transfer_1d_conical_3; case: (conical_big W V c s) => bW bV.
by case u: (layer_update _ _ _ _ _ _ _ _) => [[[[[? ?] ?] ?] ?]|] //; rewrite (update_t u).
Qed.

(** ** The last step in 1D *)
Lemma t14_t pol n (F G T : 'M[C]_n) kx kt kb th nt nb r T1 :
  transfer_1d_4 pinv up pol F G T kt kb th nt nb = Some (r, T1) ->
  exists2 r', t_transfer_1d_4 pinv up pol F G T kx kt kb th nt nb = Some (r', T1) &
    same_efficiencies r' r /\ conjugated (fun i => side (kx i) (kx (n %/ 2)%N)) 1 1 1 r' r.
Proof.
have effE (z p : C) (x : R) : nrm2 p = 1%coqR ->
    Re (conj z * p * conj (conj z * p) * RtoC x) = Re (z * conj z * RtoC x).
  by move=> h; rewrite !de_form nrm2_M nrm2_conj h Rmult_1_r.
rewrite /transfer_1d_4 /t_transfer_1d_4; case: ifP => _.
  case e: (meeinv _ _ _) => [M|] //; rewrite (tinv_of e) => -[<- <-]; eexists; first by reflexivity.
  split=> i /=.
    by rewrite !mxE !phase_side; split; split=> //; apply: effE; apply: side_nrm.
  by rewrite !mxE !phase_side conj0 !mul1r !mulr0; split=> //; rewrite mulrC.
case: ifP => // _.
case e: (meeinv _ _ _) => [M|] //; rewrite (tinv_of e) => -[<- <-]; eexists; first by reflexivity.
split=> i /=.
  by rewrite !mxE !phase_side; split; split=> //; apply: effE; apply: side_nrm.
by rewrite !mxE !phase_side conj0 !mul1r !mulr0; split=> //; rewrite mulrC.
Qed.

(** With real wave numbers and indices the two backends start from the same matrices. *)
Lemma t11E pol n kx nt nb : (forall i, exists x : R, kx i = RtoC x) -> is_real nt -> is_real nb ->
  t_transfer_1d_1 pol n kx nt nb = transfer_1d_1 pol n kx nt nb.
Proof.
move=> hk [a ->] [b ->]; rewrite /transfer_1d_1 /t_transfer_1d_1.
have ek (c : R) : t_kz_1d (RtoC c) kx = kz_1d (RtoC c) kx.
  by apply: functional_extensionality => i; have [x e] := hk i; apply: t_kz1E e.
by rewrite !ek.
Qed.

Lemma tsp1E n kx ky nt nb : (forall i, exists x : R, kx i = RtoC x) -> (forall i, exists x : R, ky i = RtoC x) ->
  is_real nt -> is_real nb ->
  t_transfer_sp_1 n kx ky nt nb = transfer_sp_1 n kx ky nt nb.
Proof.
move=> hk hk' [a ->] [b ->]; rewrite /transfer_sp_1 /t_transfer_sp_1.
have ek (c : R) : t_kz_2d (RtoC c) kx ky = kz_2d (RtoC c) kx ky.
  by apply: functional_extensionality => i; have [x e] := hk i; have [y e'] := hk' i; apply: t_kz2E e e'.
by rewrite !ek.
Qed.

Lemma phys_real s w : physical s ->
  [/\ t_kx_vector s w = kx_vector s w, t_ky_vector s w = ky_vector s w,
      (forall i, exists x : R, kx_vector s w i = RtoC x) & (forall i, exists x : R, ky_vector s w i = RtoC x)].
Proof.
move=> ph; have [e1 e2] := t_kx_phys w ph.
split; [exact: functional_extensionality|exact: functional_extensionality| |].
- case: ph => [[nt h0 h1] [th h2 h3] hp _ _] i; have [f ef] := phi_real hp; have [k1 _] := kx_phys w h1 h3 h2 ef.
  by rewrite k1; eexists; reflexivity.
case: ph => [[nt h0 h1] [th h2 h3] hp _ _] i; have [f ef] := phi_real hp; have [_ k2] := kx_phys w h1 h3 h2 ef.
by rewrite k2; eexists; reflexivity.
Qed.

Lemma pos_is_real z : pos_real z -> is_real z.
Proof. by case=> r _ ->; exists r. Qed.

Lemma torch_1d s w convs r T1 infos : physical s -> is_real (n_bot s) ->
  solve_1d pinv eig up s w convs = Some (r, T1, infos) ->
  exists2 r', t_solve_1d pinv eig up s w convs = Some (r', T1, infos) &
    same_efficiencies r' r /\ conjugated (fun i => side (kx_vector s w i) (kx_vector s w (fto_x s))) 1 1 1 r' r.
Proof.
move=> ph hb; rewrite /solve_1d /t_solve_1d; case: (layers_of _ _) => [ls|] //.
have [ek _ hk _] := phys_real w ph; case: (ph) => /pos_is_real ht _ _ _ _.
rewrite ek /t_rcwa_1d /rcwa_1d t11E //.
case: (transfer_1d_1 _ _ _ _ _) => [[[[[kt kb] F] G] T]|] //.
case e: (stack_with _ _ _) => [[[[F' G'] T'] is']|] //.
rewrite (stack_mono (@s1_t _ _ _ _) e).
case e4: (transfer_1d_4 _ _ _ _ _ _ _ _ _ _ _) => [[r' T1']|] // [<- <- <-].
have [r2 -> h] := t14_t (kx_vector s w) e4; exists r2 => //.
by rewrite /ff_x half_ff in h.
Qed.

(** ** Conical and 2D *)
Lemma t_final_BE n psi theta nt : t_final_B n psi theta nt =
  csin psi *: final_B n (RtoC (PI / 2)) theta nt - ccos psi *: final_B n (RtoC 0) theta nt.
Proof.
rewrite /final_B /t_final_B csin_pi2 ccos_pi2 csin_0 ccos_0 !scale_col_mx !opp_col_mx !add_col_mx !scalerA -!scalerBl.
congr (col_mx (col_mx (_ *: _) (_ *: _)) (col_mx (_ *: _) (_ *: _))).
- by rewrite mulrN mulr1 oppr0 mulr0 subr0.
- by cring.
- by cring.
- by cring.
Qed.

Lemma t_final_B_te n theta nt : t_final_B n (RtoC (PI / 2)) theta nt = final_B n (RtoC (PI / 2)) theta nt.
Proof. by rewrite t_final_BE csin_pi2 ccos_pi2 scale1r scale0r subr0. Qed.
Lemma t_final_B_tm n theta nt : t_final_B n (RtoC 0) theta nt = - final_B n (RtoC 0) theta nt.
Proof. by rewrite t_final_BE csin_0 ccos_0 scale1r scale0r sub0r. Qed.
Lemma t_final_B_neg n (p : R) theta nt : t_final_B n (RtoC p) theta nt = - final_B n (RtoC (- p)) theta nt.
Proof.
rewrite t_final_BE (final_B_lin n (RtoC (- p))) !csin_real !ccos_real sin_neg cos_neg RtoC_opp scaleNr.
by rewrite opprD opprK.
Qed.

Lemma real_inv (a : R) : exists u : R, (RtoC a)^-1 = RtoC u.
Proof.
by exists (Re (RtoC a)^-1); apply: conj_real; rewrite conjV conjR.
Qed.

Lemma p_weight (a : R) (k c : C) : Re (k / RtoC a ^+ 2 / c) = (nrm2 (ci / RtoC a)%R * Re (k / c)%R)%coqR.
Proof.
have [u e] := real_inv a; rewrite expr2 invfM e -RtoC_mul.
have -> : k * RtoC (u * u) / c = RtoC (u * u) * (k / c) by rewrite -mulrA mulrCA.
by rewrite ReZ; congr (_ * _)%coqR; rewrite /nrm2; cunf; ring.
Qed.

Lemma nrm2N z : nrm2 (- z) = nrm2 z.
Proof. by rewrite /nrm2 ReN ImN; ring. Qed.

Lemma de_s (z p k c : C) : nrm2 p = 1%coqR ->
  Re (conj (1 * z) * p * conj (conj (1 * z) * p) * RtoC (Re (k / c))) = Re (z * conj z * RtoC (Re (k / c))).
Proof. by move=> h; rewrite mul1r !de_form nrm2_M nrm2_conj h Rmult_1_r. Qed.
Lemma de_p (z p k c f : C) (a : R) : nrm2 p = 1%coqR -> nrm2 f = nrm2 (ci / RtoC a) ->
  Re (conj (f * z) * p * conj (conj (f * z) * p) * RtoC (Re (k / c))) =
  Re (z * conj z * RtoC (Re (k / RtoC a ^+ 2 / c))).
Proof. by move=> h hf; rewrite !de_form nrm2_M nrm2_conj nrm2_M hf h p_weight; ring. Qed.
Lemma de_p' (z k c f : C) (a : R) : nrm2 f = nrm2 (ci / RtoC a) ->
  Re (f * z * conj (f * z) * RtoC (Re (k / c))) =
  Re (z * conj z * RtoC (Re (k / RtoC a ^+ 2 / c))).
Proof. by move=> hf; rewrite !de_form nrm2_M hf p_weight; ring. Qed.
Lemma de_neg (z k : C) : Re (- z * conj (- z) * k) = Re (z * conj z * k).
Proof. by rewrite conjN mulrNN. Qed.

Lemma conj_i_div (a : R) : conj (ci / RtoC a) = - (ci / RtoC a).
Proof. by rewrite conjM conjI conjV conjR mulNr. Qed.

Lemma out_s z p : conj (1 * z) * p = p * (1 * conj z).
Proof. by rewrite !mul1r mulrC. Qed.
Lemma out_sN z p : conj (1 * - z) * p = p * (-1 * conj z).
Proof. by rewrite mul1r conjN mulN1r mulrC. Qed.
Lemma out_p (a : R) z p : conj (ci / RtoC a * - z) * p = p * (ci / RtoC a * conj z).
Proof. by rewrite conjM conj_i_div conjN mulrNN mulrC. Qed.
Lemma out_p' (a : R) z p : conj (- ci / RtoC a * z) * p = p * (ci / RtoC a * conj z).
Proof. by rewrite conjM mulNr conjN conj_i_div opprK mulrC. Qed.
Lemma out_pN (a : R) z p : conj (- ci / RtoC a * - z) * p = p * (- ci / RtoC a * conj z).
Proof. by rewrite conjM !mulNr !conjN conj_i_div opprK !mulrN mulNr [p * _]mulrC. Qed.

Lemma same6 n (a b : diffraction n) :
  (forall i, de_ri a i = (de_ri_s a i + de_ri_p a i)%coqR) -> (forall i, de_ri b i = (de_ri_s b i + de_ri_p b i)%coqR) ->
  (forall i, de_ti a i = (de_ti_s a i + de_ti_p a i)%coqR) -> (forall i, de_ti b i = (de_ti_s b i + de_ti_p b i)%coqR) ->
  (forall i, [/\ de_ri_s a i = de_ri_s b i, de_ri_p a i = de_ri_p b i, de_ti_s a i = de_ti_s b i & de_ti_p a i = de_ti_p b i]) ->
  same_efficiencies a b.
Proof.
move=> h1 h2 h3 h4 h i; have [e1 e2 e3 e4] := h i; by split; split=> //; rewrite ?(h1, h2, h3, h4) ?(e1, e2, e3, e4).
Qed.

Section Ext.
Variables (n fx : nat) (kx kt kb : nat -> C) (th : C) (nt nb : R) (X : 'cV[C]_((n + n) + (n + n))) (T : 'M[C]_(n + n)).
Let sg (i : 'I_n) := side (kx (i %% fx)%N) (kx (fx %/ 2)%N).
Let nu := extract_sp X T kt kb th (RtoC nt) (RtoC nb).

Lemma usub_neg p (A : 'cV[C]_(p + p)) : usubmx (- A) = - usubmx A.
Proof. by rewrite linearN. Qed.
Lemma dsub_neg p (A : 'cV[C]_(p + p)) : dsubmx (- A) = - dsubmx A.
Proof. by rewrite linearN. Qed.

Lemma ext_res : let t := t_extract fx kx (- X) T kt kb th (RtoC nt) (RtoC nb) in
  [/\ same_efficiencies t.1 nu.1, conjugated sg (- 1) (ci / RtoC nt) (ci / RtoC nb) t.1 nu.1 & t.2 = - nu.2].
Proof.
rewrite /t_extract /nu /extract_sp /t_efficiencies !(usub_neg, dsub_neg, mulmxN); split=> //.
- apply: same6 => // i /=; rewrite !mxE !phase_side !(mulrN, mulNr, conjN) !opprK.
  have h := side_nrm (kx (i %% fx)%N) (kx (fx %/ 2)%N).
  by split; [apply: de_s|apply: de_p|apply: de_s|apply: de_p].
- move=> i /=; rewrite !mxE !phase_side -/(sg i).
  by split; rewrite ?out_sN ?out_p.
Qed.

Lemma ext_te : let t := t_extract_inc fx kx X T kt kb th (RtoC nt) (RtoC nb) in
  [/\ same_efficiencies t.1 nu.1, half_conjugated sg 1 (ci / RtoC nt) (- ci / RtoC nb) t.1 nu.1 & t.2 = nu.2].
Proof.
rewrite /t_extract_inc /nu /extract_sp /t_efficiencies; split=> //.
- apply: same6 => // i /=; rewrite !mxE !phase_side.
  have h := side_nrm (kx (i %% fx)%N) (kx (fx %/ 2)%N).
  split; [by apply: de_s|apply: de_p => //|by []|apply: de_p'].
  + by rewrite mulNr nrm2N.
  + by rewrite mulNr nrm2N.
- move=> i /=; rewrite !mxE !phase_side -/(sg i).
  by split=> //; rewrite ?out_s ?out_p' ?mul1r.
Qed.

Lemma ext_tm : let t := t_extract_inc fx kx (- X) T kt kb th (RtoC nt) (RtoC nb) in
  [/\ same_efficiencies t.1 nu.1, half_conjugated sg (- 1) (- ci / RtoC nt) (ci / RtoC nb) t.1 nu.1 & t.2 = - nu.2].
Proof.
rewrite /t_extract_inc /nu /extract_sp /t_efficiencies !(usub_neg, dsub_neg, mulmxN); split=> //.
- apply: same6 => // i /=; rewrite !mxE !phase_side !(mulrN, mulNr, conjN, opprK).
  have h := side_nrm (kx (i %% fx)%N) (kx (fx %/ 2)%N).
  split; [by apply: de_s|by apply: de_p|by []|].
  by apply: de_p'.
- move=> i /=; rewrite !mxE !phase_side -/(sg i).
  by split=> //; rewrite ?out_sN ?out_pN ?mulN1r ?mulNr ?mulrN ?opprK.
Qed.
End Ext.

Lemma tsp4_t n fx kx (F G T : 'M[C]_(n + n)) kt kb (ps : R) th (nt nb : R) r :
  transfer_sp_4 pinv up F G T kt kb (RtoC (- ps)) th (RtoC nt) (RtoC nb) = Some r ->
  let sg (i : 'I_n) := side (kx (i %% fx)%N) (kx (fx %/ 2)%N) in
  let r' := t_transfer_sp_4 pinv up fx kx F G T kt kb (RtoC ps) th (RtoC nt) (RtoC nb) in
  [/\ [/\ same_efficiencies (res r') (res r), same_efficiencies (res_te_inc r') (res_te_inc r)
        & same_efficiencies (res_tm_inc r') (res_tm_inc r)],
      [/\ conjugated sg (- 1) (ci / RtoC nt) (ci / RtoC nb) (res r') (res r),
          half_conjugated sg 1 (ci / RtoC nt) (- ci / RtoC nb) (res_te_inc r') (res_te_inc r)
        & half_conjugated sg (- 1) (- ci / RtoC nt) (ci / RtoC nb) (res_tm_inc r') (res_tm_inc r)]
    & [/\ T1_res r' = - T1_res r, T1_te r' = T1_te r & T1_tm r' = - T1_tm r]].
Proof.
rewrite /transfer_sp_4 /t_transfer_sp_4; case e: (meeinv _ _ _) => [M|] //; rewrite (tinv_of e).
rewrite t_final_B_neg t_final_B_te t_final_B_tm !mulmxN.
set X := M *m final_B n (RtoC (- ps)) _ _; set Y := M *m final_B n (RtoC (PI / 2)) _ _.
set Z := M *m final_B n (RtoC 0) _ _; move=> hr.
have [a1 a2 a3] := ext_res fx kx kt kb th nt nb X T.
have [b1 b2 b3] := ext_te fx kx kt kb th nt nb Y T.
have [c1 c2 c3] := ext_tm fx kx kt kb th nt nb Z T.
move: a1 a2 a3 b1 b2 b3 c1 c2 c3 hr.
case: (t_extract _ _ _ _ _ _ _ _) => ra ta; case: (t_extract_inc _ _ _ _ _ _ _ _) => rb tb.
case: (t_extract_inc _ _ _ _ _ _ _ _) => rc tc.
case: (extract_sp _ _ _ _ _ _ _) => ra' ta'; case: (extract_sp _ _ _ _ _ _ _) => rb' tb'.
case: (extract_sp _ _ _ _ _ _ _) => rc' tc' /=.
by move=> a1 a2 a3 b1 b2 b3 c1 c2 c3 [<-]; split; split.
Qed.

Lemma q_floorE z : (/ 10000000000 <= Cmod z)%coqR -> q_floor z = z.
Proof. move=> h; rewrite /q_floor /q_min; case: Rlt_dec => // h2; exfalso; apply: (Rlt_not_le _ _ h2); exact: h. Qed.

Hypothesis hp : up = true -> pinv_oracle pinv.

Lemma meeinv_diag n (q : 'rV[C]_n) M : (forall j, q ord0 j != 0) -> meeinv pinv up (diag_mx q) = Some M ->
  M = diag_mx (map_mx (fun x => x^-1) q).
Proof.
move=> h; have e1 : diag_mx q *m diag_mx (map_mx (fun x => x^-1) q) = 1%:M.
  apply/matrixP => i j; rewrite mul_diag_mx !mxE; case: eqP => [_|_] /=; last by rewrite mulr0.
  by rewrite mulfV.
have [u _] := mulmx1_unit e1.
have -> : diag_mx (map_mx (fun x => x^-1) q) = invmx (diag_mx q).
  by rewrite -[RHS]mulmx1 -e1 mulKmx.
rewrite /meeinv; case eu: up; first by move=> [<-]; apply: (pinv_inv (hp eu)).
by rewrite u => -[].
Qed.

Lemma t22_t n kx ky (ex ey ez : 'M[C]_n) W V q :
  transfer_2d_2 pinv eig up kx ky ex ey ez = Some (W, V, q) ->
  (forall j, / 10000000000 <= Cmod (q ord0 j))%coqR ->
  t_transfer_2d_2 eig kx ky ex ey ez = (W, V, q).
Proof.
rewrite /transfer_2d_2 /t_transfer_2d_2; case: (eig _) => l W'.
case e: (meeinv _ _ _) => [M|] // [<- <- <-] h.
have q0 j : sqrtv l ord0 j != 0.
  by apply/eqP => h0; have := h j; rewrite h0 Cmod_0; lra.
have -> : map_mx q_floor (sqrtv l) = sqrtv l.
  by apply/matrixP => i j; rewrite mxE (ord1 i) q_floorE.
by rewrite (meeinv_diag q0 e).
Qed.

Lemma in_rcons (A : Type) (x : A) l y : List.In x (rcons l y) <-> List.In x l \/ x = y.
Proof.
elim: l => [|z l IH] /=; first by split=> [[->|//]|[//|->]]; [right|left].
by rewrite IH; split=> [[->|[h|->]]|[[->|h]|->]]; auto.
Qed.

Lemma stack2_t n kx ky c s k0 (ls : seq (layer n)) st F G T infos :
  stack_with (step_2d pinv eig up kx ky c s k0) ls st = Some (F, G, T, infos) -> no_flat_mode infos ->
  stack_with (t_step_2d pinv eig up kx ky c s k0) ls st = Some (F, G, T, infos).
Proof.
elim: ls F G T infos => [|l ls IH] F G T infos //=.
case e: (stack_with _ ls st) => [[[[F0 G0] T0] i0]|] //.
rewrite {1}/step_2d; case e2: (transfer_2d_2 _ _ _ _ _ _ _ _) => [[[W V] q]|] //.
case e3: (transfer_2d_3 _ _ _ _ _ _ _ _ _ _ _ _) => [[[[[F1 G1] T1] A1] B1]|] // [<- <- <- <-] hf.
have hi : no_flat_mode i0 by move=> f hf' j; apply: (hf f); apply/in_rcons; left.
have hq := hf _ (proj2 (in_rcons _ _ _) (or_intror erefl)); rewrite /= in hq.
rewrite (IH _ _ _ _ e hi) /t_step_2d (t22_t e2 hq).
move: e3; rewrite /transfer_2d_3; case: (big_2d W V c s) => bW bV e3.
by rewrite (update_t e3).
Qed.

Definition sp_agree n (sg : 'I_n -> C) (nt nb : R) (r' r : sp_result n) : Prop :=
  [/\ [/\ same_efficiencies (res r') (res r), same_efficiencies (res_te_inc r') (res_te_inc r)
        & same_efficiencies (res_tm_inc r') (res_tm_inc r)],
      [/\ conjugated sg (- 1) (ci / RtoC nt) (ci / RtoC nb) (res r') (res r),
          half_conjugated sg 1 (ci / RtoC nt) (- ci / RtoC nb) (res_te_inc r') (res_te_inc r)
        & half_conjugated sg (- 1) (- ci / RtoC nt) (ci / RtoC nb) (res_tm_inc r') (res_tm_inc r)]
    & [/\ T1_res r' = - T1_res r, T1_te r' = T1_te r & T1_tm r' = - T1_tm r]].

Lemma tiled_real s w : physical s ->
  (forall i, exists x : R, kx_tiled s w i = RtoC x) /\ (forall i, exists x : R, ky_tiled s w i = RtoC x).
Proof.
move=> ph; have [_ _ h1 h2] := phys_real w ph.
by split=> i; [apply: h1|apply: h2].
Qed.

Lemma torch_2d s w (p nt nb : R) (convs : seq (conv3 (ff_y s * ff_x s))) (r : sp_result (ff_y s * ff_x s)) infos : physical s -> n_top s = RtoC nt -> n_bot s = RtoC nb -> psi s = RtoC p ->
  solve_2d pinv eig up (with_psi s (RtoC (- p))) w convs = Some (r, infos) -> no_flat_mode infos ->
  exists2 r', t_solve_2d pinv eig up s w convs = Some (r', infos) &
    sp_agree (fun i => side (kx_vector s w (i %% ff_x s)%N) (kx_vector s w (fto_x s))) nt nb r' r.
Proof.
move=> ph ht hb hpsi; rewrite /solve_2d /t_solve_2d /=.
have [ek ek' _ _] := phys_real w ph; have [h1 h2] := tiled_real w ph.
rewrite /t_kx_tiled /t_ky_tiled ek ek' -/(kx_tiled s w) -/(ky_tiled s w).
rewrite -[kx_tiled (with_psi _ _) w]/(kx_tiled s w) -[ky_tiled (with_psi _ _) w]/(ky_tiled s w).
rewrite ht hb hpsi; case: (layers_of _ _) => [ls|] //.
rewrite /t_rcwa_2d /rcwa_2d tsp1E //; [|by exists nt|by exists nb].
case: (transfer_sp_1 _ _ _ _ _) => [[[[[[[kt kb] c] s'] F] G] T]|] //.
case e: (stack_with _ _ _) => [[[[F' G'] T'] is']|] //.
case e4: (transfer_sp_4 _ _ _ _ _ _ _ _ _ _ _) => [r'|] // [<- <-] hf.
rewrite (stack2_t e hf).
have := tsp4_t (ff_x s) (kx_vector s w) e4; set r2 := t_transfer_sp_4 _ _ _ _ _ _ _ _ _ _ _ _ _ => h.
exists r2 => //; move: h; rewrite {1 2 3}/ff_x half_ff; exact.
Qed.

Lemma torch_conical s w (p nt nb : R) (convs : seq (conv3 (ff_y s * ff_x s))) (r : sp_result (ff_y s * ff_x s)) infos : physical s -> n_top s = RtoC nt -> n_bot s = RtoC nb -> psi s = RtoC p ->
  solve_1d_conical pinv eig up (with_psi s (RtoC (- p))) w convs = Some (r, infos) ->
  exists2 r', t_solve_1d_conical pinv eig up s w convs = Some (r', infos) &
    sp_agree (fun i => side (kx_vector s w (i %% ff_x s)%N) (kx_vector s w (fto_x s))) nt nb r' r.
Proof.
move=> ph ht hb hpsi; rewrite /solve_1d_conical /t_solve_1d_conical /=.
have [ek ek' _ _] := phys_real w ph; have [h1 h2] := tiled_real w ph.
rewrite /t_kx_tiled /t_ky_tiled ek ek' -/(kx_tiled s w) -/(ky_tiled s w).
rewrite -[kx_tiled (with_psi _ _) w]/(kx_tiled s w) -[ky_tiled (with_psi _ _) w]/(ky_tiled s w).
case: ifP => // _; rewrite ht hb hpsi; case: (layers_of _ _) => [ls|] //.
rewrite /t_rcwa_conical /rcwa_conical tsp1E //; [|by exists nt|by exists nb].
case: (transfer_sp_1 _ _ _ _ _) => [[[[[[[kt kb] c] s'] F] G] T]|] //.
case e: (stack_with _ _ _) => [[[[F' G'] T'] is']|] //.
case e4: (transfer_sp_4 _ _ _ _ _ _ _ _ _ _ _) => [r'|] // [<- <-].
rewrite (stack_mono (@sc_t _ _ _ _ _ _) e).
have := tsp4_t (ff_x s) (kx_vector s w) e4; set r2 := t_transfer_sp_4 _ _ _ _ _ _ _ _ _ _ _ _ _ => h.
exists r2 => //; move: h; rewrite {1 2 3}/ff_x half_ff; exact.
Qed.

End Cmp.
