(** Moved unit cells: results of conv_solve. *)
From Coq Require Import Reals ZArith Lra Lia.
From mathcomp Require Import all_ssreflect ssralg matrix.
From Coquelicot Require Import Complex.
From Verif Require Import Cplx Mx Spec SpecSolve SpecLayer SpecState SpecSym ModelTM ModelFourier ModelState ProofSetup ProofEff ProofState2 ProofEnd
  ProofPassive ProofSym2 ProofSym3 ProofSym4 ProofSym5.

Set Implicit Arguments.
Unset Strict Implicit.
Unset Printing Implicit Defensive.
Local Open Scope ring_scope.
Import GRing.Theory.

Lemma all2p_take (A B : Type) (P : A -> B -> Prop) k s t : all2p P s t -> all2p P (take k s) (take k t).
Proof. by elim: s t k => [|a s IH] [|b t] [|k] //= [h1 h2]; split=> //; exact: IH. Qed.
Lemma all2p_map (A B A' B' : Type) (P : A -> B -> Prop) (Q : A' -> B' -> Prop) f g s t :
  (forall a b, P a b -> Q (f a) (g b)) -> all2p P s t -> all2p Q (map f s) (map g t).
Proof. by move=> h; elim: s t => [|a s IH] [|b t] //= [h1 h2]; split; [exact: h|exact: IH]. Qed.
Lemma conv_all2 (A L B : Type) (f : L -> option B) (u v : A -> L) (P : B -> B -> Prop) ls cs cs' :
  (forall l c c', f (u l) = Some c -> f (v l) = Some c' -> P c c') ->
  conv_all f (map u ls) = Some cs -> conv_all f (map v ls) = Some cs' -> all2p P cs cs'.
Proof.
move=> h; elim: ls cs cs' => [|l ls IH] cs cs' /=; first by move=> [<-] [<-].
case e1: (f (u l)) => [c|] //; case e2: (conv_all f _) => [d|] // [<-].
case e3: (f (v l)) => [c'|] //; case e4: (conv_all f _) => [d'|] // [<-] /=.
by split; [exact: h e1 e3|exact: IH e2 e4].
Qed.

(** ** The convolution matrices of a moved object *)
Section Convs.
Variable pinv : forall n, 'M[C]_n -> 'M[C]_n.
Lemma convs_moved my mx o o' ny nx ls fx fy cs cs' :
  o_mtype o = Some false -> o_mtype o' = Some false -> o_cell o = CRaster ny nx ls -> o_cell o' = moved_cell my mx (o_cell o) ->
  o_use_pinv o = false -> o_use_pinv o' = false -> o_enhanced o' = o_enhanced o -> o_fourier_type o' = o_fourier_type o ->
  convs_of pinv o fx fy = Some cs -> convs_of pinv o' fx fy = Some cs' ->
  exists px py, [/\ axis_phases mx nx fx false px, axis_phases my ny fy (o_fourier_type o =? 1)%Z py
    & all2p (moved_by my mx px py) cs cs'].
Proof.
rewrite /convs_of => -> -> hc -> -> -> -> ->; rewrite hc /=; case: eqP => // ny0; case: eqP => // nx0 /=.
have hny : (0 < ny)%N by rewrite lt0n; apply/eqP.
have hnx : (0 < nx)%N by rewrite lt0n; apply/eqP.
rewrite -!map_comp; case ft: (o_fourier_type o =? 0)%Z.
  have -> : (o_fourier_type o =? 1)%Z = false by apply/Z.eqb_neq; move/Z.eqb_eq: ft => ->.
  have [px [py [ax ay h]]] := discrete_moved pinv my mx fx fy hny hnx (o_enhanced o).
  by move=> e1 e2; exists px, py; split=> //; apply: conv_all2 e1 e2 => l c c'; exact: h.
case: ifP => // _.
have [px [py [ax ay h]]] := continuous_moved pinv my mx fx fy hny hnx.
by move=> e1 e2; exists px, py; split=> //; apply: conv_all2 e1 e2 => l c c'; exact: h.
Qed.
End Convs.

(** ** Wave vectors *)
Lemma order_mir m fto i : (i < fto.*2.+1)%N -> RtoC (order fto (order_place m fto.*2.+1 i)) = sgn (flips m) * RtoC (order fto i).
Proof.
move=> h; case: m => [|d|] /=; rewrite ?mul1r // /order.
have -> : INR (fto.*2.+1 - i.+1) = (INR fto + INR fto - INR i)%coqR.
  by rewrite -minusE minus_INR; [rewrite !S_INR -addnn -plusE plus_INR; ring | apply/leP].
by rewrite mulN1r -RtoC_opp; congr RtoC; ring.
Qed.
Lemma sgn_sign b : sign (sgn b).
Proof. by case: b; [right|left]. Qed.

Lemma kx_place m s s' w i : n_top s' = n_top s -> period_x s' = period_x s -> fto_x s' = fto_x s ->
  sin_theta s' * ccos (phi_val s') = sgn (flips m) * (sin_theta s * ccos (phi_val s)) -> (i < ff_x s)%N ->
  kx_vector s' w (order_place m (ff_x s) i) = sgn (flips m) * kx_vector s w i.
Proof.
move=> e1 e2 e3 e4 hi; rewrite /kx_vector e1 e2 e3 -!(mulrA (n_top s)) e4 order_mir //.
rewrite -{3}(sign_conj (sgn_sign (flips m))) -conjM; congr conj; cring.
Qed.
Lemma ky_place m s s' w i : n_top s' = n_top s -> period_y s' = period_y s -> fto_y s' = fto_y s ->
  sin_theta s' * csin (phi_val s') = sgn (flips m) * (sin_theta s * csin (phi_val s)) -> (i < ff_y s)%N ->
  ky_vector s' w (order_place m (ff_y s) i) = sgn (flips m) * ky_vector s w i.
Proof.
move=> e1 e2 e3 e4 hi; rewrite /ky_vector e1 e2 e3 -!(mulrA (n_top s)) e4 order_mir //.
rewrite -{3}(sign_conj (sgn_sign (flips m))) -conjM; congr conj; cring.
Qed.

Lemma turned_phiE my mx p (f : R) : (if p is Some z then z else 0) = RtoC f -> exists f' : R,
  (if turned_phi my mx p is Some z then z else 0) = RtoC f' /\ (RtoC (cos f') = sgn (flips mx) * RtoC (cos f) /\ RtoC (sin f') = sgn (flips my) * RtoC (sin f)).
Proof.
rewrite /turned_phi => hf; rewrite ?hf; case: (flips my); case: (flips mx); rewrite /= ?mul1r ?mulN1r.
- by exists (f + PI)%coqR; rewrite neg_cos neg_sin !RtoC_opp RtoC_add addrC.
- by exists (- f)%coqR; rewrite cos_neg sin_neg !RtoC_opp.
- exists (- (f - PI))%coqR; rewrite cos_neg sin_neg cos_minus sin_minus cos_PI sin_PI -!RtoC_opp.
  split; first by rewrite -RtoC_add; congr RtoC; ring.
  by split; congr RtoC; ring.
- by exists f; rewrite hf.
Qed.

Lemma place_mid m fto : order_place m fto.*2.+1 fto = fto.
Proof. by case: m => [|d|] //=; rewrite subSS -addnn addnK. Qed.
Lemma csinN z : csin (- z) = - csin z.
Proof.
case: z => x y; rewrite /csin /=; have -> : cosh (- y) = cosh y by rewrite /cosh Ropp_involutive Rplus_comm.
have -> : sinh (- y) = (- sinh y)%coqR by rewrite /sinh Ropp_involutive; field.
by rewrite sin_neg cos_neg; cext.
Qed.
Lemma ccosN z : ccos (- z) = ccos z.
Proof.
case: z => x y; rewrite /ccos /=; have -> : cosh (- y) = cosh y by rewrite /cosh Ropp_involutive Rplus_comm.
have -> : sinh (- y) = (- sinh y)%coqR by rewrite /sinh Ropp_involutive; field.
by rewrite sin_neg cos_neg; cext.
Qed.
Lemma psi_turned my mx p : csin (turned_psi my mx p) = sgn (flips mx) * sgn (flips my) * csin p /\ ccos (turned_psi my mx p) = ccos p.
Proof.
rewrite /turned_psi; case: (flips my); case: (flips mx) => /=; rewrite ?csinN ?ccosN; split=> //; cring.
Qed.

(** ** The solves of a moved object *)
Section Pair.
Variable pinv : forall n, 'M[C]_n -> 'M[C]_n.
Variable eig : forall n, 'M[C]_n -> 'rV[C]_n * 'M[C]_n.
Hypothesis heig : eigen_oracle eig.
Variables (my mx : motion) (px py : nat -> C) (ny nx : nat) (ci_y : bool).

Section Sp.
Variables (s : setup) (w : R) (ph' : option C) (ps' : C) (po : R).
Hypothesis ax : axis_phases mx nx (fto_x s) false px.
Hypothesis ay : axis_phases my ny (fto_y s) ci_y py.
Hypothesis hp : physical s.
Let s' := Setup (n_top s) (n_bot s) (theta s) ph' ps' po (fto_x s) (fto_y s) (period_x s) (period_y s) (thickness s).
Hypothesis hph' : ph' = turned_phi my mx (phi s).
Hypothesis hps' : ps' = turned_psi my mx (psi s).
Variables (cs cs' : seq (conv3 (ff_y s * ff_x s))).
Hypothesis hm : all2p (moved_by my mx px py) cs cs'.
Hypothesis hts : forall t, List.In t (thickness s) -> (0 <= t)%coqR.
Let sg := sg2 (fto_x := fto_x s) (fto_y := fto_y s) (order_place mx (ff_x s)) (order_place my (ff_y s)).
Let ex := sgn (flips mx).
Let ey := sgn (flips my).
Let ph := ph2 (fto_x := fto_x s) (fto_y := fto_y s) px py.

Lemma sp_phys : physical (turn (theta s) ph' ps' s).
Proof.
case: hp => h1 h2 h3 h4 h5; split=> //= p; rewrite hph' => e.
have [f hf] := phi_real h3; have [f' [h _]] := turned_phiE my mx hf.
by exists f'; rewrite -h e.
Qed.
Lemma sp_kx (i : 'I_(ff_y s * ff_x s)) : kx_tiled (turn (theta s) ph' ps' s) w (sg i) = ex * kx_tiled s w i /\
   ky_tiled (turn (theta s) ph' ps' s) w (sg i) = ey * ky_tiled s w i.
Proof.
have [f hf] : exists f : R, phi_val s = RtoC f by case: hp => h1 h2 h3 h4 h5; exact: phi_real.
have [f' [h [hcx hsy]]] := turned_phiE my mx hf; rewrite -hph' in h.
rewrite /kx_tiled /ky_tiled /tile_x /tile_y; change (ff_x (turn (theta s) ph' ps' s)) with (ff_x s).
rewrite /sg sg2_mod; try (by move=> j; exact: order_place_lt).
rewrite sg2_div; try (by move=> j; exact: order_place_lt).
split.
- apply: kx_place => //; last exact: mod_ord.
  by rewrite /phi_val /= h -/(phi_val s) hf !ccos_real hcx; rewrite /sin_theta /=; cring.
- apply: ky_place => //; last exact: div_ord.
  by rewrite /phi_val /= h -/(phi_val s) hf !csin_real hsy; rewrite /sin_theta /=; cring.
Qed.
Lemma sp_inv : involutive sg.
Proof. by apply: sg2_inv => j; exact: order_place_lt. Qed.
Lemma sp_mid (i : 'I_(ff_y s * ff_x s)) : i = ((ff_y s * ff_x s) %/ 2)%N :> nat -> sg i = ((ff_y s * ff_x s) %/ 2)%N :> nat.
Proof.
move=> e; have [m2 m1] : ((ff_y s * ff_x s) %/ 2 %% ff_x s = fto_x s)%N /\ ((ff_y s * ff_x s) %/ 2 %/ ff_x s = fto_y s)%N := mid_2d (fto_x s) (fto_y s).
rewrite (divn_eq (sg i) (ff_x s)) /sg sg2_div; try (by move=> j; exact: order_place_lt).
rewrite sg2_mod; try (by move=> j; exact: order_place_lt).
by rewrite e [X in order_place my _ X]m1 [X in order_place mx _ X]m2 !place_mid [RHS](divn_eq _ (ff_x s)) m1 m2.
Qed.
Lemma sp_centre (i : 'I_(ff_y s * ff_x s)) : (sg i == ((ff_y s * ff_x s) %/ 2)%N :> nat) = (i == ((ff_y s * ff_x s) %/ 2)%N :> nat).
Proof.
apply/eqP/eqP => h; last exact: sp_mid.
by rewrite -(sp_inv i); exact: sp_mid.
Qed.
Lemma sp_ph1 (i : 'I_(ff_y s * ff_x s)) : i = ((ff_y s * ff_x s) %/ 2)%N :> nat -> ph i = 1.
Proof.
move=> e; have [m2 m1] := mid_2d (fto_x s) (fto_y s); rewrite /ph /ph2 e [X in py X]m1 [X in px X]m2.
by case: ax => _ -> _; case: ay => _ -> _; rewrite mulr1.
Qed.
Lemma sp_ph (i : 'I_(ff_y s * ff_x s)) : unimodular (ph i).
Proof. by apply: unimodularM; [case: ay|case: ax]. Qed.

Definition sp_factor (i : 'I_(ff_y s * ff_x s)) : C := turn_factor w ph ex ey i.
Lemma sp_2d r infos r' infos' : solve_2d pinv eig false s w cs = Some (r, infos) -> solve_2d pinv eig false s' w cs' = Some (r', infos') ->
  moved_inc3 sg ex ey sp_factor r r'.
Proof.
move=> e1 e2; have [q1 q2] := psi_turned my mx (psi s); rewrite -hps' in q1 q2.
exact (@turn_solve_2d pinv eig heig s ph' ps' w cs cs' sg ph ex ey hp sp_phys sp_inv (sgn_sign _) (sgn_sign _)
  (fun i => proj1 (sp_kx i)) (fun i => proj2 (sp_kx i)) sp_centre sp_ph1 sp_ph hts hm q1 q2 r infos r' infos' e1 e2).
Qed.
Lemma sp_conical r infos r' infos' : 
  (forall c, List.In c (used s cs) -> line_convs c) -> (forall c, List.In c (used s cs') -> line_convs c) ->
  solve_1d_conical pinv eig false s w cs = Some (r, infos) -> solve_1d_conical pinv eig false s' w cs' = Some (r', infos') ->
  moved_inc3 sg ex ey sp_factor r r'.
Proof.
move=> l1 l2 e1 e2; have [q1 q2] := psi_turned my mx (psi s); rewrite -hps' in q1 q2.
exact (@turn_solve_conical pinv eig heig s ph' ps' w cs cs' sg ph ex ey hp sp_phys sp_inv (sgn_sign _) (sgn_sign _)
  (fun i => proj1 (sp_kx i)) (fun i => proj2 (sp_kx i)) sp_centre sp_ph1 sp_ph hts hm q1 q2 r infos r' infos' l1 l2 e1 e2).
Qed.
End Sp.
End Pair.

(** ** One row of orders *)
Lemma crop_moved m n (sg : 'I_m -> 'I_m) ph (sg' : 'I_n -> 'I_n) ph' (c c' : conv3 m) : m = n ->
  (forall (i : 'I_m) (i' : 'I_n), i = i' :> nat -> sg i = sg' i' :> nat /\ ph i = ph' i') ->
  moved3 sg ph c c' -> moved3 sg' ph' (crop3 n c) (crop3 n c').
Proof.
move=> e; case: n / e sg' ph' => sg' ph' h; case: c => [[a b] d]; case: c' => [[a' b'] d'] [h1 h2 h3].
rewrite /crop3 !crop_id; split=> i j; have [/val_inj <- <-] := h i i erefl; have [/val_inj <- <-] := h j j erefl.
- exact: h1.
- exact: h2.
- exact: h3.
Qed.

Section Classical.
Variable pinv : forall n, 'M[C]_n -> 'M[C]_n.
Variable eig : forall n, 'M[C]_n -> 'rV[C]_n * 'M[C]_n.
Hypothesis heig : eigen_oracle eig.
Variables (my mx : motion) (px py : nat -> C) (ny nx : nat) (ci_y : bool).
Variables (s : setup) (w : R) (th' : C).
Hypothesis ax : axis_phases mx nx (fto_x s) false px.
Hypothesis ay : axis_phases my ny (fto_y s) ci_y py.
Hypothesis fy0 : fto_y s = 0%N.
Let s' := turn th' (phi s) (psi s) s.
Hypothesis hsin : sin_theta s' = sgn (flips mx) * sin_theta s.
Hypothesis hcos : ccos th' = ccos (theta s).
Variables (cs cs' : seq (conv3 (ff_y s * ff_x s))).
Hypothesis hm : all2p (moved_by my mx px py) cs cs'.
Hypothesis hts : forall t, List.In t (thickness s) -> (0 <= t)%coqR.
Let sg : 'I_(ff_x s) -> 'I_(ff_x s) := lift_n (order_place mx (ff_x s)).

Lemma clE (i : 'I_(ff_x s)) : sg i = order_place mx (ff_x s) i :> nat.
Proof. by apply: lift_nE; case: (@order_place_lt mx _ i (ltn_ord i)). Qed.
Lemma cl_inv : involutive sg.
Proof. by move=> i; apply: val_inj; rewrite /= !clE; case: (@order_place_lt mx _ i (ltn_ord i)). Qed.
Lemma cl_mid (i : 'I_(ff_x s)) : i = fto_x s :> nat -> sg i = fto_x s :> nat.
Proof. by move=> e; rewrite clE e; exact: place_mid. Qed.

Lemma classical_moved r T1 infos r' T1' infos' :
  solve_1d pinv eig false s w (map (crop3 (ff_x s)) cs) = Some (r, T1, infos) ->
  solve_1d pinv eig false s' w (map (crop3 (ff_x s)) cs') = Some (r', T1', infos') ->
  let ph := fun i : 'I_(ff_x s) => px i in moved_amps sg ph ph r r' /\ moved_effs sg r r'.
Proof.
move=> e1 e2; have hsg := sgn_sign (flips mx).
apply: (moved_solve_1d heig (s := s) (e := sgn (flips mx)) cl_inv (sign_sq hsg) _ _ _ _ hcos hts _ e1 e2).
- move=> i; rewrite clE; apply: kx_place => //; rewrite -/s' hsin /phi_val /=; cring.
- move=> i; apply/eqP/eqP => h; last exact: cl_mid.
  by rewrite -(cl_inv i); exact: cl_mid.
- by move=> i ->; case: ax.
- by move=> i; case: ax.
- apply: all2p_map hm => c c'; apply: crop_moved; first by rewrite /ff_y fy0 mul1n.
  move=> i i' e; have hi : (i < ff_x s)%N by rewrite e.
  rewrite sg2E; try (by move=> j; exact: order_place_lt).
  have hd : (i %/ (fto_x s).*2.+1 = 0)%N := divn_small hi.
  have hmo : (i %% (fto_x s).*2.+1 = i)%N := modn_small hi.
  have h0 : order_place my (fto_y s).*2.+1 0 = 0%N by rewrite fy0; case: (my).
  have p0 : py 0%N = 1 by case: ay => _; rewrite fy0.
  by rewrite clE /tau2 /ph2 hd hmo h0 p0 e mul1r.
Qed.
End Classical.
