(** A change of the unit of length changes nothing. *)
From Coq Require Import Reals Lra Psatz FunctionalExtensionality.
From mathcomp Require Import all_ssreflect ssralg matrix.
From Coquelicot Require Import Complex.
From Verif Require Import Cplx Mx SpecSym ModelTM ModelField ModelState.

Set Implicit Arguments.
Unset Strict Implicit.
Unset Printing Implicit Defensive.
Local Open Scope ring_scope.
Import GRing.Theory.

Section Scale.
Variables (k0 c : R).
Hypothesis hc : c <> 0%coqR.
Let k := (k0 / c)%coqR.

Lemma kmul x : (k * (c * x) = k0 * x)%coqR.
Proof. rewrite /k; field; exact hc. Qed.
Lemma phase_scale x (a : C) : RtoC (c * x)%coqR * a * RtoC k = RtoC x * a * RtoC k0.
Proof.
rewrite ![_ * a]mulrC -!mulrA; congr (_ * _).
by change (RtoC (c * x) * RtoC k = RtoC x * RtoC k0)%C; rewrite -!RtoC_mult; congr RtoC; rewrite Rmult_comm kmul Rmult_comm.
Qed.
Lemma Xmat_scale n (q : 'rV[C]_n) d : Xmat k q (c * d)%coqR = Xmat k0 q d.
Proof.
rewrite /Xmat; congr diag_mx; apply/matrixP => i j; rewrite !mxE; congr cexp.
rewrite !mulNr; congr (- _).
have sw (x y z : C) : x * y * z = z * y * x by rewrite mulrC mulrA mulrAC.
by rewrite sw phase_scale sw.
Qed.
Lemma big_X_scale n (q : 'rV[C]_(n + n)) d : big_X k q (c * d)%coqR = big_X k0 q d.
Proof. by rewrite /big_X !Xmat_scale. Qed.
Lemma profile_scale n d (q : 'rV[C]_n) c1 c2 z s : profile k (c * d)%coqR q c1 c2 (c * z)%coqR s = profile k0 d q c1 c2 z s.
Proof.
rewrite /profile; congr (_ *: (dexp q (RtoC _) *m _) + dexp q (RtoC _) *m _); rewrite /k; field; exact hc.
Qed.
Lemma z_point_scale res d i : z_point res (c * d)%coqR i = (c * z_point res d i)%coqR.
Proof. by rewrite /z_point; ring. Qed.
Lemma linspace_scale p n i : linspace (c * p)%coqR n i = (c * linspace p n i)%coqR.
Proof. by rewrite /linspace; case: ifP => _; [ring | rewrite /Rdiv; ring]. Qed.

(** ** One layer *)
Definition sc1 n (l : info_1d n) := Info1d (i1_epzi l) (i1_W l) (i1_V l) (i1_q l) (c * i1_d l)%coqR (i1_Ai l) (i1_B l).
Definition scs (W : Type) n (l : info_sp W n) :=
  InfoSp (is_epzi l) (is_W l) (is_V l) (is_q l) (c * is_d l)%coqR (is_Ai l) (is_B l).
Definition scl n (l : layer n) := Layer (epx l) (epy l) (epzi l) (c * thick l)%coqR.
Definition sct (M I : Type) (f : I -> I) (st : M * M * M * seq I) := let '(F, G, T, infos) := st in (F, G, T, map f infos).

Variables (pinv : forall n, 'M[C]_n -> 'M[C]_n) (eig : forall n, 'M[C]_n -> 'rV[C]_n * 'M[C]_n) (up : bool).

Lemma step_1d_scale pol n kx (l : layer n) st : step_1d pinv eig up pol kx k (scl l) (sct (@sc1 n) st)
  = omap (sct (@sc1 n)) (step_1d pinv eig up pol kx k0 l st).
Proof.
case: st => [[[F G] T] infos]; rewrite /sct /step_1d /=.
case: (transfer_1d_2 _ _ _ _ _ _ _ _) => [[[W V] q]|] //; rewrite /transfer_1d_3 Xmat_scale.
case: layer_update => [[[[[F' G'] T'] A] B]|] //=.
by rewrite map_rcons.
Qed.
Lemma step_conical_scale n kx ky cc ss (l : layer n) st : step_conical pinv eig up kx ky cc ss k (scl l) (sct (@scs _ n) st)
  = omap (sct (@scs _ n)) (step_conical pinv eig up kx ky cc ss k0 l st).
Proof.
case: st => [[[F G] T] infos]; rewrite /sct /step_conical /=.
case: (transfer_1d_conical_2 _ _ _ _ _ _ _ _) => [[[W V] q]|] //; rewrite /transfer_1d_conical_3 big_X_scale; case: (conical_big _ _ _ _) => bW bV.
case: layer_update => [[[[[F' G'] T'] A] B]|] //=.
by rewrite map_rcons.
Qed.
Lemma step_2d_scale n kx ky cc ss (l : layer n) st : step_2d pinv eig up kx ky cc ss k (scl l) (sct (@scs _ n) st)
  = omap (sct (@scs _ n)) (step_2d pinv eig up kx ky cc ss k0 l st).
Proof.
case: st => [[[F G] T] infos]; rewrite /sct /step_2d /=.
case: (transfer_2d_2 _ _ _ _ _ _ _ _) => [[[W V] q]|] //; rewrite /transfer_2d_3 big_X_scale; case: (big_2d _ _ _ _) => bW bV.
case: layer_update => [[[[[F' G'] T'] A] B]|] //=.
by rewrite map_rcons.
Qed.

Lemma stack_scale (L S : Type) (f : L -> L) (g : S -> S) (step step' : L -> S -> option S) ls st :
  (forall l s, step' (f l) (g s) = omap g (step l s)) ->
  stack_with step' (map f ls) (g st) = omap g (stack_with step ls st).
Proof.
move=> h; elim: ls => //= l ls ->; by case: (stack_with step ls st) => //= s; rewrite h.
Qed.

Lemma rcwa_1d_scale pol n kx th nt nb (ls : seq (layer n)) : rcwa_1d pinv eig up pol kx k th nt nb (map (@scl n) ls)
  = omap (fun r => (r.1.1, r.1.2, map (@sc1 n) r.2)) (rcwa_1d pinv eig up pol kx k0 th nt nb ls).
Proof.
rewrite /rcwa_1d; case: (transfer_1d_1 _ _ _ _ _) => [[[[[kt kb] F] G] T]|] //.
rewrite (stack_scale (f := @scl n) (g := sct (@sc1 n)) ls (F, G, T, [::]) (step_1d_scale pol kx)).
case: (stack_with _ _ _) => [[[[F' G'] T'] infos]|] //=.
by case: (transfer_1d_4 _ _ _ _ _ _ _ _ _ _ _) => [[r T1]|].
Qed.
Lemma rcwa_conical_scale n kx ky ps th nt nb (ls : seq (layer n)) : rcwa_conical pinv eig up kx ky k ps th nt nb (map (@scl n) ls)
  = omap (fun r => (r.1, map (@scs _ n) r.2)) (rcwa_conical pinv eig up kx ky k0 ps th nt nb ls).
Proof.
rewrite /rcwa_conical; case: (transfer_sp_1 _ _ _ _ _) => [[[[[[[kt kb] cc] ss] F] G] T]|] //.
rewrite (stack_scale (f := @scl n) (g := sct (@scs _ n)) ls (F, G, T, [::]) (step_conical_scale kx ky cc ss)).
case: (stack_with _ _ _) => [[[[F' G'] T'] infos]|] //=.
by case: (transfer_sp_4 _ _ _ _ _ _ _ _ _ _ _) => [r|].
Qed.
Lemma rcwa_2d_scale n kx ky ps th nt nb (ls : seq (layer n)) : rcwa_2d pinv eig up kx ky k ps th nt nb (map (@scl n) ls)
  = omap (fun r => (r.1, map (@scs _ n) r.2)) (rcwa_2d pinv eig up kx ky k0 ps th nt nb ls).
Proof.
rewrite /rcwa_2d; case: (transfer_sp_1 _ _ _ _ _) => [[[[[[[kt kb] cc] ss] F] G] T]|] //.
rewrite (stack_scale (f := @scl n) (g := sct (@scs _ n)) ls (F, G, T, [::]) (step_2d_scale kx ky cc ss)).
case: (stack_with _ _ _) => [[[[F' G'] T'] infos]|] //=.
by case: (transfer_sp_4 _ _ _ _ _ _ _ _ _ _ _) => [r|].
Qed.

Lemma layers_scale n (cs : seq (conv3 n)) ts : layers_of cs (map (Rmult c) ts) = omap (map (@scl n)) (layers_of cs ts).
Proof.
elim: ts cs => [|t ts IH] [|[[x y] z] cs] //=; rewrite IH; by case: (layers_of cs ts).
Qed.

(** ** The field *)
Lemma descend_scale (L T : Type) (f : L -> L) (next next' : L -> T -> T) t ls :
  (forall l t, next' (f l) t = next l t) ->
  descend next' t (map f ls) = [seq (f lt.1, lt.2) | lt <- descend next t ls].
Proof. by move=> h; elim: ls t => //= l ls IH t; rewrite h IH. Qed.
Lemma synth_ext n (p p' : nat -> C) (M : 'cV[C]_n) : (forall j, p j = p' j) -> synth p M = synth p' M.
Proof. by move=> h; rewrite /synth; apply: eq_bigr => j _; rewrite h. Qed.

End Scale.

Lemma k0_scale w c : c <> 0%coqR -> w <> 0%coqR -> k0_of (c * w)%coqR = (k0_of w / c)%coqR.
Proof. by move=> hc hw; rewrite /k0_of; field; split. Qed.

Lemma modes_1d_scale pol c k0 n kx (l : info_1d n) t z : c <> 0%coqR ->
  modes_1d pol (k0 / c)%coqR kx (sc1 c l) t (c * z)%coqR = modes_1d pol k0 kx l t z.
Proof.
move=> hc; rewrite /modes_1d.
rewrite [i1_d (sc1 c l)]/= [i1_W (sc1 c l)]/= [i1_V (sc1 c l)]/= [i1_q (sc1 c l)]/= [i1_B (sc1 c l)]/= [i1_Ai (sc1 c l)]/=.
rewrite [i1_epzi (sc1 c l)]/=.
cbv zeta beta; rewrite (Xmat_scale k0 hc) !(profile_scale k0 hc); reflexivity.
Qed.
Lemma sample_1d_scale pol c k0 n kx x (m : 'cV[C]_n * 'cV[C]_n * 'cV[C]_n) : c <> 0%coqR ->
  sample_1d pol (k0 / c)%coqR kx (c * x)%coqR m = sample_1d pol k0 kx x m.
Proof.
move=> hc; rewrite /sample_1d; case: m => [[a b] d].
have e : (fun j => - ci * (RtoC (c * x)%coqR * kx j * RtoC (k0 / c)%coqR)) = (fun j => - ci * (RtoC x * kx j * RtoC k0)).
  by apply: functional_extensionality => j; rewrite phase_scale.
by rewrite e.
Qed.
Lemma map_map2 (A D : Type) (f : A -> A) (g g' : A -> D) (s : seq A) : (forall a, g' (f a) = g a) -> map g' (map f s) = map g s.
Proof. by move=> h; elim: s => //= a s ->; rewrite h. Qed.
Lemma field_1d_scale c w n kx (T1 : 'cV[C]_n) infos px pol rx rz : c <> 0%coqR -> w <> 0%coqR ->
  field_1d (c * w)%coqR kx T1 (map (@sc1 c n) infos) (c * px)%coqR pol rx rz = field_1d w kx T1 infos px pol rx rz.
Proof.
move=> hc hw; rewrite /field_1d k0_scale // -map_rev.
rewrite (@descend_scale _ _ (@sc1 c n) (next_1d (k0_of w))); last by move=> l t; rewrite /next_1d /= Xmat_scale.
apply map_map2; case=> l t; apply functional_extensionality => iz; apply functional_extensionality => ix.
rewrite [(_, _).1]/= [(_, _).2]/= [i1_d _]/= z_point_scale [(l, t).1]/= modes_1d_scale // linspace_scale.
exact (sample_1d_scale pol _ kx _ _ hc).
Qed.

Lemma modes_conical_scale c k0 n kx ky (l : info_sp 'M[C]_(n, n + n) n) t z : c <> 0%coqR ->
  modes_conical (k0 / c)%coqR kx ky (scs c l) t (c * z)%coqR = modes_conical k0 kx ky l t z.
Proof.
move=> hc; rewrite /modes_conical /back_sp.
rewrite [is_d (scs c l)]/= [is_W (scs c l)]/= [is_V (scs c l)]/= [is_q (scs c l)]/= [is_B (scs c l)]/= [is_Ai (scs c l)]/=.
rewrite [is_epzi (scs c l)]/=.
cbv zeta beta; rewrite (big_X_scale k0 hc) !(profile_scale k0 hc); reflexivity.
Qed.
Lemma modes_2d_scale c k0 n kx ky (l : info_sp 'M[C]_(n + n) n) t z : c <> 0%coqR ->
  modes_2d (k0 / c)%coqR kx ky (scs c l) t (c * z)%coqR = modes_2d k0 kx ky l t z.
Proof.
move=> hc; rewrite /modes_2d /back_sp.
rewrite [is_d (scs c l)]/= [is_W (scs c l)]/= [is_V (scs c l)]/= [is_q (scs c l)]/= [is_B (scs c l)]/= [is_Ai (scs c l)]/=.
rewrite [is_epzi (scs c l)]/=.
cbv zeta beta; rewrite (Xmat_scale k0 hc) !(profile_scale k0 hc); reflexivity.
Qed.
Lemma sample_sp_scale c k0 n kx ky x y (m : modes n) : c <> 0%coqR ->
  sample_sp (k0 / c)%coqR kx ky (c * x)%coqR (c * y)%coqR m = sample_sp k0 kx ky x y m.
Proof.
move=> hc; rewrite /sample_sp /=.
have e : (fun j => - ci * (RtoC (c * x)%coqR * kx j * RtoC (k0 / c)%coqR) + - ci * (RtoC (c * y)%coqR * ky j * RtoC (k0 / c)%coqR))
  = (fun j => - ci * (RtoC x * kx j * RtoC k0) + - ci * (RtoC y * ky j * RtoC k0)).
  by apply: functional_extensionality => j; rewrite !phase_scale.
by rewrite e.
Qed.
Lemma y_point_scale c p n i : y_point (c * p)%coqR n i = (c * y_point p n i)%coqR.
Proof. by rewrite /y_point linspace_scale. Qed.

Lemma field_conical_scale c w n kx ky (T1 : 'cV[C]_(n + n)) infos px py rx ry rz : c <> 0%coqR -> w <> 0%coqR ->
  field_conical (c * w)%coqR kx ky T1 (map (@scs c _ n) infos) (c * px)%coqR (c * py)%coqR rx ry rz
  = field_conical w kx ky T1 infos px py rx ry rz.
Proof.
move=> hc hw; rewrite /field_conical k0_scale // -map_rev.
rewrite (@descend_scale _ _ (@scs c _ n) (next_conical (k0_of w))); last by move=> l t; rewrite /next_conical big_X_scale.
apply map_map2; case=> l t; do 3 (apply functional_extensionality => ?).
rewrite [(_, _).1]/= [(_, _).2]/= [is_d _]/= z_point_scale modes_conical_scale // linspace_scale y_point_scale.
exact (sample_sp_scale _ kx ky _ _ _ hc).
Qed.
Lemma field_2d_scale c w n kx ky (T1 : 'cV[C]_(n + n)) infos px py rx ry rz : c <> 0%coqR -> w <> 0%coqR ->
  field_2d (c * w)%coqR kx ky T1 (map (@scs c _ n) infos) (c * px)%coqR (c * py)%coqR rx ry rz
  = field_2d w kx ky T1 infos px py rx ry rz.
Proof.
move=> hc hw; rewrite /field_2d k0_scale // -map_rev.
rewrite (@descend_scale _ _ (@scs c _ n) (next_2d (k0_of w))); last by move=> l t; rewrite /next_2d Xmat_scale.
apply map_map2; case=> l t; do 3 (apply functional_extensionality => ?).
rewrite [(_, _).1]/= [(_, _).2]/= [is_d _]/= z_point_scale modes_2d_scale // linspace_scale y_point_scale.
exact (sample_sp_scale _ kx ky _ _ _ hc).
Qed.

(** ** The object *)
Lemma reqb_scale c x : c <> 0%coqR -> reqb (c * x)%coqR 0 = reqb x 0.
Proof.
move=> hc; rewrite /reqb; case: Req_EM_T => h; case: Req_EM_T => h' //; exfalso.
- by case: (Rmult_integral _ _ h).
- by apply: h; rewrite h' Rmult_0_r.
Qed.
Lemma ratio_scale c w p : c <> 0%coqR -> (c * w / (c * p) = w / p)%coqR.
Proof.
move=> hc; case: (Req_EM_T p 0) => [->|hp]; last by field; split.
by rewrite /Rdiv Rmult_0_r Rinv_0 !Rmult_0_r.
Qed.

Definition scm (c : R) (m : memo) : memo :=
  match m with
  | MNone => MNone
  | M1d n T1 infos => M1d T1 (map (@sc1 c n) infos)
  | MCon n r infos => MCon r (map (@scs c _ n) infos)
  | M2d n r infos => M2d r (map (@scs c _ n) infos)
  end.

Section Obj.
Variables (pinv : forall n, 'M[C]_n -> 'M[C]_n) (eig : forall n, 'M[C]_n -> 'rV[C]_n * 'M[C]_n) (c : R).
Hypothesis hc : c <> 0%coqR.

Definition scp (p : R * R) : R * R := (c * p.1, c * p.2)%coqR.
Lemma period_scale o : period_of (rescale c o) = omap scp (period_of o).
Proof.
rewrite /period_of /=; case: (o_period o) => [r|[|px [|py l]]|] //=.
by rewrite !reqb_scale //; case: (_ || _).
Qed.

Lemma kx_scale o fx fy th p ts ts' w : kx_vector (setup_of (rescale c o) fx fy th (scp p) ts) (c * w)%coqR
  = kx_vector (setup_of o fx fy th p ts') w.
Proof. by apply: functional_extensionality => i; rewrite /kx_vector /= ratio_scale. Qed.
Lemma ky_scale o fx fy th p ts ts' w : ky_vector (setup_of (rescale c o) fx fy th (scp p) ts) (c * w)%coqR
  = ky_vector (setup_of o fx fy th p ts') w.
Proof. by apply: functional_extensionality => i; rewrite /ky_vector /= ratio_scale. Qed.

Lemma solve_with_scale o fx fy th p (cs : seq (conv3 (fy.*2.+1 * fx.*2.+1))) g : o_wavelength o <> 0%coqR ->
  solve_with pinv eig (rescale c o) th (scp p) cs g =
  (scm c (solve_with pinv eig o th p cs g).1, (solve_with pinv eig o th p cs g).2).
Proof.
move=> hw; rewrite /solve_with.
case: (_ && _) => //=; case: (o_algo o) => //; case: (o_thickness o) => [r|ts|] //=.
set s := setup_of o fx fy th p ts; set s' := setup_of (rescale c o) fx fy th (scp p) (map (Rmult c) ts).
have hk : kx_vector s' (c * o_wavelength o)%coqR = kx_vector s (o_wavelength o) by exact: kx_scale.
have hy : ky_vector s' (c * o_wavelength o)%coqR = ky_vector s (o_wavelength o) by exact: ky_scale.
case: g => [[|[|g]]|].
- rewrite /solve_1d layers_scale hk k0_scale //=.
  case: (layers_of _ _) => [ls|] //=; rewrite rcwa_1d_scale //.
  by case: (rcwa_1d _ _ _ _ _ _ _ _ _ _) => [[[r T1] infos]|].
- rewrite /solve_1d_conical /kx_tiled /ky_tiled hk hy /=; case: (fy == 0%N) => //.
  rewrite layers_scale k0_scale //; case: (layers_of _ _) => [ls|] //=; rewrite rcwa_conical_scale //.
  by case: (rcwa_conical _ _ _ _ _ _ _ _ _ _ _) => [[r infos]|].
- rewrite /solve_2d /kx_tiled /ky_tiled hk hy /=.
  rewrite layers_scale k0_scale //; case: (layers_of _ _) => [ls|] //=; rewrite rcwa_2d_scale //.
  by case: (rcwa_2d _ _ _ _ _ _ _ _ _ _ _) => [[r infos]|].
rewrite /solve_2d /kx_tiled /ky_tiled hk hy /=.
rewrite layers_scale k0_scale //; case: (layers_of _ _) => [ls|] //=; rewrite rcwa_2d_scale //.
by case: (rcwa_2d _ _ _ _ _ _ _ _ _ _ _) => [[r infos]|].
Qed.

Lemma convs_scale o fx fy : o_mtype o = Some false -> convs_of pinv (rescale c o) fx fy = convs_of pinv o fx fy.
Proof. by move=> h; rewrite /convs_of /= h. Qed.

Lemma scale_outcome o : o_mtype o = Some false -> (conv_solve pinv eig (rescale c o)).2 = (conv_solve pinv eig o).2.
Proof.
move=> hm; rewrite /conv_solve; change (fto_of (rescale c o)) with (fto_of o).
case: (fto_of o) => [[fx fy]|] //; rewrite convs_scale //; case: (convs_of _ _ _ _) => [cs|] //.
change (grating_of (rescale c o) fy) with (grating_of o fy); change (o_theta (rescale c o)) with (o_theta o).
change (o_wavelength (rescale c o)) with (c * o_wavelength o)%coqR; rewrite reqb_scale //.
case: (o_theta o) => [th|] //; rewrite period_scale; case: (period_of o) => [p|] //.
case e: (reqb _ _) => //; have hw : o_wavelength o <> 0%coqR by move: e; rewrite /reqb; case: Req_EM_T.
have -> : omap scp (Some p) = Some (scp p) by [].
by rewrite solve_with_scale //; case: (solve_with _ _ _ _ _ _ _).
Qed.

Definition field_of_memo (s : setup) (w pl px py : R) (g : option nat) (m : memo) rx ry rz sel : outcome :=
  match m with
  | MNone => if g is Some 0%N then FieldOf (Field1d [::]) else Raised
  | M1d n T1 infos =>
      if n == ff_x s then FieldOf (Field1d (field_1d w (kx_vector s w) T1 infos px pl rx rz)) else Raised
  | MCon n r infos =>
      if n == (ff_y s * ff_x s)%N then
        FieldOf (FieldSp [seq field_conical w (kx_tiled s w) (ky_tiled s w) T1 infos px py rx ry rz | T1 <- selected r sel])
      else Raised
  | M2d n r infos =>
      if n == (ff_y s * ff_x s)%N then
        FieldOf (FieldSp [seq field_2d w (kx_tiled s w) (ky_tiled s w) T1 infos px py rx ry rz | T1 <- selected r sel])
      else Raised
  end.
Lemma calculate_fieldE o fx fy th px py rx ry rz sel : fto_of o = Some (fx, fy) -> o_theta o = Some th ->
  period_of o = Some (px, py) -> reqb (o_wavelength o) 0 = false ->
  calculate_field o rx ry rz sel = field_of_memo (setup_of o fx fy th (px, py) [::]) (o_wavelength o) (pol_flag (o_pol o)) px py
    (o_grating o) (o_memo o) rx ry rz sel.
Proof. by move=> h1 h2 h3 h4; rewrite /calculate_field h1 h2 h3 h4. Qed.

Lemma scale_field o o1 r : o_mtype o = Some false -> conv_solve pinv eig o = (o1, Solved r) ->
  forall rx ry rz sel, calculate_field (conv_solve pinv eig (rescale c o)).1 rx ry rz sel = calculate_field o1 rx ry rz sel.
Proof.
move=> hm; rewrite /conv_solve; change (fto_of (rescale c o)) with (fto_of o).
case ef: (fto_of o) => [[fx fy]|] //; rewrite convs_scale //; case: (convs_of _ _ _ _) => [cs|] //.
change (grating_of (rescale c o) fy) with (grating_of o fy); change (o_theta (rescale c o)) with (o_theta o).
change (o_wavelength (rescale c o)) with (c * o_wavelength o)%coqR; rewrite reqb_scale //.
case et: (o_theta o) => [th|] //; rewrite period_scale; case ep: (period_of o) => [[px py]|] //.
case e: (reqb _ _) => //; have hw : o_wavelength o <> 0%coqR by move: e; rewrite /reqb; case: Req_EM_T.
have -> : omap scp (Some (px, py)) = Some (scp (px, py)) by [].
rewrite solve_with_scale //; case: (solve_with _ _ _ _ _ _ _) => [m out] [<- _] rx ry rz sel.
rewrite (@calculate_fieldE (set_memo (grating_of o fy) m o) fx fy th px py rx ry rz sel ef et ep e).
have ep' : period_of (rescale c o) = Some (c * px, c * py)%coqR by rewrite period_scale ep.
have e' : reqb (o_wavelength (rescale c o)) 0 = false by rewrite -e; exact (reqb_scale _ hc).
rewrite (@calculate_fieldE (set_memo (grating_of o fy) (scm c m) (rescale c o)) fx fy th _ _ rx ry rz sel ef et ep' e').
change (setup_of (set_memo (grating_of o fy) m o)) with (setup_of o).
change (setup_of (set_memo (grating_of o fy) (scm c m) (rescale c o))) with (setup_of (rescale c o)).
set s := setup_of o fx fy th (px, py) [::]; set s' := setup_of (rescale c o) fx fy th (_, _) [::].
rewrite [o_wavelength _]/= [o_grating _]/= [o_memo _]/= [o_pol _]/= [in RHS]/field_of_memo [o_wavelength (set_memo _ m o)]/=.
have hk : kx_vector s' (c * o_wavelength o)%coqR = kx_vector s (o_wavelength o) by exact (kx_scale o fx fy th (px, py) [::] [::] (o_wavelength o)).
have hy : ky_vector s' (c * o_wavelength o)%coqR = ky_vector s (o_wavelength o) by exact (ky_scale o fx fy th (px, py) [::] [::] (o_wavelength o)).
case: m => [|n T1 infos|n r' infos|n r' infos] //=; change (ff_x s') with (ff_x s); change (ff_y s') with (ff_y s).
- by case: (n == _) => //; rewrite hk field_1d_scale.
- case: (n == _) => //; congr (FieldOf (FieldSp _)); apply: eq_map => T1.
  by rewrite /kx_tiled /ky_tiled hk hy field_conical_scale.
- case: (n == _) => //; congr (FieldOf (FieldSp _)); apply: eq_map => T1.
  by rewrite /kx_tiled /ky_tiled hk hy field_2d_scale.
Qed.
End Obj.
