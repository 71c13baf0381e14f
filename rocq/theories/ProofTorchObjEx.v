(** PyTorch solver objects on which the solver returns, for the examples: films written with one number or with three different
    components per pixel. *)
From Coq Require Import Reals ZArith Lra Psatz.
From mathcomp Require Import all_ssreflect ssralg matrix.
From Coquelicot Require Import Complex.
From Verif Require Import Cplx Mx Spec SpecSolve SpecFilm SpecLayer ModelTM ModelFourier ModelVec ModelField ModelState ModelTorch ModelTorchObj
  SpecState SpecTorchObj ProofSetup ProofConv ProofLayer ProofRules ProofInvert ProofFourier ProofState ProofState2 ProofEnd ProofEnd2
  ProofWellSolve ProofTorchObj ProofTorchObj2 ExampleKit ProofObjEx PropertiesFilm PropertiesFourier.

Set Implicit Arguments.
Unset Strict Implicit.
Unset Printing Implicit Defensive.
Local Open Scope ring_scope.
Import GRing.Theory.

(** The films of [obj_ex] (index 2), as numbers. *)
Definition iso_ex (p : R) (ts : seq R) : tobj :=
  TObj (obj_ex p ts) (TRaster3 1 3 (nseq (size ts) (fun _ _ => RtoC 2))) false.
(** Films with the components 3, 2, 5. *)
Definition aniso_ex (ts : seq R) : tobj :=
  TObj (obj_ex 0 ts) (TRaster4 1 3 (nseq (size ts) (fun _ _ => (RtoC 3, RtoC 2, RtoC 5)))) false.

Lemma obj_ex_phys p ts : physical_obj (obj_ex p ts).
Proof.
split=> //=.
- by exists 3%coqR => //; lra.
- by move=> t [<-]; exists th_ex => //; exact: th_ex_bound.
- by rewrite /psi_of; exists (PI / 2 * (1 - p))%coqR; rewrite RtoC_mul RtoC_sub.
- by move=> ps [<-] q [<-|[<-|[]]]; lra.
Qed.

(** The NumPy twin of [iso_ex] returns. *)
Lemma iso_twin pv p ts : p = 0%coqR \/ p = 1%coqR -> exists n' r,
  conv_solve pv eig_ex (numpy_twin (o_cell (obj_ex p ts)) (iso_ex p ts)) = (n', Solved r) /\ no_flat_memo (o_memo n').
Proof.
move=> hp; have [o' [r [T1 [infos [e em _]]]]] := obj_ex_solves pv ts hp.
have ep : period_of (obj_ex p ts) = Some (2, 2)%coqR by rewrite /period_of /= /reqb; case: Req_EM_T => //= h; lra.
have ew : o_wavelength (obj_ex p ts) <> 0%coqR by rewrite /=; lra.
have hg : grating_of (obj_ex p ts) 0 = Some 0%N.
  rewrite /grating_of /=; have -> // : (RtoC p == 0) || (RtoC p == 1).
  by case: hp => ->; rewrite eqxx ?orbT.
move: e; rewrite (conv_solve_run (o := obj_ex p ts) (fx := 1) (fy := 0) (th := RtoC th_ex) eig_ex erefl (convs_ex pv p ts) erefl ep ew) hg.
set tw := numpy_twin _ _ => e.
have hg' : grating_of tw 0 = Some 0%N by exact hg.
rewrite (conv_solve_run (o := tw) (fx := 1) (fy := 0) (th := RtoC th_ex) eig_ex erefl (convs_ex pv p ts) erefl ep ew) hg'.
pose cs := nseq (size ts) (uniform_convs (0.*2.+1 * 1.*2.+1) (RtoC 2 ^+ 2)).
have es : @solve_with pv eig_ex tw 1 0 (RtoC th_ex) (2, 2)%coqR cs (Some 0%N) =
   @solve_with pv eig_ex (obj_ex p ts) 1 0 (RtoC th_ex) (2, 2)%coqR cs (Some 0%N) by [].
rewrite -/cs es; move: e; rewrite -/cs; case: (solve_with _ _ _ _ _ _ _) => m out [e1 ->].
do 2 eexists; split; first reflexivity.
have -> : o_memo (set_memo (Some 0%N) m tw) = m by [].
have -> : m = o_memo o' by rewrite -e1.
by rewrite em.
Qed.

(** ** The anisotropic films *)
Lemma t_dfs_uniform e cx cy fx fy l n : (0 < rows l)%N -> (0 < cols l)%N -> n != 0 -> cx || cy ->
  all_px (fun z => z = n) l -> t_dfs e cx cy fx fy l = Some (n ^+ 2)%:M.
Proof.
move=> hr hc hn hab h; have [h1 h2] := enlarge_size e fx fy hr hc.
have hl := all_enlarge (e := e) (fto_x := fx) (fto_y := fy) h.
apply: four2d_uniform => //; try (by apply: fft_in_range; apply: dbl_lt); try exact: fft_reads; try (by rewrite expf_neq0).
- by apply: fft_unital; apply: dbl_lt.
- by apply: fft_unital; apply: dbl_lt.
by move=> i j hi hj; rewrite /eps_of hl.
Qed.

Definition aniso_convs n : conv3 n := ((RtoC 3 ^+ 2)%:M, (RtoC 2 ^+ 2)%:M, ((RtoC 5 ^+ 2)^-1)%:M).

Lemma num_neq0 (x : R) : (0 < x)%coqR -> RtoC x != 0.
Proof. by move=> h; apply: RtoC_neq0; lra. Qed.

Lemma aniso_convsE pv ts : t_convs_of pv (aniso_ex ts) 1 0 = Some (nseq (size ts) (aniso_convs _)).
Proof.
have p2 : (0 < 2)%coqR by lra. have p3 : (0 < 3)%coqR by lra. have p5 : (0 < 5)%coqR by lra.
rewrite /t_convs_of /= map_nseq; apply: conv_all_nseq.
rewrite /t_conv_discrete /layer4 /components.
set l5 := Raster _ _ _; set l2 := Raster _ _ _; set l3 := Raster _ _ _.
have e5 := @t_dfs_uniform true true true 1 0 l5 (RtoC 5) isT isT (num_neq0 p5) isT (fun _ _ _ _ => erefl).
have e2 := @t_dfs_uniform true true false 1 0 l2 (RtoC 2) isT isT (num_neq0 p2) isT (fun _ _ _ _ => erefl).
have e3 := @t_dfs_uniform true false true 1 0 l3 (RtoC 3) isT isT (num_neq0 p3) isT (fun _ _ _ _ => erefl).
rewrite e5 e2 e3.
rewrite /t_three_convs /t_inv /aniso_convs.
have u : ((RtoC 5 ^+ 2)%:M : 'M[C]_(0.*2.+1 * 1.*2.+1)) \in unitmx.
  by rewrite unitmxE det_scalar unitfE expf_neq0 // expf_neq0 //; exact: num_neq0.
by rewrite u invmx_scalar.
Qed.

Lemma diag_propagates n (D : 'rV[C]_n) : (forall j, exists2 x : R, (0 < x)%coqR & D ord0 j = RtoC (- x)) ->
  propagating_modes eig_ex (diag_mx D).
Proof.
move=> hD; have hu := eig_ex_splits D; split=> // j.
have h := eig_ex_ok (diag_mx D) j.
have [i hi] : exists i, (eig_ex (diag_mx D)).2 i j != 0.
  case e: [exists i, (eig_ex (diag_mx D)).2 i j != 0]; first by apply/existsP.
  have z : col j (eig_ex (diag_mx D)).2 = 0.
    apply/matrixP => i k; rewrite !mxE; apply/eqP/negbNE/negP => hi.
    by move/negbT/existsPn/(_ i): e; rewrite hi.
  have := congr1 (fun v => invmx (eig_ex (diag_mx D)).2 *m v) z.
  rewrite colE mulKmx // mulmx0 => /matrixP /(_ j ord0); rewrite !mxE !eqxx => /eqP; by rewrite oner_eq0.
have := congr1 (fun v : 'cV[C]_n => v i ord0) h.
rewrite mul_diag_mx !mxE => /(mulIf hi) <-; exact: hD.
Qed.

Lemma aniso_solves pv ts : exists r T1 infos,
  solve_1d pv eig_ex false (Setup (RtoC 3) (RtoC 2) (RtoC th_ex) None (psi_of (RtoC 0)) 0 1 0 2 2 ts) 1
    (nseq (size ts) (aniso_convs 3)) = Some (r, T1, infos).
Proof.
set s := Setup _ _ _ _ _ _ _ _ _ _ _.
have b3 : (0 < 3)%coqR by lra.
have b2 : (0 < 2)%coqR by lra.
have hph : phi_val s = RtoC 0 by [].
have [kxE _] := kx_phys (s := s) 1 (nt := 3) (th := th_ex) erefl erefl th_ex_bound hph.
have kxR i : kx_vector s 1 i = RtoC (order_kx 3 th_ex 1 i 1 2).
  rewrite kxE cos_0 /order_kx /order; congr RtoC; change (fto_x s) with 1%N; change (period_x s) with 2%coqR; ring.
have hord : (forall i : 'I_3, let x := order_kx 3 th_ex 1 i 1 2 in (x * x < 3 * 3)%coqR /\ (x * x < 2 * 2)%coqR).
  rewrite /order_kx sin_th_ex; by case=> -[|[|[|//]]] /= _; split; lra.
apply: (well_solve_1d pv eig_ex_ok (s := s) (w := 1) (nt := 3) (nb := 2)) => //.
- split=> //.
  + by exists 3%coqR.
  + by exists th_ex => //; exact: th_ex_bound.
- by left.
- by rewrite size_nseq.
- by move=> i; exists (order_kx 3 th_ex 1 i 1 2); [exact: kxR|case: (hord i)].
move=> c hc; have {hc} -> : c = aniso_convs 3.
  have key k m : List.In c (take k (nseq m (aniso_convs 3))) -> c = aniso_convs 3.
    by elim: k m => [|k IH] [|m] //= [<-|/IH].
  exact: key hc.
split.
- have hs (x : R) : hermitian ((RtoC x)%:M : 'M[C]_3).
    by move=> i j; rewrite !mxE eq_sym; case: eqP => _; rewrite ?mulr1n ?mulr0n ?conjR // /conj /= Ropp_0.
  rewrite /aniso_convs !expr2 -!RtoC_mul -RtoC_inv; last lra.
  by split; exact: hs.
- have -> : helmholtz (pol s) (kx_vector s 1) (aniso_convs 3) = te_operator (kx_vector s 1) (aniso_convs 3).
    by rewrite /helmholtz; change (pol s) with 0%coqR; case: (Req_EM_T 0 0) => [h|h]; [|case: h].
  have -> : te_operator (kx_vector s 1) (aniso_convs 3) = diag_mx (\row_i (kx_vector s 1 i ^+ 2 - RtoC 2 ^+ 2)).
    by rewrite te_operatorE /diagf /aniso_convs /=; apply/matrixP => i j; rewrite mul_diag_mx !mxE; case: eqP => [->|_]; rewrite ?mulr1n ?mulr0n ?mulr0 ?subrr ?expr2.
  apply: diag_propagates => j; have [_ h] := hord j; rewrite mxE kxR.
  set x := order_kx _ _ _ _ _ _ in h *; exists (2 * 2 - x * x)%coqR; first lra.
  by rewrite !expr2 -!RtoC_mul -RtoC_sub; congr RtoC; ring.
- by rewrite /= => h; lra.
Qed.

Lemma psi_neg : - psi_of (RtoC 0) = RtoC (- (PI / 2)).
Proof. by rewrite /psi_of; cext; rewrite /Re /Im /=; field. Qed.

Lemma aniso_plain pv ts : exists m r, plain_run pv eig_ex (aniso_ex ts) m r /\ no_flat_memo m.
Proof.
have [r [T1 [infos e]]] := aniso_solves pv ts.
exists (@M1d 3 T1 infos), (Report (Some r) None None); split=> //.
exists 1%N, 0%N, (nseq (size ts) (aniso_convs _)), 0%N, (RtoC th_ex), (2, 2)%coqR; split; split=> //.
- exact: aniso_convsE.
- rewrite /t_grating /t_grating_of /=; have -> : (RtoC 0 == 0) = true by apply/eqP.
  by [].
- by rewrite /period_of /= /reqb; case: Req_EM_T => //= h; lra.
- by rewrite /=; lra.
set tw := numpy_twin _ _; pose cs := nseq (size ts) (aniso_convs (0.*2.+1 * 1.*2.+1)).
have -> : @solve_with pv eig_ex tw 1 0 (RtoC th_ex) (2, 2)%coqR cs (Some 0%N) =
  @solve_with pv eig_ex (obj_ex 0 ts) 1 0 (RtoC th_ex) (2, 2)%coqR cs (Some 0%N) by [].
rewrite /solve_with /= map_nseq.
have -> : crop3 (1.*2.+1) (aniso_convs (0.*2.+1 * 1.*2.+1)) = aniso_convs 3.
  by rewrite /crop3 /aniso_convs !(@crop_scalar _ 3).
have e' : solve_1d pv eig_ex false (setup_of (obj_ex 0 ts) 1 0 (RtoC th_ex) (2, 2)%coqR ts) 1
   (nseq (size ts) (aniso_convs 3)) = Some (r, T1, infos) := e.
by rewrite e'.
Qed.

(** A conical mount of a line grating whose pixels have the components 2, 2 + 10^-6, 2. *)
Definition near_ex (t : R) : tobj :=
  TObj (Obj false (RtoC (1 / 10 ^ 20)) (RtoC 3) (RtoC 2) (Some (RtoC th_ex)) (Some (RtoC 1)) (psi_of (RtoC 0)) (RtoC 0) (Fto 1 0)
         (A1 [:: 2; 2]%coqR) 1 (A1 [:: t]) TMM false CNone (Some false) 0 true None MNone)
       (TRaster4 1 3 [:: fun _ _ => (RtoC 2, RtoC (2 + 1 / 10 ^ 6), RtoC 2)]) false.

Lemma near_close : t_is_aniso (t_cell (near_ex 0)) = false.
Proof.
have h (a b : R) : (Rabs (a - b) <= 1 / 10 ^ 6)%coqR -> (1 <= b)%coqR -> close (RtoC a) (RtoC b).
  move=> h1 h2; rewrite /close /rleb -RtoC_sub !Cmod_R (Rabs_pos_eq b); last lra.
  by case: (Rle_dec _ _) => // -[]; lra.
have h1 : close (RtoC 2) (RtoC (2 + 1 / 10 ^ 6)).
  by apply: h; [rewrite Rabs_left1; lra|lra].
have h2 : close (RtoC (2 + 1 / 10 ^ 6)) (RtoC 2).
  by apply: h; [rewrite Rabs_pos_eq; lra|lra].
by rewrite /t_is_aniso /= /allclose /= h1 h2.
Qed.

Lemma near_grating pv eig t : o_grating (t_attrs (t_conv_solve pv eig (near_ex t)).1) = Some 1%N.
Proof.
have [cs ec] : exists cs, t_convs_of pv (near_ex t) 1 0 = Some cs.
  have hp (x : R) : (0 < x)%coqR -> half_plane_of 1 3 (fun _ _ => RtoC x).
    move=> hx; exists 1; first exact: nrm2_1.
    move=> i j _ _; rewrite mul1r expr2 -RtoC_mul /Re /=; nra.
  refine (@t_convs_defined pv (near_ex t) 1 0 1 3 _ erefl erefl isT isT (or_introl erefl) _).
  by move=> f [<-|[]]; split; apply: hp; lra.
have eg : t_grating (near_ex t) 0 = Some 1%N.
  rewrite /t_grating /t_grating_of /=; have -> : (RtoC 0 == 0) = true by apply/eqP.
  have -> : (RtoC 1 == 0) = false by apply/eqP => -[]; lra.
  have := near_close; rewrite /near_ex /= => ->.
  by [].
have ep : period_of (t_attrs (near_ex t)) = Some (2, 2)%coqR by rewrite /period_of /= /reqb; case: Req_EM_T => //= h; lra.
rewrite /t_conv_solve; have -> : fto_of (t_attrs (near_ex t)) = Some (1%N, 0%N) by [].
rewrite ec eg ep; case: (reqb _ _) => //.
have -> : o_theta (t_attrs (near_ex t)) = Some (RtoC th_ex) by [].
by case: (t_solve_with _ _ _ _ _ _ _).
Qed.

(** ** Settings *)
Definition same_all (o1 o2 : tobj) : Prop := same_tsettings o1 o2 /\ o_pert (t_attrs o1) = o_pert (t_attrs o2).

Lemma t_solve_all pinv eig o : same_all (t_conv_solve pinv eig o).1 o.
Proof.
rewrite /t_conv_solve; case: (fto_of _) => [[fx fy]|] //; case: (t_convs_of _ _ _ _) => [cs|] //.
case: (o_theta _) => [th|] //; case: (period_of _) => [p|] //; case: (reqb _ _) => //.
by case: (t_solve_with _ _ _ _ _ _ _).
Qed.

Lemma st_trans o1 o2 o3 : same_all o1 o2 -> same_all o2 o3 -> same_all o1 o3.
Proof. move=> [[h1 e1] p1] [[h2 e2] p2]; split; [split; [exact: same_settings_trans h1 h2|by rewrite e1]|by rewrite p1]. Qed.
Lemma st_sym o1 o2 : same_all o1 o2 -> same_all o2 o1.
Proof. move=> [[h1 e1] p1]; split; [split; [exact: same_settings_sym h1|by rewrite e1]|by rewrite p1]. Qed.

(** Setters respect settings. *)
Definition sa (a a' : obj) : Prop := same_settings a a' /\ o_pert a = o_pert a'.
Definition good (f : obj -> obj * bool) : Prop := forall a a', sa a a' -> sa (f a).1 (f a').1 /\ (f a).2 = (f a').2.

Ltac dsa := case=> [a1 a2 a3 a4 a5 a6 a7 a8 a9 a10 a11 a12 a13 a14 a15 a16 a17 a18 a19 a20];
  case=> [b1 b2 b3 b4 b5 b6 b7 b8 b9 b10 b11 b12 b13 b14 b15 b16 b17 b18 b19 b20];
  move=> [[[/= h1 h2 h3 h4] [[h5 h6 h7 h8] [[h9 h10 h11 h12] [h13 h14 h15 h16]]]] hpert]; subst.
Ltac brk := repeat (match goal with |- context [match ?x with _ => _ end] =>
            lazymatch x with context [match _ with _ => _ end] => fail | _ => destruct x end end; rewrite /=); by split.

Lemma good_theta v : good (assign_theta v).
Proof. dsa; rewrite /assign_theta /=; brk. Qed.
Lemma good_phi v : good (assign_phi v).
Proof. dsa; rewrite /assign_phi /=; brk. Qed.
Lemma good_psi v : good (t_assign_psi v).
Proof. dsa; rewrite /t_assign_psi /=; brk. Qed.
Lemma good_pol v : good (assign_pol v).
Proof. dsa; rewrite /assign_pol /=; brk. Qed.
Lemma good_fto v : good (assign_fto v).
Proof. dsa; rewrite /assign_fto /=; brk. Qed.
Lemma good_period v : good (t_assign_period v).
Proof. dsa; rewrite /t_assign_period /=; brk. Qed.
Lemma good_thickness v : good (assign_thickness v).
Proof. dsa; rewrite /assign_thickness /=; brk. Qed.

Lemma good_retype b : good (retype b).
Proof.
move=> a a' h; rewrite /retype.
have h1 : sa (set_single b a) (set_single b a') by move: a a' h; dsa; split.
have et x x' : sa x x' -> [/\ o_theta x = o_theta x', o_phi x = o_phi x', o_fto x = o_fto x' & o_thickness x = o_thickness x'].
  by move=> [[[? ? ? ?] [[? ? ? ?] [[? ? ? ?] _]]] _].
have [e1 _ _ _] := et _ _ h1.
have := good_theta (val_angle (o_theta (set_single b a'))) h1; rewrite e1.
case: (assign_theta _ (set_single b a)) => [o2 e2]; case: (assign_theta _ _) => [o2' e2'] /= [h2 <-].
case: (e2); first by split.
have [_ p1 _ _] := et _ _ h2; have := good_phi (val_angle (o_phi o2')) h2; rewrite p1.
case: (assign_phi _ o2) => [o3 e3]; case: (assign_phi _ _) => [o3' e3'] /= [h3 <-].
case: (e3); first by split.
have [_ _ f1 _] := et _ _ h3; have := good_fto (val_fto (o_fto o3')) h3; rewrite f1.
case: (assign_fto _ o3) => [o4 e4]; case: (assign_fto _ _) => [o4' e4'] /= [h4 <-].
case: (e4); first by split.
by have [_ _ _ t1] := et _ _ h4; rewrite t1; exact: good_thickness.
Qed.

Lemma good_type v : good (assign_type_complex v).
Proof.
move=> a a' h; rewrite /assign_type_complex.
case: v => [|n|n|xs|n|xs|d ny nx l|ins|b|]; try exact: good_retype; rewrite /scalar;
  try (case: xs => [|n [|? ?]]); try (case: ifP => _; first exact: good_retype); try (case: ifP => _; first exact: good_retype); by split.
Qed.

Lemma on_good f o1 o2 : good f -> same_all o1 o2 -> same_all (on_attrs f o1).1 (on_attrs f o2).1.
Proof.
case: o1 o2 => [a c b] [a' c' b'] hf [[h1 h2] h3]; rewrite /on_attrs /=.
have [|] := hf a a'; first by split.
by case: (f a) => x e; case: (f a') => x' e' /= [k1 k2] _; split; [split|].
Qed.

Lemma t_op_same pinv eig a o1 o2 : same_all o1 o2 -> same_all (t_do_op pinv eig a o1).1 (t_do_op pinv eig a o2).1.
Proof.
move=> h.
have hsolve : same_all (t_conv_solve pinv eig o1).1 (t_conv_solve pinv eig o2).1.
  exact: st_trans (t_solve_all pinv eig o1) (st_trans h (st_sym (t_solve_all pinv eig o2))).
have hcell v : same_all (t_assign_ucell v o1).1 (t_assign_ucell v o2).1.
  case: o1 o2 h {hsolve} => [x c b] [x' c' b'] [[hs /= hc] hp].
  (have hsa : sa x x' by split); clear hs hp; move: x x' hsa; dsa; rewrite /t_assign_ucell /=; brk.
case: a => [[]|]; intros; rewrite /t_do_op.
- exact: on_good (good_theta _) h.
- exact: on_good (good_phi _) h.
- exact: on_good (good_psi _) h.
- exact: on_good (good_pol _) h.
- exact: on_good (good_fto _) h.
- exact: on_good (good_period _) h.
- exact: on_good (good_thickness _) h.
- exact: on_good (good_type _) h.
- exact: hcell.
all: try exact: hsolve; try exact: h; try exact: hcell.
all: case: o1 o2 h {hsolve hcell} => [x cc b] [x' c' b'] [[hs /= hc] hp]; (have hsa : sa x x' by split); clear hs hp; move: x x' hsa; dsa; by split.
Qed.

Lemma t_skip_all pinv eig h o1 o2 : same_all o1 o2 ->
  same_all (t_after pinv eig h o1) (t_after pinv eig [seq a <- h | ~~ t_is_solve a] o2).
Proof.
elim: h o1 o2 => [|a h IH] o1 o2 hs //=.
case ea: (t_is_solve a) => /=; last by apply: IH; exact: t_op_same.
apply: IH; case: a ea => [[]|] // _; exact: st_trans (t_solve_all pinv eig o1) hs.
Qed.

Lemma t_skip pinv eig h o :
  (t_conv_solve pinv eig (t_after pinv eig h o)).2 = (t_conv_solve pinv eig (t_after pinv eig [seq a <- h | ~~ t_is_solve a] o)).2.
Proof. by have [hs _] := @t_skip_all pinv eig h o o ltac:(by split); case: (t_same_solve pinv eig hs). Qed.
