(** Properties of the PyTorch solver object (C106-C110). *)
From Coq Require Import Reals ZArith Lra.
From mathcomp Require Import all_ssreflect ssralg matrix.
From Coquelicot Require Import Complex.
From Verif Require Import Cplx Mx Spec SpecSolve SpecLayer SpecTorch SpecAgree ModelTM ModelFourier ModelVec ModelField ModelState ModelTorch ModelTorchObj
  SpecState SpecTorchObj ProofTorch3 ProofTorchObj ProofTorchObj2 ProofTorchObjEx ProofObjEx ExampleKit PropertiesFilm PropertiesFourier.

Set Implicit Arguments.
Unset Strict Implicit.
Unset Printing Implicit Defensive.
Local Open Scope ring_scope.
Import GRing.Theory.

(** ** C106: the results of NumPy, from the cell to the report *)
Theorem C106_numpy_result pinv eig o c n' r : let a := t_attrs o in
  same_cell (t_cell o) c -> o_phi a <> Some 0 ->
  physical_obj a -> is_real (o_nbot a) -> (o_use_pinv a = true -> pinv_oracle pinv) ->
  conv_solve pinv eig (numpy_twin c o) = (n', Solved r) -> no_flat_memo (o_memo n') ->
  exists o' r', t_conv_solve pinv eig o = (o', Solved r') /\ same_report r' r.
Proof. exact (@twin_same pinv eig o c n' r). Qed.
Print Assumptions C106_numpy_result.

Example C106_ex pinv p ts : p = 0%coqR \/ p = 1%coqR -> let o := iso_ex p ts in let c := o_cell (t_attrs o) in
  exists n' r o' r',
  [/\ same_cell (t_cell o) c, o_phi (t_attrs o) <> Some 0, physical_obj (t_attrs o), is_real (o_nbot (t_attrs o))
    & o_use_pinv (t_attrs o) = false] /\
  [/\ conv_solve pinv eig_ex (numpy_twin c o) = (n', Solved r), no_flat_memo (o_memo n'),
      t_conv_solve pinv eig_ex o = (o', Solved r') & same_report r' r].
Proof.
move=> hp o c; have [n' [r [e hf]]] := iso_twin pinv ts hp.
have h1 : same_cell (t_cell o) c by constructor.
have h2 : o_phi (t_attrs o) <> Some 0 by [].
have h3 : physical_obj (t_attrs o) by exact: obj_ex_phys.
have h4 : is_real (o_nbot (t_attrs o)) by exists 2%coqR.
have h5 : o_use_pinv (t_attrs o) = true -> pinv_oracle pinv by [].
have [o' [r' [e' hs]]] := C106_numpy_result h1 h2 h3 h4 h5 e hf.
by exists n', r, o', r'.
Qed.

(** ** C107: three equal components are one number *)
Theorem C107_promoted pinv eig a b b' c c' : promoted c c' ->
  (t_conv_solve pinv eig (TObj a c b)).2 = (t_conv_solve pinv eig (TObj a c' b')).2 /\
  t_attrs (t_conv_solve pinv eig (TObj a c b)).1 = t_attrs (t_conv_solve pinv eig (TObj a c' b')).1.
Proof. exact (@promoted_solve pinv eig a b b' c c'). Qed.
Print Assumptions C107_promoted.

(** Pixels with three entries; a vector instruction with one triple among its numbers. *)
Example C107_ex pinv p ts : p = 0%coqR \/ p = 1%coqR ->
  let four := TRaster4 1 3 [seq (fun i j => (f i j, f i j, f i j)) | f : nat -> nat -> C <- nseq (size ts) (fun _ _ => RtoC 2)] in
  (promoted (t_cell (iso_ex p ts)) four /\ exists r, (t_conv_solve pinv eig_ex (TObj (obj_ex p ts) four true)).2 = Solved r) /\
  promoted (TVector [:: (I1 (RtoC 1), [:: (VShape [:: Rect 0 0 1 1 0], I1 (RtoC 2)); (VShape [:: Rect 1 1 2 2 0], I1 (RtoC 3))])])
           (TVector [:: (I1 (RtoC 1), [:: (VShape [:: Rect 0 0 1 1 0], I3 (RtoC 2) (RtoC 2) (RtoC 2)); (VShape [:: Rect 1 1 2 2 0], I1 (RtoC 3))])]).
Proof.
move=> hp four; have hq : promoted (t_cell (iso_ex p ts)) four by constructor.
split; last by constructor.
split=> //.
have [_ [_ [o' [r' [_ [_ _ e _]]]]]] := C106_ex pinv ts hp.
have [h _] := @C107_promoted pinv eig_ex (obj_ex p ts) false true _ _ hq.
by exists r'; rewrite -h; move: e => ->.
Qed.

(** ** C108: energy conservation with diagonal anisotropy *)
Theorem C108_energy pinv eig o m r (b : R) : eigen_oracle eig -> let a := t_attrs o in
  physical_obj a -> o_nbot a = RtoC b -> (0 < b)%coqR ->
  cell_all real_nonzero (t_cell o) -> isotropic (t_cell o) \/ anisotropic (t_cell o) -> o_use_pinv a = false ->
  (o_mtype a = Some true -> hermitian_pinv pinv) ->
  plain_run pinv eig o m r -> no_flat_memo m ->
  exists o' r', [/\ t_conv_solve pinv eig o = (o', Solved r'), report_all power_conserved r' & report_all eff_in_unit r'].
Proof. exact (@t_energy_obj pinv eig o m r b). Qed.
Print Assumptions C108_energy.

(** The matrices of raster cells exist when the squares of each component's values lie in a half plane. *)
Theorem C108_convs_defined pinv o fx fy : let a := t_attrs o in
  o_mtype a = Some false ->
  (exists ny nx, [/\ (0 < ny)%N, (0 < nx)%N & (exists ls, t_cell o = TRaster3 ny nx ls) \/ (exists ls, t_cell o = TRaster4 ny nx ls)]) ->
  o_fourier_type a = 0%Z \/ o_fourier_type a = 1%Z -> half_plane_tcell (t_cell o) ->
  exists cs, t_convs_of pinv o fx fy = Some cs.
Proof.
move=> a em [ny [nx [h1 h2 [[ls el]|[ls el]]]]] hft hh.
- by refine (@t_convs_defined pinv o fx fy ny nx _ em _ h1 h2 hft hh); rewrite el.
- by refine (@t_convs_defined pinv o fx fy ny nx _ em _ h1 h2 hft hh); rewrite el.
Qed.
Print Assumptions C108_convs_defined.

Lemma real_nz (x : R) : (0 < x)%coqR -> real_nonzero (RtoC x).
Proof. by move=> h; split; [exact: conjR|case; lra]. Qed.

(** Films with the components 3, 2 and 5. *)
Example C108_ex pinv t ts : let o := aniso_ex (t :: ts) in
  exists m r o' r', [/\ physical_obj (t_attrs o), cell_all real_nonzero (t_cell o), anisotropic (t_cell o) & half_plane_tcell (t_cell o)] /\
  [/\ plain_run pinv eig_ex o m r, no_flat_memo m, t_conv_solve pinv eig_ex o = (o', Solved r') & report_all power_conserved r'].
Proof.
move=> o; have [m [r [e hf]]] := aniso_plain pinv (t :: ts).
have inE f : List.In f (nseq (size (t :: ts)) (fun _ _ : nat => (RtoC 3, RtoC 2, RtoC 5))) -> f = fun _ _ => (RtoC 3, RtoC 2, RtoC 5).
  by elim: (size _) => //= k IH [<-|/IH].
have h1 : physical_obj (t_attrs o) by exact: obj_ex_phys.
have h2 : cell_all real_nonzero (t_cell o) by move=> f /inE -> i j _ _; split; apply: real_nz; rewrite /=; lra.
have h3 : anisotropic (t_cell o).
  exists 1%N, 3%N, (nseq (size (t :: ts)) (fun _ _ => (RtoC 3, RtoC 2, RtoC 5))), (fun _ _ => (RtoC 3, RtoC 2, RtoC 5)), 0%N, 0%N.
  split=> //; [by left|left; rewrite /far /= -RtoC_sub !Cmod_R !Rabs_pos_eq; lra].
have h4 : half_plane_tcell (t_cell o).
  have hp (x : R) : (0 < x)%coqR -> half_plane_of 1 3 (fun _ _ => RtoC x).
    move=> hx; exists 1; first exact: nrm2_1.
    by move=> i j _ _; rewrite mul1r expr2 -RtoC_mul /Re /=; apply: Rmult_lt_0_compat.
  by move=> f /inE ->; split; apply: hp; lra.
have p2 : (0 < 2)%coqR by lra.
have hm : o_mtype (t_attrs o) = Some true -> hermitian_pinv pinv by [].
have [o' [r' [e' k1 _]]] := @C108_energy pinv eig_ex o m r 2 eig_ex_ok h1 erefl p2 h2 (or_intror h3) erefl hm e hf.
by exists m, r, o', r'.
Qed.

(** ** C109: line gratings: the classical-mount solver and the 2D solver agree, and which solver an anisotropic cell gets *)
Theorem C109_classical_is_2d pinv eig : eigen_oracle eig ->
  forall s w (p nt nb : R) (convs : seq (conv3 (ff_x s))) (e : ff_x s = (ff_y s * ff_x s)%N), physical s ->
  n_top s = RtoC nt -> n_bot s = RtoC nb -> psi s = RtoC p ->
  (forall t, List.In t (thickness s) -> (0 <= t)%coqR) -> phi_val s = 0 -> fto_y s = 0%N ->
  forall r1 T1 infos1 r infos,
  solve_1d pinv eig false s w convs = Some (r1, T1, infos1) ->
  solve_2d pinv eig false (with_psi s (RtoC (- p))) w (map (cast_conv e) convs) = Some (r, infos) -> no_flat_mode infos ->
  exists r1' r', [/\ t_solve_1d pinv eig false s w convs = Some (r1', T1, infos1),
    t_solve_2d pinv eig false s w (map (cast_conv e) convs) = Some (r', infos) & same_eff_orders r1' (pure s r')].
Proof. exact (@t_orders_2d pinv eig). Qed.
Print Assumptions C109_classical_is_2d.

Example C109_ex (ps pl : R) : pl = 0%coqR \/ pl = 1%coqR ->
  let ts := [:: 1; 2]%coqR in let s := s_ex0 (RtoC ps) pl ts in
  exists r1 T1 infos1 r infos,
  [/\ solve_1d pinv_ex eig_ex false s 1 (nseq 2 conv_ex) = Some (r1, T1, infos1),
      solve_2d pinv_ex eig_ex false (with_psi s (RtoC (- ps))) 1 (nseq 2 conv_ex) = Some (r, infos), no_flat_mode infos
    & exists r1' r', [/\ t_solve_1d pinv_ex eig_ex false s 1 (nseq 2 conv_ex) = Some (r1', T1, infos1),
       t_solve_2d pinv_ex eig_ex false s 1 (nseq 2 conv_ex) = Some (r', infos) & same_eff_orders r1' (pure s r')]].
Proof.
move=> hpl ts s.
have [r1 [T1 [i1 e1]]] := solve_1d_ex pinv_ex (RtoC ps) ts hpl.
have [r [i e]] := solve_2d_ex pinv_ex (RtoC (- ps)) pl ts.
have hf := no_flat_ex e.
have hd : forall t, List.In t (thickness s) -> (0 <= t)%coqR by move=> t /= [<-|[<-|[]]]; lra.
have hp : physical s by exact: physical_ex0.
have e1' : solve_1d pinv_ex eig_ex false s 1 (nseq 2 conv_ex) = Some (r1, T1, i1) by rewrite -e1.
have ec : map (cast_conv (erefl : ff_x s = (ff_y s * ff_x s)%N)) (nseq 2 conv_ex) = nseq 2 conv_ex.
  by rewrite /= /cast_conv /conv_ex !castmx_id.
exists r1, T1, i1, r, i; split=> //.
have := @C109_classical_is_2d pinv_ex eig_ex eig_ex_ok s 1 ps 3 1 (nseq 2 conv_ex) erefl hp erefl erefl erefl hd erefl erefl _ _ _ r i e1'.
by rewrite ec; apply.
Qed.

(** Cells with components that differ by more than the tolerance of [torch.allclose] are not given to the conical solver, whose
    formulas need equal y and z components ... *)
Theorem C109_dispatch_partial pinv eig o o' r : anisotropic (t_cell o) -> t_conv_solve pinv eig o = (o', Solved r) ->
  o_grating (t_attrs o') <> Some 1%N.
Proof.
move=> ha; rewrite /t_conv_solve; case: (fto_of _) => [[fx fy]|] //; case ec: (t_convs_of _ _ _ _) => [cs|] //.
case: (o_theta _) => [th|] //; case: (period_of _) => [p|] //; case: (reqb _ _) => //.
case: (t_solve_with _ _ _ _ _ _ _) => m out [<- _] /= eg.
by have [_ /(_ erefl) [_ _]] := grating_cases eg (convs_mtype ec); rewrite (aniso_true ha).
Qed.
Print Assumptions C109_dispatch_partial.

(** ... but unequal components within the tolerance are. *)
Theorem C109_dispatch_refuted : exists o, (exists ny nx f, t_cell o = TRaster4 ny nx [:: f] /\
    forall i j, (f i j).1.1 <> (f i j).1.2 /\ (f i j).1.2 <> (f i j).2) /\
  forall pinv eig, o_grating (t_attrs (t_conv_solve pinv eig o).1) = Some 1%N.
Proof.
exists (near_ex 1); split; last by move=> pinv eig; exact: near_grating.
exists 1%N, 3%N, (fun _ _ => (RtoC 2, RtoC (2 + 1 / 10 ^ 6), RtoC 2)); split=> // i j.
by split=> /=; case; lra.
Qed.
Print Assumptions C109_dispatch_refuted.

Example C109_dispatch_ex pinv t ts : anisotropic (t_cell (aniso_ex (t :: ts))) /\
  exists o' r, t_conv_solve pinv eig_ex (aniso_ex (t :: ts)) = (o', Solved r).
Proof. by have [m [r [o' [r' [[_ _ h _] [_ _ e _]]]]]] := C108_ex pinv t ts; split=> //; exists o', r'. Qed.

(** ** C110: a solve depends on the settings only, and keyword arguments are assignments *)
Theorem C110_history pinv eig h1 h2 o1 o2 : same_tsettings (t_after pinv eig h1 o1) (t_after pinv eig h2 o2) ->
  (t_conv_solve pinv eig (t_after pinv eig h1 o1)).2 = (t_conv_solve pinv eig (t_after pinv eig h2 o2)).2.
Proof. by move=> h; have [] := t_same_solve pinv eig h. Qed.
Print Assumptions C110_history.

(** Earlier solves can be left out of any history. *)
Theorem C110_earlier_solves pinv eig h o :
  (t_conv_solve pinv eig (t_after pinv eig h o)).2 =
  (t_conv_solve pinv eig (t_after pinv eig [seq a <- h | ~~ t_is_solve a] o)).2.
Proof. exact (@t_skip pinv eig h o). Qed.
Print Assumptions C110_earlier_solves.

Theorem C110_keywords pinv eig kw o : (forall r, List.In r (t_run pinv eig kw o).2 -> r <> Raised) ->
  t_conv_solve_kw pinv eig kw o = t_conv_solve pinv eig (t_run pinv eig kw o).1.
Proof. exact (@t_kw pinv eig kw o). Qed.
Print Assumptions C110_keywords.

(** Solving, changing the wavelength, solving, and changing it back. *)
Example C110_ex pinv : let o := iso_ex 0 [:: 1%coqR] in
  let h := [:: TOp ConvSolve; TOp (SetWavelength 3%coqR); TOp ConvSolve; TOp (SetWavelength 1%coqR)] in
  same_tsettings (t_after pinv eig_ex h o) o /\ exists r, (t_conv_solve pinv eig_ex (t_after pinv eig_ex h o)).2 = Solved r.
Proof.
move=> o h.
have hs : same_tsettings (t_after pinv eig_ex [seq a <- h | ~~ t_is_solve a] o) o by split.
have hk : same_tsettings (t_after pinv eig_ex h o) o.
  have [h1 _] := @t_skip_all pinv eig_ex h o o ltac:(by split).
  by case: h1 => k1 k2; split; [exact: k1|exact: k2].
split=> //.
have [_ [_ [o' [r' [_ [_ _ e _]]]]]] := @C106_ex pinv 0 [:: 1%coqR] (or_introl erefl).
exists r'; have -> := @C110_history pinv eig_ex h [::] o o hk.
by rewrite /t_after /=; move: e => ->.
Qed.

Example C110_kw_ex pinv : let o := iso_ex 0 [:: 1%coqR] in let kw := [:: TOp (SetThickness (VSeq [:: Some (NFloat 5)]))] in
  (forall r, List.In r (t_run pinv eig_ex kw o).2 -> r <> Raised) /\ exists r, (t_conv_solve_kw pinv eig_ex kw o).2 = Solved r.
Proof.
move=> o kw; split; first by move=> r [<-|[]].
have [_ [_ [o' [r' [_ [_ _ e _]]]]]] := @C106_ex pinv 0 [:: 5%coqR] (or_introl erefl).
exists r'; have -> : t_conv_solve_kw pinv eig_ex kw o = t_conv_solve pinv eig_ex (iso_ex 0 [:: 5%coqR]) by [].
by move: e => ->.
Qed.
