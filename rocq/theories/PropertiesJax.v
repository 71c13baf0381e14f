(** Properties of the JAX solver (C101-C104). *)
From Coq Require Import Reals ZArith Lra.
From mathcomp Require Import all_ssreflect ssralg matrix.
From Coquelicot Require Import Complex.
From Verif Require Import Cplx Mx Spec SpecSolve SpecLayer ModelTM ModelFourier ModelVec ModelField ModelState ModelTree ModelJax
  SpecState SpecJax ProofJax ProofJax2 ProofObjEx ExampleKit PropertiesFilm PropertiesFourier PropertiesState.

Set Implicit Arguments.
Unset Strict Implicit.
Unset Printing Implicit Defensive.
Local Open Scope ring_scope.
Import GRing.Theory.

(** ** C101: the results of NumPy *)
Theorem C101_same_result pinv eig broken o o' r : same_inverses pinv o ->
  conv_solve pinv eig o = (o', Solved r) -> j_conv_solve pinv eig broken o = (o', Solved r).
Proof. exact (@conv_solve_j pinv eig broken o o' r). Qed.
Print Assumptions C101_same_result.

(** What holds of every report of NumPy holds of JAX's; for example energy conservation. *)
Theorem C101_energy pinv eig broken : eigen_oracle eig -> forall o o' r, physical_obj o -> real_cell_of o ->
  o_use_pinv o = false -> (conv_solve pinv eig o).2 <> Raised ->
  j_conv_solve pinv eig broken o = (o', Solved r) -> report_all power_conserved r.
Proof.
move=> he o o' r hp hc hu hr hj.
have hs : same_inverses pinv o by constructor 1.
have hq : quiet pinv (do_op pinv eig) ConvSolve o by split.
have e := step_j broken hq; rewrite /= hj in e.
exact: (C49_energy he hp hc hu (esym e)).
Qed.
Print Assumptions C101_energy.

Lemma obj_ex_half p ts : half_plane_cell (obj_ex p ts).
Proof.
move=> ny nx layers f [_ _ <-] hf; exists 1; first exact: unit1.
have -> : f = (fun _ _ => RtoC 2).
  by elim: (size ts) hf => //= k IH [].
move=> i j _ _; rewrite mul1r expr2 -RtoC_mul.
by rewrite /Re /=; lra.
Qed.

Example C101_ex pinv broken p ts : p = 0%coqR \/ p = 1%coqR ->
  same_inverses pinv (obj_ex p ts) /\ half_plane_cell (obj_ex p ts) /\
  exists o' r, conv_solve pinv eig_ex (obj_ex p ts) = (o', Solved r) /\
               j_conv_solve pinv eig_ex broken (obj_ex p ts) = (o', Solved r).
Proof.
move=> hp; have hs : same_inverses pinv (obj_ex p ts) by constructor 1.
split=> //; split; first exact: obj_ex_half.
have [o' [r [T1 [infos [e _ _]]]]] := obj_ex_solves pinv ts hp.
by do 2 eexists; split; [exact: e | exact: (C101_same_result broken hs e)].
Qed.

(** ** C102: construction and histories *)
Theorem C102_construct a o : construct a = Some o -> construct_jax a = Some o.
Proof. exact (@construct_j a o). Qed.
Print Assumptions C102_construct.

Theorem C102_history pinv eig broken h o : along (do_op pinv eig) (quiet pinv (do_op pinv eig)) h o ->
  run (j_do_op pinv eig broken) h o = run (do_op pinv eig) h o.
Proof. exact (@run_j pinv eig broken h o). Qed.
Print Assumptions C102_history.

(** Build, rotate the polarisation, solve and look at the field. *)
Example C102_ex pinv ts : exists o, construct (args_ex (NFloat 1) ts) = Some o /\
  along (do_op pinv eig_ex) (quiet pinv (do_op pinv eig_ex))
    [:: SetPol (VNum (NFloat 0)); ConvSolve; CalcField 5 5 5 (true, false, false)] o.
Proof.
exists (obj_ex 1 ts); split; first by apply: obj_exE; lra.
have e : do_op pinv eig_ex (SetPol (VNum (NFloat 0))) (obj_ex 1 ts) = (obj_ex 0 ts, Done).
  rewrite /= /assign_pol /=.
  have -> // : in_unit (RtoC 0) = true.
  rewrite /in_unit /cle /rltb /reqb /rleb /Re /Im /=.
  case: (Rlt_dec 0 0) => h1 /=; first lra.
  case: (Req_EM_T 0 0) => h2 //=; case: (Rle_dec 0 0) => h3 //=; last lra.
  by case: (Rlt_dec 0 1) => h4 //=; lra.
have [o' [r [T1 [infos [es em _]]]]] := obj_ex_solves pinv ts (or_introl erefl).
have es' : do_op pinv eig_ex ConvSolve (obj_ex 0 ts) = (o', Solved (Report (Some r) None None)) := es.
rewrite /along e /= es /=; split; first by split=> //; rewrite e.
split; first by split; [rewrite es' | by move=> _; constructor 1].
split=> //; split=> //=.
have [f ef] := @field_after_solve pinv eig_ex (obj_ex 0 ts) o' _ 5 5 5 (true, false, false) erefl es.
by rewrite ef.
Qed.

(** ** C103: more thicknesses than layers *)

(** NumPy raises (C31_too_many_thicknesses); JAX reads the last layer again and returns. *)
Definition one_layer (o : obj) : obj := keep_layers 1 o.
Theorem C103_too_many_refuted : exists o ts, [/\ o_thickness o = A1 ts, o_algo o = TMM, layer_count o = 1%N, size ts = 2%N &
  forall pinv broken, (conv_solve pinv eig_ex o).2 = Raised /\ exists r, (j_conv_solve pinv eig_ex broken o).2 = Solved r].
Proof.
pose ts := [:: 1; 1]%coqR; exists (one_layer (obj_ex 0 ts)), ts; split=> // pinv broken; split.
  exact: (@C31_too_many_thicknesses pinv eig_ex _ ts).
have [o' [r [T1 [infos [e _ _]]]]] := obj_ex_solves pinv ts (or_introl erefl).
have [h _] := @conv_solve_pad pinv eig_ex broken (one_layer (obj_ex 0 ts)) ts erefl.
exists (Report (Some r) None None); rewrite -h.
have -> : pad_layers (size ts) (one_layer (obj_ex 0 ts)) = obj_ex 0 ts by [].
by rewrite (@C101_same_result pinv eig_ex broken _ _ _ _ e) //; constructor 1.
Qed.
Print Assumptions C103_too_many_refuted.

(** What it returns: the result of the cell whose last layer is repeated.  Missing: the mistake is not reported. *)
Theorem C103_repeats_last_partial pinv eig broken o ts : o_thickness o = A1 ts ->
  (j_conv_solve pinv eig broken (pad_layers (size ts) o)).2 = (j_conv_solve pinv eig broken o).2 /\
  o_memo (j_conv_solve pinv eig broken (pad_layers (size ts) o)).1 = o_memo (j_conv_solve pinv eig broken o).1.
Proof. exact (@conv_solve_pad pinv eig broken o ts). Qed.
Print Assumptions C103_repeats_last_partial.

(** ** C104: solving and computing the field in one call *)
Theorem C104_numpy_partial pinv eig o o' r rx ry rz sel : o_algo o = TMM -> conv_solve pinv eig o = (o', Solved r) ->
  exists f, calculate_field o' rx ry rz sel = FieldOf f /\ conv_solve_field pinv eig o rx ry rz sel = (o', BBoth r f).
Proof.
move=> ha e; have [f ef] := field_after_solve rx ry rz sel ha e.
by exists f; split=> //; rewrite /conv_solve_field e ef.
Qed.
Print Assumptions C104_numpy_partial.

(** The JAX methods never return a result: the method they call does not exist. *)
Theorem C104_jax_refuted : exists o, forall pinv broken rx ry rz sel,
  (exists r f, (conv_solve_field pinv eig_ex o rx ry rz sel).2 = BBoth r f) /\
  (exists r, (j_conv_solve pinv eig_ex broken o).2 = Solved r) /\
  forall found jit, (j_conv_solve_field found jit o).2 = BRaised.
Proof.
exists (obj_ex 0 [:: 1%coqR]) => pinv broken rx ry rz sel.
have [o' [r [T1 [infos [e _ _]]]]] := obj_ex_solves pinv [:: 1%coqR] (or_introl erefl).
split; first by have [f [_ ef]] := @C104_numpy_partial pinv eig_ex (obj_ex 0 [:: 1%coqR]) _ _ rx ry rz sel erefl e; rewrite ef; do 2 eexists.
split; last by move=> found [].
by rewrite (@C101_same_result pinv eig_ex broken _ _ _ _ e); [eexists | constructor 1].
Qed.
Print Assumptions C104_jax_refuted.

(** ** C105: keyword arguments of conv_solve *)
Theorem C105_jax_partial pinv eig broken kw o : 
  (forall r, List.In r (run (j_do_op pinv eig broken) kw o).2 -> r <> Raised) ->
  j_conv_solve_kw pinv eig broken kw o = j_conv_solve pinv eig broken (run (j_do_op pinv eig broken) kw o).1.
Proof.
elim: kw o => [|a kw IH] o //= h; move: h.
case: (j_do_op pinv eig broken a o) => [o1 r]; case e: (run _ kw o1) => [o2 rs] /= h.
have -> : j_conv_solve pinv eig broken o2 = j_conv_solve_kw pinv eig broken kw o1.
  by rewrite IH e // => r' hr; apply: h; right.
by have := h r (or_introl erefl); case: r {h}.
Qed.
Print Assumptions C105_jax_partial.

(** NumPy ignores them: three thicknesses for a cell of one layer, given as a keyword, are not noticed. *)
Theorem C105_numpy_refuted : exists kw o, all is_assignment kw /\ forall pinv,
  (exists o1, run (do_op pinv eig_ex) kw o = (o1, [:: Done]) /\ (conv_solve pinv eig_ex o1).2 = Raised) /\
  (exists r, (conv_solve_kw pinv eig_ex kw o).2 = Solved r).
Proof.
exists [:: SetThickness (VSeq [:: Some (NFloat 1); Some (NFloat 1); Some (NFloat 1)])], (obj_ex 0 [:: 1%coqR]).
split=> // pinv; split.
  exists (set_thickness (A1 [:: 1; 1; 1]%coqR) (obj_ex 0 [:: 1%coqR])); split=> //.
  exact: (@C31_too_many_thicknesses pinv eig_ex _ [:: 1; 1; 1]%coqR).
have [o' [r [T1 [infos [e _ _]]]]] := obj_ex_solves pinv [:: 1%coqR] (or_introl erefl).
by exists (Report (Some r) None None); rewrite /conv_solve_kw e.
Qed.
Print Assumptions C105_numpy_refuted.
Example C105_ex pinv broken : exists kw o, all is_assignment kw /\
  (forall r, List.In r (run (j_do_op pinv eig_ex broken) kw o).2 -> r <> Raised) /\
  exists r, (j_conv_solve_kw pinv eig_ex broken kw o).2 = Solved r.
Proof.
exists [:: SetThickness (VSeq [:: Some (NFloat 5)])], (obj_ex 0 [:: 1%coqR]); split=> //; split; first by move=> r [<-|[]].
have [o' [r [T1 [infos [e _ _]]]]] := obj_ex_solves pinv [:: 5%coqR] (or_introl erefl).
exists (Report (Some r) None None).
have -> : j_conv_solve_kw pinv eig_ex broken [:: SetThickness (VSeq [:: Some (NFloat 5)])] (obj_ex 0 [:: 1%coqR]) =
  j_conv_solve pinv eig_ex broken (obj_ex 0 [:: 5%coqR]) by [].
by rewrite (@C101_same_result pinv eig_ex broken _ _ _ _ e) //; constructor 1.
Qed.
