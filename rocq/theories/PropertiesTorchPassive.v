(** C112: absorbing cells in the PyTorch and JAX solver objects. *)
From Coq Require Import Reals ZArith Lra.
From mathcomp Require Import all_ssreflect ssralg matrix.
From Coquelicot Require Import Complex.
From Verif Require Import Cplx Mx Spec SpecSolve SpecPassive SpecAbsorb SpecState SpecTorchObj SpecTorchPassive SpecJax
  ModelTM ModelState ModelTorchObj ModelJax ProofPassive3 ProofInvert ProofTorchObj ProofTorchPassive ProofTorchPassEx ProofTorchObjEx ProofObjEx
  ProofAbsorb5 ExampleKit ProofJax ProofJax2 PropertiesPassive PropertiesJax.

Set Implicit Arguments.
Unset Strict Implicit.
Unset Printing Implicit Defensive.
Local Open Scope ring_scope.
Import GRing.Theory.

(** No pixel of any layer has gain, in any of its three components.  Whenever the solver returns, the reported efficiencies
    add up to at most one and each lies in [0, 1] - also when an inverse falls back to the pseudo-inverse. *)
Theorem C112_passive pinv eig o m r (b : R) : eigen_oracle eig -> moore_penrose pinv -> let a := t_attrs o in
  physical_obj a -> o_nbot a = RtoC b -> (0 < b)%coqR ->
  cell_all passive_index (t_cell o) -> t_general_position o -> (t_rows (t_cell o) = 1%N -> half_plane_tcell (t_cell o)) ->
  isotropic (t_cell o) \/ anisotropic (t_cell o) -> (0 < o_wavelength a)%coqR -> thick_obj a -> o_use_pinv a = false ->
  plain_run pinv eig o m r -> no_flat_memo m ->
  exists o' r', [/\ t_conv_solve pinv eig o = (o', Solved r'), report_all power_bounded r' & report_all eff_in_unit r'].
Proof. exact (@t_passive_obj pinv eig o m r b). Qed.
Print Assumptions C112_passive.

(** JAX's object. *)
Theorem C112_jax pinv eig broken : eigen_oracle eig -> forall o o' r (b : R), physical_obj o -> passive_cell_of o ->
  (0 < o_wavelength o)%coqR -> thick_obj o -> o_use_pinv o = false -> o_nbot o = RtoC b -> (0 < b)%coqR ->
  (conv_solve pinv eig o).2 <> Raised ->
  j_conv_solve pinv eig broken o = (o', Solved r) -> report_all power_bounded r /\ report_all eff_in_unit r.
Proof.
move=> he o o' r b hp hc hw ht hu hb b0 hr hj.
have hs : same_inverses pinv o by constructor 1.
have hq : quiet pinv (do_op pinv eig) ConvSolve o by split.
have e := step_j broken hq; rewrite /= hj in e.
split; first exact: (C86_passive_object he hp hc hw ht hu (esym e)).
exact: (C86_unit_interval he hp hc hw ht hu hb b0 (esym e)).
Qed.
Print Assumptions C112_jax.

(** Films with the components 3 - i, 2 - i and 5 - i, and the Moore-Penrose inverse. *)
Example C112_ex t ts : (forall x, List.In x (t :: ts) -> (0 < x)%coqR) -> let o := dark_ex (t :: ts) in
  exists m r o' r', [/\ moore_penrose mp_ex, physical_obj (t_attrs o), cell_all passive_index (t_cell o), anisotropic (t_cell o) &
    half_plane_tcell (t_cell o)] /\
  [/\ plain_run mp_ex eig_ex o m r, no_flat_memo m, t_conv_solve mp_ex eig_ex o = (o', Solved r'), report_all power_bounded r'
    & report_all eff_in_unit r'].
Proof.
move=> hpos o; have [m [r [e hf]]] := dark_plain mp_ex hpos.
have inE f : List.In f (nseq (size (t :: ts)) (fun _ _ : nat => (nab 3, nab 2, nab 5))) -> f = fun _ _ => (nab 3, nab 2, nab 5).
  by elim: (size _) => //= k IH [<-|/IH].
have pas x : (0 < x)%coqR -> passive_index (nab x) by move=> /nab_absorbs; rewrite /absorbing_index /passive_index; lra.
have h1 : physical_obj (t_attrs o) by exact: obj_ex_phys.
have h2 : cell_all passive_index (t_cell o) by move=> f /inE -> i j _ _; split; apply: pas; lra.
have h3 : anisotropic (t_cell o).
  exists 1%N, 3%N, (nseq (size (t :: ts)) (fun _ _ => (nab 3, nab 2, nab 5))), (fun _ _ => (nab 3, nab 2, nab 5)), 0%N, 0%N.
  split=> //; [by left|left; rewrite /far /=].
  have -> : nab 3 - nab 2 = RtoC 1 by rewrite /nab; cext.
  have h : (Cmod (nab 2) <= 3)%coqR.
    have := Cmod_triangle (RtoC 2) (- ci); rewrite Cmod_opp Cmod_R Rabs_pos_eq; last lra.
    have -> : Cmod ci = 1%coqR by rewrite /Cmod /ci /= -[RHS]sqrt_1; congr sqrt; ring.
    by rewrite /nab => h; apply: Rle_trans h _; lra.
  by rewrite Cmod_R Rabs_pos_eq; lra.
have h4 : half_plane_tcell (t_cell o).
  have hp (x : R) : (0 < x)%coqR -> half_plane_of 1 3 (fun _ _ => nab x).
    move=> hx; exists ci; first exact: nrm2_ci.
    by move=> i j _ _; apply: absorbing_px; exact: nab_absorbs.
  by move=> f /inE ->; split; apply: hp; lra.
have p2 : (0 < 2)%coqR by lra.
have p1 : (0 < 1)%coqR by lra.
have ht : thick_obj (t_attrs o) by move=> us u [<-] /hpos; lra.
have [o' [r' [e' k1 k2]]] := @C112_passive mp_ex eig_ex o m r 2 eig_ex_ok mp_ex_ok h1 erefl p2 h2 I (fun _ => h4) (or_intror h3) p1 ht erefl e hf.
by exists m, r, o', r'; split; split=> //; exact: mp_ex_ok.
Qed.
