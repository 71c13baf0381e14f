(** Properties of the JAX solver object as a pytree. *)
From Coq Require Import Reals ZArith Lra Psatz.
From mathcomp Require Import all_ssreflect ssralg matrix.
From Coquelicot Require Import Complex.
From Verif Require Import Cplx Mx ModelTM ModelFourier ModelVec ModelState ModelTree SpecState SpecTree ProofState ProofTree.

Set Implicit Arguments.
Unset Strict Implicit.
Unset Printing Implicit Defensive.
Local Open Scope ring_scope.
Import GRing.Theory.

(** ** C80: the round trip, for every object that can be reached *)
Theorem C80_round_trip a o h : construct_jax a = Some o -> no_psi_list h ->
  let o1 := after_jax h o in
  accepted o1 -> pol_near_unit o1 -> theta_settled o1 -> o_use_pinv o1 = false ->
  exists2 o2, tree_unflatten (tree_flatten o1) = Some o2 & same_settings o1 o2.
Proof. by move=> e nh; exact: round_trip (after_inv nh (construct_jax_inv e)). Qed.
Print Assumptions C80_round_trip.

(** The conditions on pol and on [use_pinv] are necessary: outside the tolerance the rebuild raises, and the flag is always lost. *)
Theorem C80_out_of_range o (r : R) : o_pol o = RtoC r -> (r <= - / 10 ^ 6 \/ 1 + / 10 ^ 6 <= r)%coqR ->
  tree_unflatten (tree_flatten o) = None.
Proof. exact (@out_of_range o r). Qed.
Print Assumptions C80_out_of_range.
Theorem C80_flag_lost o o' : tree_unflatten (tree_flatten o) = Some o' -> o_use_pinv o' = false.
Proof. exact (@use_pinv_lost o o'). Qed.
Print Assumptions C80_flag_lost.

(** A concrete object: two layers, oblique incidence, pol = 1/4. *)
Definition args_tree (up : bool) : ctor_args :=
  CtorArgs (RtoC 2) (RtoC 3) (VNum (NFloat (1 / 5))) VNone VNone (VNum (NFloat (1 / 4))) (VSeq [:: Some (NFloat 7)]) 5
    (VArr3 DCplx 1 2 [:: (fun _ i => RtoC (INR i + 1)); (fun _ _ => RtoC 4)]) (VSeq [:: Some (NFloat 1); Some (NInt 2)])
    (VNum (NInt 3)) TMM (RtoC (/ 10 ^ 20)) (VType true) 1 false up.
Lemma unit14 r : (0 <= r <= 1)%coqR -> clamp_pol (RtoC r) = RtoC r /\ in_unit (RtoC r).
Proof.
move=> h; have := room_gt0; rewrite clamp_real in_unit_real; move: room => d d0.
have -> : rltb 1 r && rltb r (1 + d) = false by rb.
have -> : rltb (0 - d) r && rltb r 0 = false by rb.
by split=> //; rb.
Qed.
Definition obj_tree (up : bool) : obj :=
  Obj true (RtoC (/ 10 ^ 20)) (RtoC 2) (RtoC 3) (Some (RtoC (1 / 5))) None (psi_of (RtoC (1 / 4))) (RtoC (1 / 4)) (Fto 3 0)
    (A1 [:: 7%coqR; 7%coqR]) 5 (A1 [:: 1%coqR; 2%coqR]) TMM up
    (CRaster 1 2 [:: (fun _ i => RtoC (INR i + 1)); (fun _ _ => RtoC 4)]) (Some false) 1 false None MNone.
Lemma obj_treeE up : construct_jax (args_tree up) = Some (obj_tree up).
Proof.
rewrite /construct_jax /args_tree /=; have [|-> ->] := @unit14 (1 / 4); first lra.
rewrite /=; have -> : (RtoC (1 / 5) == 0) = false by apply/eqP => /(congr1 fst) e; change (1 / 5 = 0)%coqR in e; lra.
by [].
Qed.
Example C80_ex : exists a o h, [/\ construct_jax a = Some o, no_psi_list h, accepted (after_jax h o), pol_near_unit (after_jax h o) &
  theta_settled (after_jax h o) /\ o_use_pinv (after_jax h o) = false].
Proof.
exists (args_tree false), (obj_tree false), [:: JPsi (VArr0 (NFloat (PI / 2))); JFto (VSeq [:: Some (NInt 4); Some (NInt 1)]); JPol (VNum (NCplx 0))].
have hp : (RtoC 2 * RtoC (PI / 2)) / RtoC PI = 1.
  have pn : RtoC PI != 0 by apply/eqP => -[]; have := PI_RGT_0; lra.
  have e : (2 * (PI / 2) = PI)%coqR by field.
  by rewrite -RtoC_mul e mulfV.
split; [exact: obj_treeE | by move=> x [|[|[|[]]]] | by split; [do 2 eexists|] | | split=> //].
- exists 0%coqR; last by have := room_gt0; rewrite /room; lra.
  by rewrite /= /pol_of hp; cring.
- by move=> /= -[e]; exfalso; lra.
Qed.

(** ** C42: two settings do not survive *)
Theorem C42_use_pinv_refuted : exists a o, construct_jax a = Some o /\
  forall o', tree_unflatten (tree_flatten o) = Some o' -> ~ same_settings o o'.
Proof.
exists (args_tree true), (obj_tree true); split; first exact: obj_treeE.
by move=> o' /use_pinv_lost e [_ _ _ _ [_]]; rewrite e.
Qed.
Print Assumptions C42_use_pinv_refuted.
(** and the rebuild of that object does happen *)
Example C42_use_pinv_ex : exists o', tree_unflatten (tree_flatten (obj_tree true)) = Some o'.
Proof.
have -> : tree_unflatten (tree_flatten (obj_tree true)) = tree_unflatten (tree_flatten (obj_tree false)) by [].
case: (@round_trip (obj_tree false)) => [||||//|o' e _]; last by exists o'.
- exact: construct_jax_inv (obj_treeE false).
- by split; [do 2 eexists|].
- by exists (1 / 4)%coqR => //; have := room_gt0; rewrite /room; lra.
- by move=> /= -[e]; exfalso; lra.
Qed.

(** psi is accepted without a check, but its pol is checked when the object is rebuilt: psi = pi. *)
Theorem C42_psi_refuted : exists a o v o1, [/\ construct_jax a = Some o, assign_psi v o = (o1, false), o_use_pinv o1 = false &
  tree_unflatten (tree_flatten o1) = None].
Proof.
have pn : RtoC PI != 0 by apply/eqP => -[]; have := PI_RGT_0; lra.
exists (args_tree false), (obj_tree false), (VNum (NFloat PI)); eexists; split; [exact: obj_treeE | reflexivity | by [] |].
have h : (/ 10 ^ 6 <= 1)%coqR by (rewrite -Rinv_1; apply: Rinv_le_contravar; [lra | rewrite /=; lra]).
apply: (@out_of_range _ (-1)%coqR); last by left; move: (Rinv _) h => d h; lra.
by rewrite /= /pol_of mulfK //; cext; rewrite /=; ring.
Qed.
Print Assumptions C42_psi_refuted.

(** theta = 0 chosen with perturbation 0 is replaced when the perturbation has been changed before the object is rebuilt. *)
Theorem C42_theta_refuted : exists a o o1 o2, [/\ construct_jax a = Some o, o1 = after_jax [:: JPerturbation 0; JTheta (VNum (NInt 0)); JPerturbation (RtoC (/ 10 ^ 20))] o,
  tree_unflatten (tree_flatten o1) = Some o2, o_theta o1 = Some 0 & o_theta o2 <> o_theta o1].
Proof.
exists (args_tree false), (obj_tree false); eexists; eexists; split; [exact: obj_treeE | reflexivity | | |].
- rewrite /tree_unflatten /tree_flatten /construct_jax /=; rewrite eqxx /= eqxx /=.
  have [|-> ->] := @unit14 (1 / 4); first lra.
  by rewrite /=.
- by rewrite /= eqxx.
rewrite /= eqxx => -[e]; have : (0 < / 10 ^ 20)%coqR by apply: Rinv_0_lt_compat; apply: pow_lt; lra.
by rewrite e; lra.
Qed.
Print Assumptions C42_theta_refuted.
