(** C123: an assigned unit cell is used or refused. *)
From Coq Require Import Reals Lra.
From mathcomp Require Import all_ssreflect ssralg matrix.
From Coquelicot Require Import Complex.
From Verif Require Import Cplx ModelTM ModelState ModelTree ModelJax ModelTorchObj ExampleKit ProofObjEx PropertiesState PropertiesJax.

Set Implicit Arguments.
Unset Strict Implicit.
Unset Printing Implicit Defensive.
Local Open Scope ring_scope.

(** NumPy: the pattern is stored, or an exception is raised and the old pattern stays. *)
Theorem C123_numpy pinv eig d ny nx ls o o' out : do_op pinv eig (SetUcell (VArr3 d ny nx ls)) o = (o', out) ->
  (out = Done /\ o_cell o' = CRaster ny nx ls) \/ (out = Raised /\ o_cell o' = o_cell o).
Proof. by case: d => /= -[<- <-]; [left|left|right]. Qed.
Print Assumptions C123_numpy.

(** PyTorch: likewise. *)
Theorem C123_torch d ny nx ls o o' raised : t_assign_ucell (TV (VArr3 d ny nx ls)) o = (o', raised) ->
  (raised = false /\ t_cell o' = TRaster3 ny nx ls) \/ (raised = true /\ t_cell o' = t_cell o).
Proof. by case: d => /= -[<- <-]; [left|left|right]. Qed.
Print Assumptions C123_torch.

(** JAX: arrays of the listed types are stored; of any other type (bool, uint8, float16, ...) they are passed over without an
    exception, and the object, if it held a raster pattern, is what it was. *)
Theorem C123_jax pinv eig broken d ny nx ls o o' out : j_do_op pinv eig broken (SetUcell (VArr3 d ny nx ls)) o = (o', out) ->
  out = Done /\ (if d is DOther then o_cell o' = o_cell o /\ (o_mtype o = Some false -> o' = o) else o_cell o' = CRaster ny nx ls).
Proof.
case: d => /= -[<- <-]; split=> //; split=> //.
by rewrite /set_cell => h; rewrite -h; case: o {h}.
Qed.
Print Assumptions C123_jax.

(** So the next solve reports the old structure. *)
Theorem C123_jax_refuted : exists o ny nx ls, o_cell o <> CRaster ny nx ls /\ forall pinv broken,
  [/\ (do_op pinv eig_ex (SetUcell (VArr3 DOther ny nx ls)) o).2 = Raised,
      j_do_op pinv eig_ex broken (SetUcell (VArr3 DOther ny nx ls)) o = (o, Done)
    & exists o' r, j_do_op pinv eig_ex broken ConvSolve o = (o', Solved r)].
Proof.
exists (obj_ex 0 [:: 1%coqR]), 1%N, 1%N, [::]; split=> // pinv broken; split=> //.
by have [_ [_ [o' [r [_ e]]]]] := C101_ex pinv broken [:: 1%coqR] (or_introl erefl); exists o', r.
Qed.
Print Assumptions C123_jax_refuted.

(** If the object held vector instructions, they stay but are taken for a raster: every later solve raises. *)
Theorem C123_jax_vector pinv eig broken ny nx ls o o' ins : o_cell o = CVector ins ->
  j_do_op pinv eig broken (SetUcell (VArr3 DOther ny nx ls)) o = (o', Done) ->
  o_cell o' = CVector ins /\ (j_do_op pinv eig broken ConvSolve o').2 = Raised.
Proof.
move=> hc /= -[<-]; split=> //.
have -> : j_conv_solve pinv eig broken (set_cell (o_cell o) (Some false) o) = (set_cell (o_cell o) (Some false) o, Raised) => //.
rewrite /j_conv_solve; case: (fto_of _) => [[fx fy]|] //.
have -> // : j_convs_of pinv broken (set_cell (o_cell o) (Some false) o) fx fy = None by rewrite /j_convs_of /= hc.
Qed.
Print Assumptions C123_jax_vector.

Example C123_jax_vector_ex pinv broken : let o := set_cell (CVector [::]) (Some true) (obj_ex 0 [::]) in exists o',
  j_do_op pinv eig_ex broken (SetUcell (VArr3 DOther 1 1 [::])) o = (o', Done) /\ (j_do_op pinv eig_ex broken ConvSolve o').2 = Raised.
Proof.
move=> o; eexists; split; first reflexivity.
by have [] := @C123_jax_vector pinv eig_ex broken 1 1 [::] o _ [::] erefl erefl.
Qed.

(** The three backends given an array of floats, then one of booleans. *)
Example C123_ex pinv eig broken ls : let o := obj_ex 0 [::] in
  [/\ o_cell (do_op pinv eig (SetUcell (VArr3 DReal 1 3 ls)) o).1 = CRaster 1 3 ls,
      (do_op pinv eig (SetUcell (VArr3 DOther 1 3 ls)) o).2 = Raised,
      o_cell (j_do_op pinv eig broken (SetUcell (VArr3 DReal 1 3 ls)) o).1 = CRaster 1 3 ls
    & (j_do_op pinv eig broken (SetUcell (VArr3 DOther 1 3 ls)) o).2 = Done].
Proof. by []. Qed.
