(** The near field returned by calculate_field satisfies Maxwell's equations. *)
From Coq Require Import Reals ZArith Lra Psatz.
From mathcomp Require Import all_ssreflect ssralg matrix.
From Coquelicot Require Import Complex.
From Verif Require Import Cplx Mx Spec SpecSolve SpecFilm SpecLayer SpecField SpecMaxwell ModelTM ModelFourier ModelField
  ProofSetup ProofEnd ExampleKit PropertiesFilm ProofMaxwell.

Set Implicit Arguments.
Unset Strict Implicit.
Unset Printing Implicit Defensive.
Local Open Scope ring_scope.
Import GRing.Theory.

(** ** C59: in every layer the array holds values, on the sampling grid, of a field that satisfies both curl equations with
    the truncated permittivities of that layer; all components, with the z axis pointing up. *)
Theorem C59_maxwell_1d pinv eig : eigen_oracle eig -> forall s w (convs : seq (conv3 (ff_x s))) r T1' infos,
  solve_1d pinv eig false s w convs = Some (r, T1', infos) ->
  forall T1 px rx rz k a, List.nth_error (field_1d w (kx_vector s w) T1 infos px (pol s) rx rz) k = Some a ->
  exists c t e h,
  [/\ List.nth_error convs k = Some c, List.nth_error (thickness s) k = Some t,
      sampled_1d (is_tm (pol s)) px t rx rz a e h
    & maxwell (k0_of w) (kx_vector s w) (fun _ => 0) c t e h].
Proof. exact (@maxwell_solve_1d pinv eig). Qed.
Print Assumptions C59_maxwell_1d.

Theorem C59_maxwell_2d pinv eig : eigen_oracle eig -> forall s w (convs : seq (conv3 (ff_y s * ff_x s))) r infos,
  solve_2d pinv eig false s w convs = Some (r, infos) ->
  let kx := kx_tiled s w in let ky := ky_tiled s w in
  forall T1 px py rx ry rz k a, List.nth_error (field_2d w kx ky T1 infos px py rx ry rz) k = Some a ->
  exists c t e h,
  [/\ List.nth_error convs k = Some c, List.nth_error (thickness s) k = Some t,
      sampled px py t rx ry rz a e h & maxwell (k0_of w) kx ky c t e h].
Proof. exact (@maxwell_solve_2d pinv eig). Qed.
Print Assumptions C59_maxwell_2d.

Theorem C59_maxwell_conical pinv eig : eigen_oracle eig -> forall s w (convs : seq (conv3 (ff_y s * ff_x s))) r infos,
  (forall c, List.In c (used s convs) -> line_convs c) ->
  solve_1d_conical pinv eig false s w convs = Some (r, infos) ->
  let kx := kx_tiled s w in let ky := ky_tiled s w in
  forall T1 px py rx ry rz k a, List.nth_error (field_conical w kx ky T1 infos px py rx ry rz) k = Some a ->
  exists c t e h,
  [/\ List.nth_error convs k = Some c, List.nth_error (thickness s) k = Some t,
      sampled px py t rx ry rz a e h & maxwell (k0_of w) kx ky c t e h].
Proof. exact (@maxwell_solve_conical pinv eig). Qed.
Print Assumptions C59_maxwell_conical.

(** The patterned grating of two layers again: TE or TM, and conical. *)
Example C59_ex (ps pl : R) : pl = 0%coqR \/ pl = 1%coqR -> exists r T1 infos r2 infos2 r3 infos3,
  [/\ solve_1d pinv_ex eig_ex false (s_ex None ps pl [:: 1; 2]%coqR) 1 (nseq 2 conv_ex) = Some (r, T1, infos),
      exists a, List.nth_error (field_1d 1 (kx_vector (s_ex None ps pl [:: 1; 2]%coqR) 1) T1 infos 2 pl 7 5) 1 = Some a,
      solve_2d pinv_ex eig_ex false (s_ex0 ps pl [:: 1; 2]%coqR) 1 (nseq 2 conv_ex) = Some (r2, infos2),
      solve_1d_conical pinv_ex eig_ex false (s_ex0 ps pl [:: 1; 2]%coqR) 1 (nseq 2 conv_ex) = Some (r3, infos3)
    & forall c, List.In c (used (s_ex0 ps pl [:: 1; 2]%coqR) (nseq 2 conv_ex)) -> line_convs c].
Proof.
move=> h; have [r [T1 [infos e]]] := solve_1d_ex pinv_ex ps [:: 1; 2]%coqR h.
have [r2 [infos2 e2]] := solve_2d_ex pinv_ex (RtoC ps) pl [:: 1; 2]%coqR.
have [r3 [infos3 e3]] := solve_conical_ex pinv_ex (RtoC ps) pl [:: 1; 2]%coqR.
exists r, T1, infos, r2, infos2, r3, infos3; split; [exact e| |exact e2|exact e3|].
- exact (field_1d_nth T1 2 7 5 e (k := 1) erefl).
- by move=> c /used_ex ->; exact: conv_ex_line.
Qed.
