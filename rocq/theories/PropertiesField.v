(** Properties of the fields inside the stack: the boundary-value problem the solvers solve, continuity of the reconstructed
    near field, and what calculate_field reads. *)
From Coq Require Import Reals ZArith Lra Psatz.
From mathcomp Require Import all_ssreflect ssralg matrix.
From Coquelicot Require Import Complex.
From Verif Require Import Cplx Mx Spec SpecSolve SpecFilm SpecLayer SpecField ModelTM ModelFourier ModelVec ModelField ModelState SpecState
  ProofSetup ProofState ProofEnd ProofFieldSolve ExampleKit PropertiesFilm ProofObjEx ProofFieldEx.

Set Implicit Arguments.
Unset Strict Implicit.
Unset Printing Implicit Defensive.
Local Open Scope ring_scope.
Import GRing.Theory.

(** ** C04: the 1D solver solves the truncated boundary-value problem, and its amplitudes are the only ones that do. *)
Theorem C04_boundary_value pinv eig : eigen_oracle eig -> forall s w (convs : seq (conv3 (ff_x s))) r T1 infos,
  solve_1d pinv eig false s w convs = Some (r, T1, infos) ->
  let tm := is_tm (pol s) in let kx := kx_vector s w in
  let ms := media_1d tm kx convs (thickness s) in
  let bvp Rv fs Tv :=
    boundary_value_problem (k0_of w) ms (above_1d tm (n_top s) (theta s) kx Rv) fs (below_1d tm (n_bot s) kx Tv) in
  bvp (co_R tm r) (field_profiles_1d (pol s) (k0_of w) kx T1 infos) (co_T tm r) /\
  ((forall t, List.In t (thickness s) -> (0 <= t)%coqR) ->
   forall Rv fs Tv, bvp Rv fs Tv -> Rv = co_R tm r /\ Tv = co_T tm r).
Proof. exact (@bvp_solve_1d pinv eig). Qed.
Print Assumptions C04_boundary_value.

(** A patterned grating of two layers, TE or TM. *)
Example C04_ex ps pl : pl = 0%coqR \/ pl = 1%coqR -> exists r T1 infos,
  solve_1d pinv_ex eig_ex false (s_ex None ps pl [:: 1; 2]%coqR) 1 (nseq 2 conv_ex) = Some (r, T1, infos) /\
  forall t, List.In t (thickness (s_ex None ps pl [:: 1; 2]%coqR)) -> (0 <= t)%coqR.
Proof.
move=> h; have [r [T1 [infos e]]] := solve_1d_ex pinv_ex ps [:: 1; 2]%coqR h; exists r, T1, infos; split; first exact: e.
by move=> t /= [<-|[<-|//]]; lra.
Qed.

(** ** C57: the same for the conical and the 2D solver, for each of the three reported incidences. *)
Theorem C57_boundary_value_2d pinv eig : eigen_oracle eig ->
  forall s w (convs : seq (conv3 (ff_y s * ff_x s))) r infos, physical s ->
  solve_2d pinv eig false s w convs = Some (r, infos) ->
  let kx := kx_tiled s w in let ky := ky_tiled s w in
  forall dc ds, directions (ff_y s * ff_x s) kx ky dc ds ->
  solution3_sp (k0_of w) (media_sp kx ky convs (thickness s)) (n_top s) (n_bot s) (theta s) (psi s) kx ky dc ds r
    (fun t => field_profiles_2d (k0_of w) kx ky t infos).
Proof. exact (@bvp_solve_2d pinv eig). Qed.
Print Assumptions C57_boundary_value_2d.

Theorem C57_boundary_value_conical pinv eig : eigen_oracle eig ->
  forall s w (convs : seq (conv3 (ff_y s * ff_x s))) r infos, physical s ->
  (forall c, List.In c (used s convs) -> line_convs c) ->
  solve_1d_conical pinv eig false s w convs = Some (r, infos) ->
  let kx := kx_tiled s w in let ky := ky_tiled s w in
  forall dc ds, directions (ff_y s * ff_x s) kx ky dc ds ->
  solution3_sp (k0_of w) (media_sp kx ky convs (thickness s)) (n_top s) (n_bot s) (theta s) (psi s) kx ky dc ds r
    (fun t => field_profiles_conical (k0_of w) kx ky t infos).
Proof. exact (@bvp_solve_conical pinv eig). Qed.
Print Assumptions C57_boundary_value_conical.

(** The unit vectors along the wave vectors exist and are unique. *)
Theorem C57_directions s w : physical s ->
  (exists dc ds, directions (ff_y s * ff_x s) (kx_tiled s w) (ky_tiled s w) dc ds) /\
  (forall n kx ky dc ds dc' ds', directions n kx ky dc ds -> directions n kx ky dc' ds' ->
   forall i : 'I_n, dc i = dc' i /\ ds i = ds' i).
Proof. by move=> h; split; [exact: directions_exist|exact: directions_unique]. Qed.
Print Assumptions C57_directions.

Example C57_ex (ps pl : R) : let s := s_ex0 (RtoC ps) pl [:: 1; 2]%coqR in
  exists r infos r' infos' dc ds,
  [/\ solve_2d pinv_ex eig_ex false s 1 (nseq 2 conv_ex) = Some (r, infos),
      solve_1d_conical pinv_ex eig_ex false s 1 (nseq 2 conv_ex) = Some (r', infos'),
      directions (ff_y s * ff_x s) (kx_tiled s 1) (ky_tiled s 1) dc ds,
      unique_sp (k0_of 1) (media_sp (kx_tiled s 1) (ky_tiled s 1) (nseq 2 conv_ex) [:: 1; 2]%coqR) (RtoC 3) (RtoC 1)
        (RtoC th_ex) (RtoC ps) (kx_tiled s 1) (ky_tiled s 1) dc ds (res r)
    & unique_sp (k0_of 1) (media_sp (kx_tiled s 1) (ky_tiled s 1) (nseq 2 conv_ex) [:: 1; 2]%coqR) (RtoC 3) (RtoC 1)
        (RtoC th_ex) (RtoC ps) (kx_tiled s 1) (ky_tiled s 1) dc ds (res r')].
Proof.
move=> s.
have [r [infos e]] := solve_2d_ex pinv_ex (RtoC ps) pl [:: 1; 2]%coqR.
have [r' [infos' e']] := solve_conical_ex pinv_ex (RtoC ps) pl [:: 1; 2]%coqR.
have hp : physical s by exact: physical_ex0.
have [[dc [ds hd]] _] := C57_directions 1 hp; exists r, infos, r', infos', dc, ds.
have hm : forall a, List.In a (media_sp (kx_tiled s 1) (ky_tiled s 1) (nseq 2 conv_ex) [:: 1; 2]%coqR) -> (0 <= m_d a)%coqR.
  by move=> a /= [<-|[<-|//]] /=; lra.
split=> //.
- have [h _ _] := C57_boundary_value_2d eig_ex_ok hp e hd; exact: (proj2 h hm).
have hl c : List.In c (used s (nseq 2 conv_ex)) -> line_convs c by move=> /used_ex ->; exact: conv_ex_line.
have [h _ _] := C57_boundary_value_conical eig_ex_ok hp hl e' hd; exact: (proj2 h hm).
Qed.

(** ** C07: the reconstructed near field is continuous. *)
Theorem C07_continuous_1d pinv eig s w (convs : seq (conv3 (ff_x s))) r T1 infos :
  solve_1d pinv eig false s w convs = Some (r, T1, infos) ->
  let tm := is_tm (pol s) in let kx := kx_vector s w in
  through (thickness s) (above_1d tm (n_top s) (theta s) kx (co_R tm r))
    (field_profiles_1d (pol s) (k0_of w) kx T1 infos) (below_1d tm (n_bot s) kx (co_T tm r)).
Proof. exact (@flow_solve_1d pinv eig s w convs r T1 infos). Qed.
Print Assumptions C07_continuous_1d.

Theorem C07_continuous_2d pinv eig s w (convs : seq (conv3 (ff_y s * ff_x s))) r infos : physical s ->
  solve_2d pinv eig false s w convs = Some (r, infos) ->
  let kx := kx_tiled s w in let ky := ky_tiled s w in
  forall dc ds, directions (ff_y s * ff_x s) kx ky dc ds ->
  flow3_sp (thickness s) (n_top s) (n_bot s) (theta s) (psi s) kx ky dc ds r
    (fun t => field_profiles_2d (k0_of w) kx ky t infos).
Proof. exact (@flow_solve_2d pinv eig s w convs r infos). Qed.
Print Assumptions C07_continuous_2d.

Theorem C07_continuous_conical pinv eig s w (convs : seq (conv3 (ff_y s * ff_x s))) r infos : physical s ->
  solve_1d_conical pinv eig false s w convs = Some (r, infos) ->
  let kx := kx_tiled s w in let ky := ky_tiled s w in
  forall dc ds, directions (ff_y s * ff_x s) kx ky dc ds ->
  flow3_sp (thickness s) (n_top s) (n_bot s) (theta s) (psi s) kx ky dc ds r
    (fun t => field_profiles_conical (k0_of w) kx ky t infos).
Proof. exact (@flow_solve_conical pinv eig s w convs r infos). Qed.
Print Assumptions C07_continuous_conical.

(** In the returned arrays: the last sample of a layer and the first of the next agree in the tangential components. *)
Theorem C07_array_1d pinv eig s w (convs : seq (conv3 (ff_x s))) r T1 infos px p res_x res_z : (1 < res_z)%N ->
  solve_1d pinv eig false s w convs = Some (r, T1, infos) ->
  stitched_1d res_z (field_1d w (kx_vector s w) T1 infos px p res_x res_z).
Proof. exact (@stitch_1d pinv eig s w convs r T1 infos px p res_x res_z). Qed.
Print Assumptions C07_array_1d.

Theorem C07_array_2d pinv eig s w (convs : seq (conv3 (ff_y s * ff_x s))) r infos T1 px py rx ry res_z :
  physical s -> (1 < res_z)%N ->
  solve_2d pinv eig false s w convs = Some (r, infos) -> List.In T1 [:: T1_res r; T1_te r; T1_tm r] ->
  stitched_sp res_z (field_2d w (kx_tiled s w) (ky_tiled s w) T1 infos px py rx ry res_z).
Proof. exact (@stitch_solve_2d pinv eig s w convs r infos T1 px py rx ry res_z). Qed.
Print Assumptions C07_array_2d.

Theorem C07_array_conical pinv eig s w (convs : seq (conv3 (ff_y s * ff_x s))) r infos T1 px py rx ry res_z :
  physical s -> (1 < res_z)%N ->
  solve_1d_conical pinv eig false s w convs = Some (r, infos) -> List.In T1 [:: T1_res r; T1_te r; T1_tm r] ->
  stitched_sp res_z (field_conical w (kx_tiled s w) (ky_tiled s w) T1 infos px py rx ry res_z).
Proof. exact (@stitch_solve_conical pinv eig s w convs r infos T1 px py rx ry res_z). Qed.
Print Assumptions C07_array_conical.

Example C07_ex (ps pl : R) ts : pl = 0%coqR \/ pl = 1%coqR -> exists r T1 infos r2 infos2 r3 infos3,
  [/\ solve_1d pinv_ex eig_ex false (s_ex None ps pl ts) 1 (nseq (size ts) conv_ex) = Some (r, T1, infos),
      solve_2d pinv_ex eig_ex false (s_ex0 ps pl ts) 1 (nseq (size ts) conv_ex) = Some (r2, infos2),
      solve_1d_conical pinv_ex eig_ex false (s_ex0 ps pl ts) 1 (nseq (size ts) conv_ex) = Some (r3, infos3),
      physical (s_ex0 ps pl ts) & stitched_1d 5 (field_1d 1 (kx_vector (s_ex None ps pl ts) 1) T1 infos 2 pl 7 5)].
Proof.
move=> h; have [r [T1 [infos e]]] := solve_1d_ex pinv_ex ps ts h.
have [r2 [infos2 e2]] := solve_2d_ex pinv_ex (RtoC ps) pl ts.
have [r3 [infos3 e3]] := solve_conical_ex pinv_ex (RtoC ps) pl ts.
exists r, T1, infos, r2, infos2, r3, infos3; split=> //; first exact: physical_ex0.
exact (C07_array_1d (px := 2) (p := pl) (res_x := 7) (res_z := 5) erefl e).
Qed.

(** ** C29: settings changed between conv_solve and calculate_field. *)

(** FALSE of the code.  Solve in TE; assign pol = 1; the field returned for the solved structure changes sign in Hx. *)
Theorem C29_refuted pinv : exists a o o1 h rx ry rz sel,
  [/\ construct a = Some o, o1 = after pinv eig_ex [:: SetIndices (RtoC 2) (RtoC 2); ConvSolve] o,
      all (fun x => ~~ is_solve x) h &
      calculate_field (after pinv eig_ex h o1) rx ry rz sel <> calculate_field o1 rx ry rz sel].
Proof.
exists (args_ex (NFloat 0) [:: 1%coqR]), (obj_ex 0 [:: 1%coqR]).
exists (after pinv eig_ex [:: SetIndices (RtoC 2) (RtoC 2); ConvSolve] (obj_ex 0 [:: 1%coqR])).
exists [:: SetPol (VNum (NInt 1))], 1%N, 1%N, 1%N, (true, true, true).
split=> //; first by apply: obj_exE; lra.
have [h0 h1] := obj2_field pinv [::] 1.
set o1 := after pinv eig_ex [:: SetIndices _ _; ConvSolve] _.
have -> : after pinv eig_ex [:: SetPol (VNum (NInt 1))] o1 = set_polar (psi_of 1) 1 o1.
  rewrite /after /= /assign_pol /pol_accepts /=.
  have -> : in_unit (RtoC 1) = true; last by [].
  rewrite /in_unit /cle /rltb /reqb /rleb /=.
  have -> // : (Rlt_dec 0 1 : bool) = true by case: Rlt_dec => // h; lra.
  by case: (Req_EM_T 1 1) => // _ /=; case: (Rle_dec 0 0) => //= h; case: (Rlt_dec _ _) => //; lra.
move=> /(congr1 hx_at).
have -> : hx_at (calculate_field (set_polar (psi_of 1) 1 o1) 1 1 1 (true, true, true)) = - RtoC (2 * cos th_ex) := h1.
have -> : hx_at (calculate_field o1 1 1 1 (true, true, true)) = RtoC (2 * cos th_ex) := h0.
move=> [] /=; have := th_ex_bound => hb; have : (0 < cos th_ex)%coqR by apply: cos_gt_0; lra.
by lra.
Qed.
Print Assumptions C29_refuted.

(** ** C58: the field depends on the last solve and on the settings listed in [same_field_settings] only. *)
Theorem C58_field_inputs pinv eig h o rx ry rz sel : all (fun a => ~~ is_solve a) h ->
  same_field_settings o (after pinv eig h o) ->
  calculate_field (after pinv eig h o) rx ry rz sel = calculate_field o rx ry rz sel.
Proof. by move=> hh hs; exact: field_inputs hs (after_keeps _ _ _ hh). Qed.
Print Assumptions C58_field_inputs.

(** Changing the cell, the thickness, the substrate and the options, and even the polarisation and back, is harmless. *)
Example C58_ex pinv ts : exists o' r,
  conv_solve pinv eig_ex (obj_ex 0 ts) = (o', Solved r) /\
  let h := [:: SetThickness (VSeq [::]); SetUcell (VInstr [::]); SetIndices (RtoC 3) (RtoC 9);
               SetPsi (VNum (NFloat (PI / 4))); SetPol (VNum (NInt 0))] in
  all (fun a => ~~ is_solve a) h /\ same_field_settings o' (after pinv eig_ex h o').
Proof.
have [o' [r [T1 [infos [e em _]]]]] := obj_ex_solves pinv ts (or_introl erefl).
do 2 eexists; split; first exact: e; split=> //.
have [g [m eo]] := solve_frame pinv eig_ex (obj_ex 0 ts); rewrite e /= in eo; rewrite eo.
have hu : in_unit (RtoC (IZR 0)) = true.
  rewrite /in_unit /cle /rltb /reqb /rleb /=.
  case: (Rlt_dec 0 1) => [h1|h1]; last lra.
  case: (Req_EM_T 0 0) => [h2|]; last by [].
  case: (Rle_dec 0 0) => [h3|h3]; last lra.
  by rewrite orbT.
by rewrite /after /= /assign_pol /pol_accepts /= hu.
Qed.
