(** Properties of the public fields of the PyTorch backend, and superposition of the fields of both backends. *)
From Coq Require Import Reals ZArith Lra.
From mathcomp Require Import all_ssreflect ssralg matrix.
From Coquelicot Require Import Complex.
From Verif Require Import Cplx Mx Spec ModelTM SpecSolve SpecField SpecMaxwell SpecFull SpecTorch SpecTorchField ModelField ModelTorch ModelTorchField
  ProofEnd ProofTorch ProofTorchField ExampleKit ProofTorch3 PropertiesTorch.

Set Implicit Arguments.
Unset Strict Implicit.
Unset Printing Implicit Defensive.
Local Open Scope ring_scope.
Import GRing.Theory.

(** ** C97: PyTorch's public fields are NumPy's conjugated, with the components along y of E and those along x and z of H negated (up
    to one common sign); for the two s/p mounts NumPy's psi is minus PyTorch's. *)
Theorem C97_mirror_1d pinv eig s w (convs : seq (conv3 (ff_x s))) r T1 infos px rx rz :
  physical s -> is_real (n_bot s) -> solve_1d pinv eig false s w convs = Some (r, T1, infos) ->
  exists2 r', t_solve_1d pinv eig false s w convs = Some (r', T1, infos) &
  mirrored_arrays (if is_tm (pol s) then 1 else - 1) (t_field_1d w (t_kx_vector s w) T1 infos px (pol s) rx rz)
    [seq (fun iz (iy : nat) ix => let '(a0, a1, a2) := f iz ix in if is_tm (pol s) then [:: a1; 0; a2; 0; a0; 0] else [:: 0; a0; 0; a1; 0; a2])
    | f <- field_1d w (kx_vector s w) T1 infos px (pol s) rx rz].
Proof. exact (@torch_mirror_1d pinv eig s w convs r T1 infos px rx rz). Qed.
Print Assumptions C97_mirror_1d.

Theorem C97_mirror_2d pinv eig s w (p nt nb : R) (convs : seq (conv3 (ff_y s * ff_x s))) r infos :
  physical s -> n_top s = RtoC nt -> n_bot s = RtoC nb -> psi s = RtoC p ->
  solve_2d pinv eig false (with_psi s (RtoC (- p))) w convs = Some (r, infos) -> no_flat_mode infos ->
  exists2 r', t_solve_2d pinv eig false s w convs = Some (r', infos) &
    forall px py rx ry rz,
    let f' T1 := t_field_2d w (t_kx_tiled s w) (t_ky_tiled s w) T1 infos px py rx ry rz in
    let f T1 := field_2d w (kx_tiled s w) (ky_tiled s w) T1 infos px py rx ry rz in
    [/\ mirrored_arrays 1 (f' (T1_res r')) (f (T1_res r)), mirrored_arrays (- 1) (f' (T1_te r')) (f (T1_te r))
      & mirrored_arrays 1 (f' (T1_tm r')) (f (T1_tm r))].
Proof. exact (@torch_mirror_2d pinv eig s w p nt nb convs r infos). Qed.
Print Assumptions C97_mirror_2d.

Theorem C97_mirror_conical pinv eig s w (p nt nb : R) (convs : seq (conv3 (ff_y s * ff_x s))) r infos :
  physical s -> n_top s = RtoC nt -> n_bot s = RtoC nb -> psi s = RtoC p ->
  solve_1d_conical pinv eig false (with_psi s (RtoC (- p))) w convs = Some (r, infos) ->
  exists2 r', t_solve_1d_conical pinv eig false s w convs = Some (r', infos) &
    forall px py rx ry rz,
    let f' T1 := t_field_conical w (t_kx_tiled s w) (t_ky_tiled s w) T1 infos px py rx ry rz in
    let f T1 := field_conical w (kx_tiled s w) (ky_tiled s w) T1 infos px py rx ry rz in
    [/\ mirrored_arrays 1 (f' (T1_res r')) (f (T1_res r)), mirrored_arrays (- 1) (f' (T1_te r')) (f (T1_te r))
      & mirrored_arrays 1 (f' (T1_tm r')) (f (T1_tm r))].
Proof. exact (@torch_mirror_conical pinv eig s w p nt nb convs r infos). Qed.
Print Assumptions C97_mirror_conical.

(** ** C98: those fields sample one solution of Maxwell's equations for time dependence exp(-i w t), through the stack of the conjugated
    permittivities, continuous with the incident wave and the waves of the reported amplitudes. *)
Theorem C98_maxwell_1d pinv eig : eigen_oracle eig ->
  forall s w (nb : R) (convs : seq (conv3 (ff_x s))) r T1 infos,
  physical s -> n_bot s = RtoC nb -> nb <> 0%coqR ->
  solve_1d pinv eig false s w convs = Some (r, T1, infos) ->
  exists2 r', t_solve_1d pinv eig false s w convs = Some (r', T1, infos) &
    torch_maxwell_1d w convs r' (fun px => t_field_1d w (t_kx_vector s w) T1 infos px (pol s)).
Proof. exact (@torch_fields_1d pinv eig). Qed.
Print Assumptions C98_maxwell_1d.

Theorem C98_maxwell_2d pinv eig : eigen_oracle eig ->
  forall s w (p nt nb : R) (convs : seq (conv3 (ff_y s * ff_x s))) r infos,
  physical s -> n_top s = RtoC nt -> n_bot s = RtoC nb -> psi s = RtoC p -> nb <> 0%coqR ->
  solve_2d pinv eig false (with_psi s (RtoC (- p))) w convs = Some (r, infos) -> no_flat_mode infos ->
  exists2 r', t_solve_2d pinv eig false s w convs = Some (r', infos) &
    torch_maxwell w convs r' (fun T1 => t_field_2d w (t_kx_tiled s w) (t_ky_tiled s w) T1 infos).
Proof. exact (@torch_fields_2d pinv eig). Qed.
Print Assumptions C98_maxwell_2d.

Theorem C98_maxwell_conical pinv eig : eigen_oracle eig ->
  forall s w (p nt nb : R) (convs : seq (conv3 (ff_y s * ff_x s))) r infos,
  physical s -> n_top s = RtoC nt -> n_bot s = RtoC nb -> psi s = RtoC p -> nb <> 0%coqR ->
  (forall c, List.In c (used s convs) -> line_convs c) ->
  solve_1d_conical pinv eig false (with_psi s (RtoC (- p))) w convs = Some (r, infos) ->
  exists2 r', t_solve_1d_conical pinv eig false s w convs = Some (r', infos) &
    torch_maxwell w convs r' (fun T1 => t_field_conical w (t_kx_tiled s w) (t_ky_tiled s w) T1 infos).
Proof. exact (@torch_fields_conical pinv eig). Qed.
Print Assumptions C98_maxwell_conical.

Example C97_C98_1d_ex pl ts : pl = 0%coqR \/ pl = 1%coqR -> let s := s_ex None (RtoC 0) pl ts in exists r T1 infos,
  [/\ eigen_oracle eig_ex, physical s, n_bot s = RtoC 1, 1%coqR <> 0%coqR
    & solve_1d pinv_ex eig_ex false s 1 (nseq (size ts) conv_ex) = Some (r, T1, infos)].
Proof.
move=> h s; have [r [T1 [infos e]]] := solve_1d_ex pinv_ex (RtoC 0) ts h.
exists r, T1, infos; split; [exact: eig_ex_ok|exact: physical_ex|reflexivity|lra|exact e].
Qed.

Example C97_C98_sp_ex (p pl : R) ts : let s := s_ex0 (RtoC p) pl ts in
  exists r infos q infos',
  [/\ [/\ eigen_oracle eig_ex, physical s & 1%coqR <> 0%coqR], [/\ n_top s = RtoC 3, n_bot s = RtoC 1 & psi s = RtoC p],
      solve_2d pinv_ex eig_ex false (with_psi s (RtoC (- p))) 1 (nseq (size ts) conv_ex) = Some (r, infos) /\ no_flat_mode infos
    & solve_1d_conical pinv_ex eig_ex false (with_psi s (RtoC (- p))) 1 (nseq (size ts) conv_ex) = Some (q, infos') /\
      forall c, List.In c (used s (nseq (size ts) conv_ex)) -> line_convs c].
Proof.
move=> s; have [r [infos e]] := solve_2d_ex pinv_ex (RtoC (- p)) pl ts.
have [q [infos' e2]] := solve_conical_ex pinv_ex (RtoC (- p)) pl ts.
exists r, infos, q, infos'; split.
- split; [exact: eig_ex_ok|exact: physical_ex0|lra].
- by [].
- split; [exact e|exact (no_flat_ex e)].
- split; first exact e2.
  by move=> c /used_ex ->; exact: conv_ex_line.
Qed.

(** ** C99: the field of polarization angle psi is sin psi times the TE field plus cos psi times the TM field. *)
Theorem C99_superposed_2d pinv eig up s w (convs : seq (conv3 (ff_y s * ff_x s))) r infos kx ky px py rx ry rz :
  solve_2d pinv eig up s w convs = Some (r, infos) ->
  let f T1 := field_2d w kx ky T1 infos px py rx ry rz in
  combined (csin (psi s)) (ccos (psi s)) (f (T1_res r)) (f (T1_te r)) (f (T1_tm r)).
Proof. by move=> h; rewrite (T1_2d h); exact (combined_2d _ _ _ _ _ _ _ _ _ _ _ _ _). Qed.
Print Assumptions C99_superposed_2d.

Theorem C99_superposed_conical pinv eig up s w (convs : seq (conv3 (ff_y s * ff_x s))) r infos kx ky px py rx ry rz :
  solve_1d_conical pinv eig up s w convs = Some (r, infos) ->
  let f T1 := field_conical w kx ky T1 infos px py rx ry rz in
  combined (csin (psi s)) (ccos (psi s)) (f (T1_res r)) (f (T1_te r)) (f (T1_tm r)).
Proof. by move=> h; rewrite (T1_conical h); exact (combined_conical _ _ _ _ _ _ _ _ _ _ _ _ _). Qed.
Print Assumptions C99_superposed_conical.

Theorem C99_superposed_torch_2d pinv eig up s w (p : R) (convs : seq (conv3 (ff_y s * ff_x s))) r infos kx ky px py rx ry rz :
  psi s = RtoC p -> t_solve_2d pinv eig up s w convs = Some (r, infos) ->
  let f T1 := t_field_2d w kx ky T1 infos px py rx ry rz in
  combined (RtoC (sin p)) (RtoC (cos p)) (f (T1_res r)) (f (T1_te r)) (f (T1_tm r)).
Proof. by move=> hp h; rewrite (T1_t2d h) hp csin_real ccos_real; exact (t_combined_2d _ _ _ _ _ _ _ _ _ _ _ _ _). Qed.
Print Assumptions C99_superposed_torch_2d.

Theorem C99_superposed_torch_conical pinv eig up s w (p : R) (convs : seq (conv3 (ff_y s * ff_x s))) r infos kx ky px py rx ry rz :
  psi s = RtoC p -> t_solve_1d_conical pinv eig up s w convs = Some (r, infos) ->
  let f T1 := t_field_conical w kx ky T1 infos px py rx ry rz in
  combined (RtoC (sin p)) (RtoC (cos p)) (f (T1_res r)) (f (T1_te r)) (f (T1_tm r)).
Proof. by move=> hp h; rewrite (T1_tconical h) hp csin_real ccos_real; exact (t_combined_conical _ _ _ _ _ _ _ _ _ _ _ _ _). Qed.
Print Assumptions C99_superposed_torch_conical.

Example C99_ex (p pl : R) ts : let s := s_ex0 (RtoC p) pl ts in let cs := nseq (size ts) conv_ex in
  exists r i1 q i2 r' i1' q' i2',
  [/\ psi s = RtoC p /\ solve_2d pinv_ex eig_ex false s 1 cs = Some (r, i1), solve_1d_conical pinv_ex eig_ex false s 1 cs = Some (q, i2),
      t_solve_2d pinv_ex eig_ex false s 1 cs = Some (r', i1') & t_solve_1d_conical pinv_ex eig_ex false s 1 cs = Some (q', i2')].
Proof.
move=> s cs; have [r [i1 e1]] := solve_2d_ex pinv_ex (RtoC p) pl ts; have [q [i2 e2]] := solve_conical_ex pinv_ex (RtoC p) pl ts.
have [_ [i1' [_ [i2' [r' [q' [_ h1 _ h2 _]]]]]]] := C62_ex p pl ts.
exists r, i1, q, i2, r', i1', q', i2'; split; [split; [reflexivity|exact e1]|exact e2|exact h1|exact h2].
Qed.
