(** C114: an absorbing layer loses power. *)
From Coq Require Import Reals ZArith Lra.
From mathcomp Require Import all_ssreflect ssralg matrix.
From Coquelicot Require Import Complex.
From Verif Require Import Cplx Mx Spec SpecSolve SpecLayer SpecPassive SpecAbsorb SpecState SpecStrict SpecTorch SpecTorchObj SpecJax
  ModelTM ModelState ModelTorchObj ModelJax ProofLayer ProofPassive ProofPassive3 ProofInvert ProofTorchObj ProofTorchObjEx ProofTorchPassEx ProofObjEx
  ProofAbsorb3 ProofAbsorb4 ProofAbsorb5 ProofAbsorbEx ExampleKit ProofJax ProofJax2 ProofStrict2 ProofStrict3 ProofStrictEx
  PropertiesPassive PropertiesJax PropertiesTorchObj PropertiesAbsorb.

Set Implicit Arguments.
Unset Strict Implicit.
Unset Printing Implicit Defensive.
Local Open Scope ring_scope.
Import GRing.Theory.

(** No layer has gain and one layer of positive thickness absorbs: the efficiencies add up to less than one. *)
Theorem C114_strict_1d : forall (pinv : forall n, 'M[C]_n -> 'M[C]_n) eig, eigen_oracle eig ->
  forall s w (convs : seq (conv3 (ff_x s))) r T1 infos,
  physical s -> phi s = None -> (0 < w)%coqR -> (forall t, List.In t (thickness s) -> (0 <= t)%coqR) ->
  (forall c, List.In c (used s convs) -> passive_convs c) -> has_absorber convs (thickness s) ->
  solve_1d pinv eig false s w convs = Some (r, T1, infos) -> power_lost r.
Proof. exact strict_solve_1d. Qed.
Print Assumptions C114_strict_1d.

Theorem C114_strict_2d : forall (pinv : forall n, 'M[C]_n -> 'M[C]_n) eig, eigen_oracle eig ->
  forall s w (convs : seq (conv3 (ff_y s * ff_x s))) r infos,
  physical s -> is_real (psi s) -> (0 < w)%coqR -> (forall t, List.In t (thickness s) -> (0 <= t)%coqR) ->
  (forall c, List.In c (used s convs) -> passive_convs c) -> has_absorber convs (thickness s) ->
  solve_2d pinv eig false s w convs = Some (r, infos) -> power_lost3 r.
Proof. exact strict_solve_2d. Qed.
Print Assumptions C114_strict_2d.

Theorem C114_strict_conical : forall (pinv : forall n, 'M[C]_n -> 'M[C]_n) eig, eigen_oracle eig ->
  forall s w (convs : seq (conv3 (ff_y s * ff_x s))) r infos,
  physical s -> is_real (psi s) -> (0 < w)%coqR -> (forall t, List.In t (thickness s) -> (0 <= t)%coqR) ->
  (forall c, List.In c (used s convs) -> passive_convs c /\ line_convs c) -> has_absorber convs (thickness s) ->
  solve_1d_conical pinv eig false s w convs = Some (r, infos) -> power_lost3 r.
Proof. exact strict_solve_conical. Qed.
Print Assumptions C114_strict_conical.

(** The solver object, from the cell to the report: NumPy, JAX, PyTorch. *)
Theorem C114_strict_object : forall (pinv : forall n, 'M[C]_n -> 'M[C]_n) eig, eigen_oracle eig ->
  forall o o' r, physical_obj o -> passive_cell_of o -> absorbing_layer_of o -> (0 < o_wavelength o)%coqR -> thick_obj o ->
  o_use_pinv o = false -> conv_solve pinv eig o = (o', Solved r) -> report_all power_lost r.
Proof. exact strict_end. Qed.
Print Assumptions C114_strict_object.

Theorem C114_jax : forall (pinv : forall n, 'M[C]_n -> 'M[C]_n) eig broken, eigen_oracle eig ->
  forall o o' r, physical_obj o -> passive_cell_of o -> absorbing_layer_of o -> (0 < o_wavelength o)%coqR -> thick_obj o ->
  o_use_pinv o = false -> (conv_solve pinv eig o).2 <> Raised ->
  j_conv_solve pinv eig broken o = (o', Solved r) -> report_all power_lost r.
Proof.
move=> pinv eig broken he o o' r hp hc hab hw ht hu hr hj.
have hs : same_inverses pinv o by constructor 1.
have hq : quiet pinv (do_op pinv eig) ConvSolve o by split.
have e := step_j broken hq; rewrite /= hj in e.
exact: (strict_end he hp hc hab hw ht hu (esym e)).
Qed.
Print Assumptions C114_jax.

Lemma lost_same n (a b : option (diffraction n)) : same_block a b -> (forall d, b = Some d -> power_lost d) ->
  forall d, a = Some d -> power_lost d.
Proof.
case: a b => [a|] [b|] //= hs hb d [<-]; have := hb b erefl; rewrite /power_lost.
by rewrite (total_ext (f := de_ri a) (g := de_ri b)) ?(total_ext (f := de_ti a) (g := de_ti b)) // => i; have [[_ _ h] [_ _ h']] := hs i.
Qed.

Theorem C114_torch : forall (pinv : forall n, 'M[C]_n -> 'M[C]_n) eig, eigen_oracle eig ->
  forall o c n' r, let a := t_attrs o in same_cell (t_cell o) c -> o_phi a <> Some 0 -> is_real (o_nbot a) ->
  physical_obj a -> passive_cell_of (numpy_twin c o) -> absorbing_layer_of (numpy_twin c o) -> (0 < o_wavelength a)%coqR -> thick_obj a ->
  o_use_pinv a = false -> conv_solve pinv eig (numpy_twin c o) = (n', Solved r) -> no_flat_memo (o_memo n') ->
  exists o' r', t_conv_solve pinv eig o = (o', Solved r') /\ report_all power_lost r'.
Proof.
move=> pinv eig he o c n' r a hc hph hb hp h1 h2 hw ht hu hs hf.
have hu' : o_use_pinv a = true -> pinv_oracle pinv by rewrite hu.
have [o' [r' [e hr]]] := C106_numpy_result hc hph hp hb hu' hs hf.
have hp' : physical_obj (numpy_twin c o) by case: (hp) => q1 q2 q3 [x q4] q5; split=> //; exists (- x)%coqR; rewrite /= RtoC_opp q4.
have hl := strict_end he hp' h1 h2 hw ht hu hs.
exists o', r'; split=> //.
case: hr hl => n x y z x' y' z' k1 k2 k3 [j1 j2 j3].
by split; [apply: lost_same k1 j1|apply: lost_same k2 j2|apply: lost_same k3 j3].
Qed.
Print Assumptions C114_torch.

(** An absorbing grating between any numbers of lossless gratings (the stack of C113). *)
Lemma stack_passive a b c : List.In c (stack_abs a b) -> passive_convs c /\ line_convs c.
Proof.
move=> /stack_in [] ->; split.
- exact: lossless_passive conv_ex_lossless.
- exact: conv_ex_line.
- exact: absorbing_le conv_abs_absorbs.
- exact: conv_abs_line.
Qed.
Lemma stack_absorber a b t d : (0 < d)%coqR -> has_absorber (stack_abs a b) (depths a b t d).
Proof.
move=> d0; exists a, conv_abs, d; split=> //; last exact: conv_abs_absorbs.
- by rewrite /stack_abs; elim: a.
- by rewrite /depths; elim: a.
Qed.

Example C114_1d_ex pinv ps pl a b t d : (pl = 0 \/ pl = 1)%coqR -> (0 < t)%coqR -> (0 < d)%coqR ->
  exists r T1 infos, solve_1d pinv eig_ex false (s_abs None ps pl (depths a b t d)) 1 (stack_abs a b) = Some (r, T1, infos) /\ power_lost r.
Proof.
move=> hpl t0 d0; have [_ [r [T1 [infos e]]]] := C113_1d_ex pinv ps a b hpl t0 d0.
exists r, T1, infos; split=> //; set s := s_abs _ _ _ _ in e.
have eu : used s (stack_abs a b) = stack_abs a b by apply: used_stack; exact: size_stack.
apply: (C114_strict_1d eig_ex_ok (s := s) (w := 1) _ _ _ _ _ _ e) => //.
- exact: physical_abs.
- exact: Rlt_0_1.
- by move=> x hx; apply: Rlt_le; exact: depths_pos t0 d0 hx.
- by move=> c; rewrite eu => /stack_passive [].
exact: stack_absorber.
Qed.

Example C114_2d_ex pinv (p pl : R) a b t d : (0 < t)%coqR -> (0 < d)%coqR ->
  let s := s_abs (Some (RtoC 0)) (RtoC p) pl (depths a b t d) in
  (exists r infos, solve_2d pinv eig_ex false s 1 (stack_abs a b) = Some (r, infos) /\ power_lost3 r) /\
  (exists r infos, solve_1d_conical pinv eig_ex false s 1 (stack_abs a b) = Some (r, infos) /\ power_lost3 r).
Proof.
move=> t0 d0 s; have [[r [infos e]] [r' [infos' e']]] := C113_2d_ex pinv (RtoC p) pl a b t0 d0.
have eu : used s (stack_abs a b) = stack_abs a b by apply: used_stack; exact: size_stack.
have hp : physical s by apply: physical_abs => q [<-]; exists 0%coqR.
have hps : is_real (psi s) by exists p.
have ht x : List.In x (thickness s) -> (0 <= x)%coqR by move=> hx; apply: Rlt_le; exact: depths_pos t0 d0 hx.
have hc c : List.In c (used s (stack_abs a b)) -> passive_convs c /\ line_convs c by rewrite eu => /stack_passive.
have hc' c : List.In c (used s (stack_abs a b)) -> passive_convs c by move=> /hc [].
have hab : has_absorber (stack_abs a b) (thickness s) by exact: stack_absorber.
split.
- by exists r, infos; split=> //; exact (C114_strict_2d eig_ex_ok hp hps Rlt_0_1 ht hc' hab e).
by exists r', infos'; split=> //; exact (C114_strict_conical eig_ex_ok hp hps Rlt_0_1 ht hc hab e').
Qed.

(** Any number of films of index 2 - i, in the three backends. *)
Example C114_object_ex pinv t ts : (forall x, List.In x (t :: ts) -> (0 < x)%coqR) -> let o := gray_ex (t :: ts) in
  [/\ physical_obj o, passive_cell_of o, absorbing_layer_of o & thick_obj o] /\
  exists o' (r : diffraction 3), conv_solve pinv eig_ex o = (o', Solved (Report (Some r) None None)) /\ power_lost r.
Proof.
move=> hpos o; have h := gray_ok psi0_real hpos; split=> //; case: h => h1 h2 h3 h4.
have [o' [r [T1 [infos [e _]]]]] := gray_run pinv (psi_of (RtoC 0)) hpos; exists o', r; split=> //.
have [h _ _] := C114_strict_object eig_ex_ok h1 h2 h3 Rlt_0_1 h4 erefl e.
exact: h.
Qed.

Example C114_jax_ex pinv broken t ts : (forall x, List.In x (t :: ts) -> (0 < x)%coqR) -> let o := gray_ex (t :: ts) in
  (conv_solve pinv eig_ex o).2 <> Raised /\
  exists o' (r : diffraction 3), j_conv_solve pinv eig_ex broken o = (o', Solved (Report (Some r) None None)) /\ power_lost r.
Proof.
move=> hpos o; have [h1 h2 h3 h4] := gray_ok psi0_real hpos.
have [o' [r [T1 [infos [e _]]]]] := gray_run pinv (psi_of (RtoC 0)) hpos.
have hr : (conv_solve pinv eig_ex o).2 <> Raised by rewrite e.
have hq : quiet pinv (do_op pinv eig_ex) ConvSolve o by split=> // _; constructor 1.
have ej := step_j broken hq; rewrite /= e in ej.
split=> //; exists o', r; split=> //.
have [h _ _] := C114_jax eig_ex_ok h1 h2 h3 Rlt_0_1 h4 erefl hr ej.
exact: h.
Qed.

Example C114_torch_ex pinv t ts : (forall x, List.In x (t :: ts) -> (0 < x)%coqR) -> let o := gray_t (t :: ts) in let c := gray_cell (t :: ts) in
  exists n' r o' r', [/\ same_cell (t_cell o) c, o_phi (t_attrs o) <> Some 0, physical_obj (t_attrs o), passive_cell_of (numpy_twin c o)
    & absorbing_layer_of (numpy_twin c o)] /\
  [/\ conv_solve pinv eig_ex (numpy_twin c o) = (n', Solved r), no_flat_memo (o_memo n'),
      t_conv_solve pinv eig_ex o = (o', Solved r') & report_all power_lost r'].
Proof.
move=> hpos o c; have hps : is_real (- psi_of (RtoC 0)) by have [x e] := psi0_real; exists (- x)%coqR; rewrite RtoC_opp e.
have [n' [r [T1 [infos [e em]]]]] := gray_run pinv (- psi_of (RtoC 0)) hpos.
have [_ h2 h3 h4] := gray_ok hps hpos.
have k1 : same_cell (t_cell o) c by constructor.
have k2 : o_phi (t_attrs o) <> Some 0 by [].
have k3 : physical_obj (t_attrs o) by exact: obj_ex_phys.
have k4 : is_real (o_nbot (t_attrs o)) by exists 2%coqR.
have e' : conv_solve pinv eig_ex (numpy_twin c o) = (n', Solved (Report (Some r) None None)) := e.
have hf : no_flat_memo (o_memo n') by rewrite em.
have [o' [r' [ej hl]]] := @C114_torch pinv eig_ex eig_ex_ok o c _ _ k1 k2 k4 k3 h2 h3 Rlt_0_1 h4 erefl e' hf.
by exists n', (Report (Some r) None None), o', r'.
Qed.
