(** C113: stacks that contain absorbing layers never meet a singular matrix. *)
From Coq Require Import Reals Lra.
From mathcomp Require Import all_ssreflect ssralg matrix.
From Coquelicot Require Import Complex.
From Verif Require Import Cplx ModelTM ModelFourier Spec SpecFourier SpecSolve SpecLayer SpecAbsorb.
From Verif Require Import ExampleKit ProofAbsorb3 ProofAbsorb4 ProofAbsorb5 ProofAbsorbEx.

Set Implicit Arguments.
Unset Strict Implicit.
Unset Printing Implicit Defensive.
Local Open Scope ring_scope.

(** C113. A pattern whose every pixel absorbs has absorbing convolution matrices: discrete Fourier series, continuous Fourier
    series and vector modelling; the construction itself succeeds. *)
Theorem C113_discrete : forall (pinv : forall n, 'M[C]_n -> 'M[C]_n) fx fy (l : raster) e,
  (0 < rows l)%N -> (0 < cols l)%N -> all_px absorbing_index l ->
  exists2 c, conv_discrete pinv false e fx fy l = Some c & absorbing_convs c.
Proof. exact discrete_absorbs. Qed.
Print Assumptions C113_discrete.

Theorem C113_continuous : forall (pinv : forall n, 'M[C]_n -> 'M[C]_n) fx fy (l : raster),
  (0 < rows l)%N -> (0 < cols l)%N -> all_px absorbing_index l ->
  exists2 c, conv_continuous pinv false fx fy l = Some c & absorbing_convs c.
Proof. exact continuous_absorbs. Qed.
Print Assumptions C113_continuous.

Theorem C113_vector : forall (pinv : forall n, 'M[C]_n -> 'M[C]_n) fx fy (l : raster) x y px py,
  covers x px -> covers y py -> rows l = size y -> cols l = size x -> all_px absorbing_index l ->
  exists2 c, conv_vector pinv false fx fy (l, x, y) = Some c & absorbing_convs c.
Proof. exact vector_absorbs. Qed.
Print Assumptions C113_vector.

(** Classical mount.  Every layer is either lossless with propagating modes or absorbing with independent eigenvectors; and
    either there is an absorbing layer or every order propagates in the superstrate. *)
Theorem C113_well_1d : forall (pinv : forall n, 'M[C]_n -> 'M[C]_n) eig, eigen_oracle eig ->
  forall s w (convs : seq (conv3 (ff_x s))) (nt nb : R),
  physical s -> n_top s = RtoC nt -> n_bot s = RtoC nb -> (0 < nb)%coqR -> pol s = 0%coqR \/ pol s = 1%coqR ->
  (0 < w)%coqR -> (forall t, List.In t (thickness s) -> (0 < t)%coqR) -> (size (thickness s) <= size convs)%N ->
  (forall c, List.In c (used s convs) ->
     clear_1d eig (pol s) (kx_vector s w) c \/ dark_1d eig (pol s) (kx_vector s w) c) ->
  all_orders_propagate (ff_x s) nt (kx_vector s w) \/
    (exists2 c, List.In c (used s convs) & dark_1d eig (pol s) (kx_vector s w) c) ->
  exists r T1 infos, solve_1d pinv eig false s w convs = Some (r, T1, infos).
Proof. exact absorb_solve_1d. Qed.
Print Assumptions C113_well_1d.

Theorem C113_well_2d : forall (pinv : forall n, 'M[C]_n -> 'M[C]_n) eig, eigen_oracle eig ->
  forall s w (convs : seq (conv3 (ff_y s * ff_x s))) (nt nb : R),
  physical s -> n_top s = RtoC nt -> n_bot s = RtoC nb -> (0 < nb)%coqR ->
  (0 < w)%coqR -> (forall t, List.In t (thickness s) -> (0 < t)%coqR) -> (size (thickness s) <= size convs)%N ->
  oblique_orders (ff_y s * ff_x s) (kx_tiled s w) (ky_tiled s w) ->
  (forall c, List.In c (used s convs) ->
     clear_2d eig (kx_tiled s w) (ky_tiled s w) c \/ dark_2d eig (kx_tiled s w) (ky_tiled s w) c) ->
  all_orders_propagate2 (ff_y s * ff_x s) nt (kx_tiled s w) (ky_tiled s w) \/
    (exists2 c, List.In c (used s convs) & dark_2d eig (kx_tiled s w) (ky_tiled s w) c) ->
  exists r infos, solve_2d pinv eig false s w convs = Some (r, infos).
Proof. exact absorb_solve_2d. Qed.
Print Assumptions C113_well_2d.

Theorem C113_well_conical : forall (pinv : forall n, 'M[C]_n -> 'M[C]_n) eig, eigen_oracle eig ->
  forall s w (convs : seq (conv3 (ff_y s * ff_x s))) (nt nb : R),
  physical s -> fto_y s = 0%N -> n_top s = RtoC nt -> n_bot s = RtoC nb -> (0 < nb)%coqR ->
  (0 < w)%coqR -> (forall t, List.In t (thickness s) -> (0 < t)%coqR) -> (size (thickness s) <= size convs)%N ->
  oblique_orders (ff_y s * ff_x s) (kx_tiled s w) (ky_tiled s w) ->
  (forall c, List.In c (used s convs) ->
     clear_conical eig (kx_tiled s w) (ky_tiled s w) c \/ dark_conical eig (kx_tiled s w) (ky_tiled s w) c) ->
  all_orders_propagate2 (ff_y s * ff_x s) nt (kx_tiled s w) (ky_tiled s w) \/
    (exists2 c, List.In c (used s convs) & dark_conical eig (kx_tiled s w) (ky_tiled s w) c) ->
  exists r infos, solve_1d_conical pinv eig false s w convs = Some (r, infos).
Proof. exact absorb_solve_conical. Qed.
Print Assumptions C113_well_conical.

(** Example: a patterned layer of two absorbing materials, and an absorbing grating between any numbers of lossless gratings,
    with order +1 evanescent in the superstrate (index 5/4). *)
Example C113_pattern_ex pinv e : exists2 c,
  conv_discrete pinv false e 1 0 (Raster 1 4 (fun _ j => if (j < 2)%N then RtoC 2 - ci else RtoC 3 - RtoC 2 * ci)) = Some c
  & absorbing_convs c.
Proof.
apply: C113_discrete => // i j _ _ /=; rewrite /absorbing_index; case: ifP => _; rewrite /ci /Im /=; lra.
Qed.

Example C113_1d_ex pinv ps pl a b t d : (pl = 0 \/ pl = 1)%coqR -> (0 < t)%coqR -> (0 < d)%coqR ->
  ~ all_orders_propagate 3 (5/4) (kx_vector (s_abs None ps pl (depths a b t d)) 1) /\
  exists r T1 infos, solve_1d pinv eig_ex false (s_abs None ps pl (depths a b t d)) 1 (stack_abs a b) = Some (r, T1, infos).
Proof.
move=> hpl t0 d0; split; first exact: evan_abs.
have eu : used (s_abs None ps pl (depths a b t d)) (stack_abs a b) = stack_abs a b by apply: used_stack; exact: size_stack.
apply: (C113_well_1d pinv eig_ex_ok (nt := 5/4) (nb := 1)) => //.
- exact: physical_abs.
- exact: Rlt_0_1.
- exact: Rlt_0_1.
- by move=> x; exact: depths_pos.
- by rewrite size_stack.
- by move=> c; rewrite eu => /stack_in [] ->; [left; exact: clear_ex_1d|right; exact: dark_ex_1d].
by right; exists conv_abs; [rewrite eu; exact: stack_has|exact: dark_ex_1d].
Qed.

Example C113_2d_ex pinv ps pl a b t d : (0 < t)%coqR -> (0 < d)%coqR ->
  let s := s_abs (Some (RtoC 0)) ps pl (depths a b t d) in
  (exists r infos, solve_2d pinv eig_ex false s 1 (stack_abs a b) = Some (r, infos)) /\
  (exists r infos, solve_1d_conical pinv eig_ex false s 1 (stack_abs a b) = Some (r, infos)).
Proof.
move=> t0 d0 s; have eu : used s (stack_abs a b) = stack_abs a b by apply: used_stack; exact: size_stack.
have hp : physical s by apply: physical_abs => p [<-]; exists 0%coqR.
split.
- apply: (C113_well_2d pinv eig_ex_ok (nt := 5/4) (nb := 1)) => //.
  + exact: Rlt_0_1.
  + exact: Rlt_0_1.
  + by move=> x; exact: depths_pos.
  + by rewrite size_stack.
  + exact: oblique_abs.
  + by move=> c; rewrite eu => /stack_in [] ->; [left; exact: clear_ex_2d|right; exact: dark_ex_2d].
  by right; exists conv_abs; [rewrite eu; exact: stack_has|exact: dark_ex_2d].
apply: (C113_well_conical pinv eig_ex_ok (nt := 5/4) (nb := 1)) => //.
+ exact: Rlt_0_1.
+ exact: Rlt_0_1.
+ by move=> x; exact: depths_pos.
+ by rewrite size_stack.
+ exact: oblique_abs.
+ by move=> c; rewrite eu => /stack_in [] ->; [left; exact: clear_ex_conical|right; exact: dark_ex_conical].
by right; exists conv_abs; [rewrite eu; exact: stack_has|exact: dark_ex_conical].
Qed.
