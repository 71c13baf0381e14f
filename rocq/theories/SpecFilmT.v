(** The PyTorch solvers return [r] for a stack of films, where the NumPy solvers return as well. *)
From Coq Require Import Reals.
From mathcomp Require Import all_ssreflect ssralg matrix.
From Coquelicot Require Import Complex.
From Verif Require Import Cplx Spec SpecSolve ModelTM ModelTorch SpecTorch.

Set Implicit Arguments.
Unset Strict Implicit.
Unset Printing Implicit Defensive.

(** In the two-dimensional PyTorch solver no mode may have a decay constant within 1e-10 of zero: there the code replaces it. *)
Definition t_solves_films pinv eig (s : setup) (w f : R) (films : seq (C * R)) (r : sp_result (ff_y s * ff_x s)) : Prop :=
  let convs := map (fun ed => uniform_convs (ff_y s * ff_x s) ed.1) films in
  let s' := with_psi s (RtoC (- f)) in
  (exists r0 i i', [/\ solve_2d pinv eig false s' w convs = Some (r0, i), no_flat_mode i & t_solve_2d pinv eig false s w convs = Some (r, i')]) \/
  (exists r0 i i', solve_1d_conical pinv eig false s' w convs = Some (r0, i) /\ t_solve_1d_conical pinv eig false s w convs = Some (r, i')).
Definition t_solves_films_1d pinv eig (s : setup) (w : R) (films : seq (C * R)) (r : diffraction (ff_x s)) : Prop :=
  let convs := map (fun ed => uniform_convs (ff_x s) ed.1) films in
  (exists r0 T1 i, solve_1d pinv eig false s w convs = Some (r0, T1, i)) /\ (exists T1 i, t_solve_1d pinv eig false s w convs = Some (r, T1, i)).
Arguments t_solves_films pinv eig s w f films r : clear implicits.
Arguments t_solves_films_1d pinv eig s w films r : clear implicits.
