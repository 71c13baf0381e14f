(** Stacks of transparent films for which the solvers return. *)
From Coq Require Import Reals ZArith Lra Psatz.
From mathcomp Require Import all_ssreflect ssralg matrix mxalgebra.
From Coquelicot Require Import Complex.
From Verif Require Import Cplx Mx ModelTM Spec SpecSolve SpecFilm SpecFilm2D SpecCoat ProofFlux ProofEnergy1D ProofEnergy2D ProofSetup
  ProofEff ProofEnd ProofWell ProofWellSolve ProofFilm ProofFilmSolve ProofFilm2D ExampleKit ProofTorchObjEx ProofFilm2DEx ProofSymEx ProofLayer ProofNormal ProofCoat ProofCoat2 ProofCoat3.

Set Implicit Arguments.
Unset Strict Implicit.
Unset Printing Implicit Defensive.
Local Open Scope ring_scope.
Import GRing.Theory.

(** All films are transparent, of permittivity above [lo], and not thinner than nothing. *)
Definition clear_films (lo : R) (films : seq (C * R)) : Prop :=
  forall ed, List.In ed films -> (exists2 e, (lo < e)%coqR & ed.1 = RtoC e) /\ (0 <= ed.2)%coqR.

(** Azimuth 90 degrees, from index 3 to index [nb], transverse wave number 1. *)
Definition s_at (nb ps pl : R) (films : seq (C * R)) : setup :=
  Setup (RtoC 3) (RtoC nb) (RtoC th_ex) (Some (RtoC (PI / 2))) (RtoC ps) pl 1 0 2 2 (map snd films).
Definition s_mir := s_at 2.

Lemma used_films s n films c : List.In c (@used n s (map (fun ed : C * R => uniform_convs n ed.1) films)) ->
  exists2 ed, List.In ed films & c = uniform_convs n ed.1.
Proof. by move=> hc; have [ed h1 h2] := In_map (In_take hc); exists ed. Qed.

Section Mir.
Variables (nb ps pl : R) (films : seq (C * R)).
Hypothesis hf : clear_films (5 / 4) films.
Hypothesis hb : (0 < nb)%coqR.
Let s := s_at nb ps pl films.

Lemma at_kx : kx_tiled s 1 = kx_tiled (s_side ps pl (map snd films)) 1.
Proof. by []. Qed.
Lemma at_ky : ky_tiled s 1 = ky_tiled (s_side ps pl (map snd films)) 1.
Proof. by []. Qed.
Lemma at_physical : physical s.
Proof.
split=> /=; try lra; [exists 3%coqR => //; lra|by exists th_ex => //; exact: th_ex_bound|by move=> p [<-]; exists (PI / 2)%coqR].
Qed.
Lemma at_setup : film_setup s 3 th_ex ps nb films.
Proof.
split=> //; [lra|exact: th_ex_bound|by move=> p [<-]; exists (PI / 2)%coqR| |].
  by move=> ed /hf [].
move=> ed /hf [[e he ->] _]; rewrite sin_th_ex; split; first by apply/eqP; apply: RtoC_neq0; lra.
by rewrite expr2 -RtoC_mul => /RtoC_inj; lra.
Qed.
Lemma at_2d pv : exists r, solves_films pv eig_ex s 1 films r.
Proof.
have [r [i e]] : exists r infos, solve_2d pv eig_ex false s 1 (map (fun ed => uniform_convs (ff_y s * ff_x s) ed.1) films) = Some (r, infos).
  apply: (well_solve_2d pv eig_ex_ok (s := s) (w := 1) (nt := 3) (nb := nb) at_physical erefl erefl); first exact hb.
  - by rewrite !size_map.
  - exact (@side_orders ps pl (map snd films)).
  move=> c /used_films [ed /hf [[e he he'] _] ->]; rewrite he' at_kx at_ky side_kx side_ky; have e0 : (0 < e)%coqR by lra.
  by split; [exact: (@film_lossless 3 e e0)|exact: (@film_propagates 3 _ _ e e0 (side_below he))].
by exists r; left; exists i.
Qed.
Lemma at_conical pv : exists r, solves_films pv eig_ex s 1 films r /\
  exists i, solve_1d_conical pv eig_ex false s 1 (map (fun ed => uniform_convs (ff_y s * ff_x s) ed.1) films) = Some (r, i).
Proof.
have [r [i e]] : exists r infos, solve_1d_conical pv eig_ex false s 1 (map (fun ed => uniform_convs (ff_y s * ff_x s) ed.1) films) = Some (r, infos).
  apply: (well_solve_conical pv eig_ex_ok (s := s) (w := 1) (nt := 3) (nb := nb) at_physical erefl erefl erefl); first exact hb.
  - by rewrite !size_map.
  - exact (@side_orders ps pl (map snd films)).
  move=> c /used_films [ed /hf [[e he he'] _] ->]; rewrite he' at_kx at_ky side_kx side_ky; have e0 : (0 < e)%coqR by lra.
  split.
  - exact: (@film_lossless 3 e e0).
  - by rewrite /line_convs /uniform_convs -scalar_mxM mulVf //; apply: RtoC_neq0; lra.
  exact: (@film_propagates_conical 3 _ _ e e0 (side_below he)).
by exists r; split; [right|]; exists i.
Qed.
End Mir.
Lemma mir_setup ps pl films : clear_films (5 / 4) films -> film_setup (s_mir ps pl films) 3 th_ex ps 2 films.
Proof. exact: at_setup. Qed.
Lemma mir_2d ps pl films : clear_films (5 / 4) films -> forall pv, exists r, solves_films pv eig_ex (s_mir ps pl films) 1 films r.
Proof. by move=> hf pv; apply: at_2d => //; lra. Qed.
Lemma mir_conical ps pl films : clear_films (5 / 4) films -> forall pv, exists r, solves_films pv eig_ex (s_mir ps pl films) 1 films r /\
  exists i, solve_1d_conical pv eig_ex false (s_mir ps pl films) 1
    (map (fun ed => uniform_convs (ff_y (s_mir ps pl films) * ff_x (s_mir ps pl films)) ed.1) films) = Some (r, i).
Proof. by move=> hf pv; apply: at_conical => //; lra. Qed.

(** The classical mount, TE, order 0 only, transverse wave number 1. *)
Definition s_slant (nb : R) (films : seq (C * R)) : setup :=
  Setup (RtoC 3) (RtoC nb) (RtoC th_ex) None (RtoC 0) 0 0 0 2 2 (map snd films).
Lemma slant_setup nb films : (0 < nb)%coqR -> classical_films (s_slant nb films) false 3 th_ex nb films.
Proof. by move=> hb; split=> //; try lra; exact: th_ex_bound. Qed.
Lemma slant_returns pv nb films : (0 < nb)%coqR -> clear_films (5 / 4) films -> exists r, solves_films_1d pv eig_ex (s_slant nb films) 1 films r.
Proof.
move=> hb hf; set s := s_slant nb films.
have hk (i : 'I_(ff_x s)) : kx_vector s 1 i = RtoC 1.
  have -> : RtoC 1 = RtoC (3 * sin th_ex) by rewrite sin_th_ex; congr RtoC; field.
  by apply: (@kx_mid s 1 3 th_ex i) => //; [exact: th_ex_bound|case: i => -[|i]].
have h3 : (0 < 3)%coqR by lra.
have [|||||r [T1 [infos e]]] := te_returns pv (s := s) (w := 1) (nt := 3) (nb := nb)
  (convs := map (fun ed : C * R => uniform_convs (ff_x s) ed.1) films) h3 erefl erefl => //.
- by rewrite !size_map.
- by move=> i; exists 1%coqR => //; lra.
- move=> c /used_films [ed /hf [[e he he'] _] ->]; rewrite he'; split; first by apply: (@film_lossless _ e); lra.
  rewrite te_operatorE; have -> : diagf (ff_x s) (kx_vector s 1) = 1%:M.
    by apply/matrixP => i j; rewrite !mxE hk.
  rewrite mulmx1 /= -raddfB /= -RtoC_sub; apply: scalar_modes; lra.
by exists r, T1, infos.
Qed.


(** Normal incidence from air onto index [nb], TE, order 0 only. *)
Definition s_flat (nb : R) (films : seq (C * R)) : setup :=
  Setup (RtoC 1) (RtoC nb) (RtoC 0) None (RtoC 0) 0 0 0 2 2 (map snd films).
Lemma flat_setup nb films : (0 < nb)%coqR -> classical_films (s_flat nb films) false 1 0 nb films.
Proof. by move=> hb; split=> //; try lra; have := PI_RGT_0; lra. Qed.
Lemma flat_returns pv nb films : (0 < nb)%coqR -> clear_films 0 films -> exists r, solves_films_1d pv eig_ex (s_flat nb films) 1 films r.
Proof.
move=> hb hf; set s := s_flat nb films.
have hk (i : 'I_(ff_x s)) : kx_vector s 1 i = RtoC 0.
  have -> : RtoC 0 = RtoC (1 * sin 0) by rewrite sin_0 Rmult_0_r.
  apply: (@kx_mid s 1 1 0 i) => //; first by have := PI_RGT_0; lra.
  by case: i => -[|i].
have [|||||r [T1 [infos e]]] := te_returns pv (s := s) (w := 1) (nt := 1) (nb := nb)
  (convs := map (fun ed : C * R => uniform_convs (ff_x s) ed.1) films) Rlt_0_1 erefl erefl => //.
- by rewrite !size_map.
- by move=> i; exists 0%coqR => //; lra.
- move=> c /used_films [ed /hf [[e he he'] _] ->]; rewrite he'; split; first exact: (@film_lossless _ e he).
  rewrite te_operatorE; have -> : diagf (ff_x s) (kx_vector s 1) = 0.
    by apply/matrixP => i j; rewrite !mxE hk mul0rn.
  rewrite mulmx0 sub0r /= -raddfN /= -RtoC_opp; apply: scalar_modes; lra.
by exists r, T1, infos.
Qed.
