(** Unpatterned stacks at any azimuth, in the solvers that mix both polarisations (C111). *)
From Coq Require Import Reals Lra.
From mathcomp Require Import all_ssreflect ssralg matrix.
From Coquelicot Require Import Complex.
From Verif Require Import Cplx Mx ModelTM Spec SpecSolve SpecFilm SpecFilm2D ProofFilm2D ProofFilm2DEx ProofTorchObjEx ExampleKit PropertiesFilm PropertiesFourier.

Set Implicit Arguments.
Unset Strict Implicit.
Unset Printing Implicit Defensive.
Local Open Scope ring_scope.
Import GRing.Theory.

Theorem C111_films_2d pinv eig s w nt th f nb films r infos :
  eigen_oracle eig -> film_setup s nt th f nb films ->
  solve_2d pinv eig false s w (map (fun ed => uniform_convs (ff_y s * ff_x s) ed.1) films) = Some (r, infos) ->
  film_answer f w nt th nb films r.
Proof.
move=> he [h1 h2 h3 h4 h5 h6 h7 h8 h9 h10].
have h11 ed : List.In ed films -> ed.1 != 0 /\ RtoC (nt * sin th) ^+ 2 != ed.1 by move/h10 => [a b]; split; apply/eqP.
exact: (films_2d he h1 h2 h3 h4 h5 h6 h7 h8 h9 h11).
Qed.
Print Assumptions C111_films_2d.

Theorem C111_films_conical pinv eig s w nt th f nb films r infos :
  eigen_oracle eig -> film_setup s nt th f nb films ->
  solve_1d_conical pinv eig false s w (map (fun ed => uniform_convs (ff_y s * ff_x s) ed.1) films) = Some (r, infos) ->
  film_answer f w nt th nb films r.
Proof.
move=> he [h1 h2 h3 h4 h5 h6 h7 h8 h9 h10].
have h11 ed : List.In ed films -> ed.1 != 0 /\ RtoC (nt * sin th) ^+ 2 != ed.1 by move/h10 => [a b]; split; apply/eqP.
exact: (films_conical he h1 h2 h3 h4 h5 h6 h7 h8 h9 h11).
Qed.
Print Assumptions C111_films_conical.

(** The amplitudes of a bare interface are Fresnel's. *)
Theorem C111_fresnel tm w nt th nb tb :
  (0 < nt)%coqR -> (0 <= th < PI / 2)%coqR -> (0 < nb)%coqR -> (0 <= tb < PI / 2)%coqR -> (nt * sin th = nb * sin tb)%coqR ->
  film_r0 tm w nt th nb [::] = RtoC (fresnel_r tm nt th nb tb) /\ film_t0 tm w nt th nb [::] = RtoC (fresnel_t tm nt th nb tb).
Proof. exact (@film_fresnel tm w nt th nb tb). Qed.
Print Assumptions C111_fresnel.

(** The azimuth, the periods, the truncation and the choice between the two solvers do not matter. *)
Theorem C111_invariance pinv eig pinv' eig' s s' w nt th f nb films r infos r' infos' :
  eigen_oracle eig -> eigen_oracle eig' -> film_setup s nt th f nb films -> film_setup s' nt th f nb films ->
  let convs s := map (fun ed => uniform_convs (ff_y s * ff_x s) ed.1) films in
  solve_2d pinv eig false s w (convs s) = Some (r, infos) ->
  solve_1d_conical pinv' eig' false s' w (convs s') = Some (r', infos') \/ (exists i, solve_2d pinv' eig' false s' w (convs s') = Some (r', i)) ->
  [/\ same_zeroth (res r) (res r'), same_zeroth (res_te_inc r) (res_te_inc r') & same_zeroth (res_tm_inc r) (res_tm_inc r')].
Proof.
move=> he he' hs hs' convs h h'; apply: (same_zero (C111_films_2d he hs h)).
by case: h' => [h'|[i h']]; [exact: (C111_films_conical he' hs' h')|exact: (C111_films_2d he' hs' h')].
Qed.
Print Assumptions C111_invariance.

(** Films of permittivity 4 between indices 3 and 1, the wave across the grating, three orders. *)
Example C111_ex pinv ps pl ts : (forall t, List.In t ts -> (0 <= t)%coqR) ->
  let s := s_side ps pl ts in let films := films_side ts in
  let convs := map (fun ed => uniform_convs (ff_y s * ff_x s) ed.1) films in
  exists r infos r' infos',
  [/\ eigen_oracle eig_ex, film_setup s 3 th_ex ps 1 films, solve_2d pinv eig_ex false s 1 convs = Some (r, infos),
      solve_1d_conical pinv eig_ex false s 1 convs = Some (r', infos')
    & film_answer ps 1 3 th_ex 1 films r /\ film_answer ps 1 3 th_ex 1 films r' /\ same_zeroth (res r) (res r')].
Proof.
move=> ht s films convs.
have hf : film_setup s 3 th_ex ps 1 films.
  split=> //; [lra|exact: th_ex_bound|by move=> p [<-]; exists (PI / 2)%coqR| | |].
  - by rewrite /films /films_side -map_comp map_id.
  - by move=> ed; exact: side_thick.
  - by move=> ed /side_regular [/eqP a /eqP b].
have [r [i h]] := side_2d ps pl ts pinv; have [r' [i' h']] := side_conical ps pl ts pinv.
exists r, i, r', i'; split=> //; first exact: eig_ex_ok.
have [a _ _] := C111_invariance eig_ex_ok eig_ex_ok hf hf h (or_introl h').
split; first exact: (C111_films_2d eig_ex_ok hf h).
by split=> //; exact: (C111_films_conical eig_ex_ok hf h').
Qed.

(** From index 3 into index 2, refracted at 30 degrees. *)
Example C111_fresnel_ex tm w : film_r0 tm w 3 th_ex 2 [::] = RtoC (fresnel_r tm 3 th_ex 2 (PI / 6)).
Proof.
have p := PI_RGT_0; have snell : (3 * sin th_ex = 2 * sin (PI / 6))%coqR by rewrite sin_th_ex sin_PI6; field.
have h3 : (0 < 3)%coqR by lra.
have h2 : (0 < 2)%coqR by lra.
have h6 : (0 <= PI / 6 < PI / 2)%coqR by lra.
by have [-> _] := C111_fresnel tm w h3 th_ex_bound h2 h6 snell.
Qed.
