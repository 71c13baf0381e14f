(** C122: the theory of films, and its textbook consequences, in the PyTorch solvers. *)
From Coq Require Import Reals ZArith Lra Psatz.
From mathcomp Require Import all_ssreflect ssralg matrix.
From Coquelicot Require Import Complex.
From Verif Require Import Cplx Mx ModelTM ModelTorch Spec SpecSolve SpecTorch SpecFilm SpecFilm2D SpecCoat SpecFilmT ProofSetup ProofEnergy1D ProofFilm ProofFilmSolve ProofFilm2D ProofNormal
  ProofCoat ProofCoat2 ProofCoat3 ProofCoat4 ExampleKit ProofTorchObjEx ProofFilm2DEx ProofCoatEx PropertiesFilm2D PropertiesCoat PropertiesTir PropertiesTorch.

Set Implicit Arguments.
Unset Strict Implicit.
Unset Printing Implicit Defensive.
Local Open Scope ring_scope.
Import GRing.Theory.

Lemma setup_psi s nt th f nb films g : film_setup s nt th f nb films -> film_setup (with_psi s (RtoC g)) nt th g nb films.
Proof. by case=> *; split. Qed.
Lemma only_same n rho tau (d d' : diffraction n) : same_efficiencies d' d -> only_zeroth rho tau d -> only_zeroth rho tau d'.
Proof. by move=> h h' i; have [[_ _ ->] [_ _ ->]] := h i; exact: h'. Qed.
Lemma report_flip n f rho tau (r : sp_result n) : zeroth_report (- f) rho tau r -> zeroth_report f rho tau r.
Proof.
rewrite /zeroth_report sin_neg cos_neg.
by have -> : ((- sin f) ^ 2 = sin f ^ 2)%coqR by ring.
Qed.

(** The NumPy result that a PyTorch result has the efficiencies of. *)
Lemma torch_twin pinv eig s w nt th f nb films r : physical s -> film_setup s nt th f nb films -> t_solves_films pinv eig s w f films r ->
  exists2 r0, solves_films pinv eig (with_psi s (RtoC (- f))) w films r0 &
    [/\ same_efficiencies (res r) (res r0), same_efficiencies (res_te_inc r) (res_te_inc r0) & same_efficiencies (res_tm_inc r) (res_tm_inc r0)].
Proof.
move=> hp hs [[r0 [i [i' [e hf e']]]]|[r0 [i [i' [e e']]]]]; exists r0.
- by left; exists i.
- have [//|r' e2 [h _ _]] := C62_torch_2d (up := false) _ hp (fs_nt hs) (fs_nb hs) (fs_psi hs) e hf.
  by move: e'; rewrite e2 => -[<- _].
- by right; exists i.
- have [r' e2 [h _ _]] := C62_torch_conical hp (fs_nt hs) (fs_nb hs) (fs_psi hs) e.
  by move: e'; rewrite e2 => -[<- _].
Qed.

Theorem C122_films pinv eig s w nt th f nb films r : eigen_oracle eig -> physical s -> film_setup s nt th f nb films ->
  t_solves_films pinv eig s w f films r ->
  zeroth_report f (fun tm => film_R0 tm w nt th nb films) (fun tm => film_T0 tm w nt th nb films) r.
Proof.
move=> he hp hs hr; have [r0 h0 [h1 h2 h3]] := torch_twin hp hs hr.
have [a b c] := films_report he (setup_psi (- f) hs) h0.
by apply: report_flip; split; [exact: only_same h2 a|exact: only_same h3 b|exact: only_same h1 c].
Qed.
Print Assumptions C122_films.

Theorem C122_films_1d pinv eig s tm w nt th nb films r : eigen_oracle eig -> physical s -> classical_films s tm nt th nb films ->
  t_solves_films_1d pinv eig s w films r -> only_zeroth (film_R0 tm w nt th nb films) (film_T0 tm w nt th nb films) r.
Proof.
move=> he hp hs [[r0 [T1 [i e]]] [T1' [i' e']]].
have hb : is_real (n_bot s) by rewrite (cf_nb hs); exists nb.
have [r' e2 [h _]] := C33_torch_1d hp hb e; move: e'; rewrite e2 => -[<- _ _].
have hr0 : solves_films_1d pinv eig s w films r0 by exists T1, i.
exact (only_same h (films_report_1d he hs hr0)).
Qed.
Print Assumptions C122_films_1d.

(** Half-wave layers, mirrors and total reflection. *)
Theorem C122_half_wave pinv eig pinv' eig' s s' w nt th f nb f1 n d f2 r r' : eigen_oracle eig -> eigen_oracle eig' ->
  physical s -> physical s' -> film_setup s nt th f nb (f1 ++ glass n d :: f2) -> film_setup s' nt th f nb (f1 ++ f2) ->
  w <> 0%coqR -> (nt * sin th * (nt * sin th) < n * n)%coqR -> half_wave w (nt * sin th) n d ->
  t_solves_films pinv eig s w f (f1 ++ glass n d :: f2) r -> t_solves_films pinv' eig' s' w f (f1 ++ f2) r' ->
  [/\ same_zeroth (res r) (res r'), same_zeroth (res_te_inc r) (res_te_inc r') & same_zeroth (res_tm_inc r) (res_tm_inc r')].
Proof.
move=> he he' hp hp' hs hs' hw hn hh hr hr'; have h' := C122_films he' hp' hs' hr'.
have h := C122_films he hp hs hr.
have {h} : zeroth_report f (fun tm => film_R0 tm w nt th nb (f1 ++ f2)) (fun tm => film_T0 tm w nt th nb (f1 ++ f2)) r.
  by apply: zeroth_ext h => tm; have [_ e1 e2] := half_absent tm nb f1 f2 hw hn hh.
by case: h' => a' b' c' [a b c]; split; [exact: zeroth_same c c'|exact: zeroth_same a a'|exact: zeroth_same b b'].
Qed.
Print Assumptions C122_half_wave.

Theorem C122_mirror pinv eig s w nt th f nb nh dh nl dl N r : let kx := (nt * sin th)%coqR in eigen_oracle eig -> physical s ->
  film_setup s nt th f nb (pairs nh dh nl dl N) -> w <> 0%coqR ->
  (kx * kx < nb * nb)%coqR -> (kx * kx < nh * nh)%coqR -> (kx * kx < nl * nl)%coqR ->
  quarter_wave w kx nh dh -> quarter_wave w kx nl dl -> t_solves_films pinv eig s w f (pairs nh dh nl dl N) r ->
  zeroth_report f (fun tm => mirror_R tm nt nh nl nb kx N) (fun tm => 1 - mirror_R tm nt nh nl nb kx N)%coqR r.
Proof.
move=> kx he hp hs hw hb hh hl qh ql hr; have h := C122_films he hp hs hr.
have h0 := fs_nt0 hs; have h2 := fs_th0 hs.
by apply: zeroth_ext h => tm; have [e1 e2] := mirror_end tm hw h0 h2 hb N hh hl qh ql.
Qed.
Print Assumptions C122_mirror.

Theorem C122_total_reflection pinv eig s w nt th f nb films r : eigen_oracle eig -> physical s -> film_setup s nt th f nb films ->
  (nb * nb < nt * sin th * (nt * sin th))%coqR ->
  (forall ed, List.In ed films -> exists2 e, ed.1 = RtoC e & (nt * sin th * (nt * sin th) <> e)%coqR) ->
  t_solves_films pinv eig s w f films r ->
  [/\ only_zeroth 1%coqR 0%coqR (res r), only_zeroth 1%coqR 0%coqR (res_te_inc r) & only_zeroth 1%coqR 0%coqR (res_tm_inc r)].
Proof.
move=> he hp hs hb hf hr; have [r0 h0 [h1 h2 h3]] := torch_twin hp hs hr.
have [a b c] := C121_total_reflection he (setup_psi (- f) hs) hb hf h0.
by split; [exact: only_same h1 a|exact: only_same h2 b|exact: only_same h3 c].
Qed.
Print Assumptions C122_total_reflection.

(** The antireflection coating, and Brewster's angle on a bare interface. *)
Theorem C122_coating pinv eig s w nt th f nb n d r : let kx := (nt * sin th)%coqR in eigen_oracle eig -> physical s ->
  film_setup s nt th f nb [:: glass n d] -> w <> 0%coqR -> (kx * kx < nb * nb)%coqR -> (kx * kx < n * n)%coqR -> quarter_wave w kx n d ->
  t_solves_films pinv eig s w f [:: glass n d] r ->
  ((tilted false n kx * tilted false n kx = tilted false nt kx * tilted false nb kx)%coqR -> only_zeroth 0%coqR 1%coqR (res_te_inc r)) /\
  ((tilted true n kx * tilted true n kx = tilted true nt kx * tilted true nb kx)%coqR -> only_zeroth 0%coqR 1%coqR (res_tm_inc r)).
Proof.
move=> kx he hp hs hw hb hn qn hr; have [r0 h0 [_ h2 h3]] := torch_twin hp hs hr.
have [a b] := C120_coating he (setup_psi (- f) hs) hw hb hn qn h0.
by split=> e; [exact: only_same h2 (a e)|exact: only_same h3 (b e)].
Qed.
Print Assumptions C122_coating.

Theorem C122_brewster pinv eig s w nt th f nb tb r : eigen_oracle eig -> physical s -> film_setup s nt th f nb [::] -> w <> 0%coqR ->
  (0 < nb)%coqR -> (0 <= tb < PI / 2)%coqR -> (nt * sin th = nb * sin tb)%coqR -> (th + tb = PI / 2)%coqR ->
  t_solves_films pinv eig s w f [::] r ->
  only_zeroth 0%coqR 1%coqR (res_tm_inc r) /\
  forall i, de_ri (res r) i = (if (i : nat) == ((ff_y s * ff_x s) %/ 2)%N
    then sin f ^ 2 * ((nt * nt - nb * nb) / (nt * nt + nb * nb)) ^ 2 else 0)%coqR.
Proof.
move=> he hp hs hw hb htb snell hq hr; have [_ h2 h3] := C122_films he hp hs hr.
have [e1 e2 e3] := brewster_facts hw (fs_nt0 hs) (fs_th0 hs) hb htb snell hq.
rewrite e1 e2 in h2; split=> // i.
by have [-> _] := h3 i; rewrite e1 e3 Rmult_0_r Rplus_0_r.
Qed.
Print Assumptions C122_brewster.

(** ** Examples *)

(** Index 3 onto index [nb] at azimuth 90 degrees, any number of transparent films, the conical PyTorch solver. *)
Lemma t_at_returns pinv nb ps pl films : (0 < nb)%coqR -> clear_films (5 / 4) films -> exists r,
  t_solves_films pinv eig_ex (s_at nb ps pl films) 1 ps films r.
Proof.
move=> hb c; have [r0 [_ [i e]]] := at_conical (- ps) pl c hb pinv.
have [r' e' _] := C62_torch_conical (s := s_at nb ps pl films) (at_physical nb ps pl films) erefl erefl erefl e.
by exists r'; right; exists r0, i, i.
Qed.
Example C122_films_ex pinv nb ps pl films : (0 < nb)%coqR -> clear_films (5 / 4) films -> let s := s_at nb ps pl films in
  [/\ physical s, film_setup s 3 th_ex ps nb films & exists r, t_solves_films pinv eig_ex s 1 ps films r].
Proof. by move=> hb c s; split; [exact: at_physical|exact: at_setup|exact: t_at_returns]. Qed.

Example C122_films_1d_ex pinv nb films : (0 < nb)%coqR -> clear_films (5 / 4) films -> let s := s_slant nb films in
  [/\ physical s, classical_films s false 3 th_ex nb films & exists r, t_solves_films_1d pinv eig_ex s 1 films r].
Proof.
move=> hb c s.
have hp : physical s.
  by split=> //=; try lra; [exists 3%coqR => //; lra|by exists th_ex => //; exact: th_ex_bound].
split=> //; first exact: slant_setup.
have [r [T1 [i e]]] := slant_returns pinv hb c.
have hr : is_real (n_bot s) by exists nb.
have [r' e' _] := C33_torch_1d hp hr e.
by exists r'; split; [exists r, T1, i|exists T1, i].
Qed.

Example C122_half_wave_ex pinv ps pl f1 f2 (m : nat) : clear_films (5 / 4) f1 -> clear_films (5 / 4) f2 ->
  let d := (INR m / (2 * sqrt 3))%coqR in exists r r',
  [/\ t_solves_films pinv eig_ex (s_mir ps pl (f1 ++ glass 2 d :: f2)) 1 ps (f1 ++ glass 2 d :: f2) r,
      t_solves_films pinv eig_ex (s_mir ps pl (f1 ++ f2)) 1 ps (f1 ++ f2) r' & same_zeroth (res r) (res r')].
Proof.
move=> h1 h2 d; have [s0 s3] := sqrt_pos_ex (x := 3) ltac:(lra).
have hd : (0 <= d)%coqR by apply: Rmult_le_pos; [exact: pos_INR|apply: Rlt_le; apply: Rinv_0_lt_compat; lra].
have c1 : clear_films (5 / 4) (f1 ++ glass 2 d :: f2).
  by apply: clear_cat => //; rewrite -cat1s; apply: clear_cat => //; apply: clear_glass => //; lra.
have c2 : clear_films (5 / 4) (f1 ++ f2) by exact: clear_cat.
have hh : half_wave 1 (3 * sin th_ex) 2 d.
  exists (Z.of_nat m); rewrite kx_mir /normal_k -INR_IZR_INZ (_ : (2 * 2 - 1 * 1 = 3)%coqR); last by ring.
  by rewrite /d; field; lra.
have b2 : (0 < 2)%coqR by lra.
have [r hr] := t_at_returns pinv ps pl b2 c1; have [r' hr'] := t_at_returns pinv ps pl b2 c2.
exists r, r'; split=> //.
have hn : (3 * sin th_ex * (3 * sin th_ex) < 2 * 2)%coqR by rewrite kx_mir; lra.
have w1 : (1 <> 0)%coqR by lra.
by have [] := C122_half_wave eig_ex_ok eig_ex_ok (at_physical _ _ _ _) (at_physical _ _ _ _) (mir_setup ps pl c1) (mir_setup ps pl c2) w1 hn hh hr hr'.
Qed.

Example C122_mirror_ex pinv ps pl N : let films := pairs 3 (/ (4 * sqrt 8)) 2 (/ (4 * sqrt 3)) N in exists r,
  t_solves_films pinv eig_ex (s_mir ps pl films) 1 ps films r /\
  zeroth_report ps (fun tm => mirror_R tm 3 3 2 2 1 N) (fun tm => 1 - mirror_R tm 3 3 2 2 1 N)%coqR r.
Proof.
move=> films; have [s0 s3] := sqrt_pos_ex (x := 3) ltac:(lra); have [e0 s8] := sqrt_pos_ex (x := 8) ltac:(lra).
have c : clear_films (5 / 4) films.
  by apply: clear_pairs; try lra; apply: Rlt_le; apply: Rinv_0_lt_compat; lra.
have b2 : (0 < 2)%coqR by lra.
have [r hr] := t_at_returns pinv ps pl b2 c; exists r; split=> //.
have k3 : normal_k 3 1 = sqrt 8 by congr sqrt; ring.
have k2 : normal_k 2 1 = sqrt 3 by congr sqrt; ring.
have q3 : quarter_wave 1 (3 * sin th_ex) 3 (/ (4 * sqrt 8)) by exists 0%Z; rewrite kx_mir k3; field; lra.
have q2 : quarter_wave 1 (3 * sin th_ex) 2 (/ (4 * sqrt 3)) by exists 0%Z; rewrite kx_mir k2; field; lra.
have w1 : (1 <> 0)%coqR by lra.
have := C122_mirror eig_ex_ok (at_physical _ _ _ _) (mir_setup ps pl c) w1 _ _ _ q3 q2 hr; rewrite kx_mir; apply; lra.
Qed.

Example C122_total_reflection_ex pinv nb ps pl films : (0 < nb < 1)%coqR -> clear_films (5 / 4) films -> exists r,
  t_solves_films pinv eig_ex (s_at nb ps pl films) 1 ps films r /\ only_zeroth 1%coqR 0%coqR (res r).
Proof.
move=> [b0 b1] c; have [r hr] := t_at_returns pinv ps pl b0 c; exists r; split=> //.
have hb : (nb * nb < 3 * sin th_ex * (3 * sin th_ex))%coqR by rewrite kx_mir; nra.
by have [] := C122_total_reflection eig_ex_ok (at_physical _ _ _ _) (at_setup _ ps pl c) hb (clear_apart c) hr.
Qed.

Example C122_coating_ex pinv ps pl : let n := sqrt (1 + sqrt 24) in let films := [:: glass n (/ (4 * sqrt (sqrt 24)))%coqR] in exists r,
  t_solves_films pinv eig_ex (s_mir ps pl films) 1 ps films r /\ only_zeroth 0%coqR 1%coqR (res_te_inc r).
Proof.
move=> n films; have [a0 a1] := sqrt_pos_ex (x := 24) ltac:(lra); have [b0 b1] := sqrt_pos_ex a0.
have [n0 n1] := sqrt_pos_ex (x := (1 + sqrt 24)%coqR) ltac:(lra); rewrite -/n in n0 n1.
have a2 : (1 < sqrt 24)%coqR by rewrite -sqrt_1; apply: sqrt_lt_1; lra.
have c : clear_films (5 / 4) films by apply: clear_glass; rewrite ?n1; [lra|apply: Rlt_le; apply: Rinv_0_lt_compat; lra].
have b2 : (0 < 2)%coqR by lra.
have [r hr] := t_at_returns pinv ps pl b2 c; exists r; split=> //.
have k1 : normal_k n 1 = sqrt (sqrt 24) by rewrite /normal_k n1; congr sqrt; ring.
have q : quarter_wave 1 (3 * sin th_ex) n (/ (4 * sqrt (sqrt 24))) by exists 0%Z; rewrite kx_mir k1; field; lra.
have w1 : (1 <> 0)%coqR by lra.
have [] := C122_coating eig_ex_ok (at_physical _ _ _ _) (mir_setup ps pl c) w1 _ _ q hr; rewrite kx_mir ?n1; try lra.
move=> h _; apply: h; rewrite /tilted k1 b1 /normal_k -sqrt_mult; try lra.
by congr sqrt; ring.
Qed.

Example C122_brewster_ex pinv ps pl : exists r, t_solves_films pinv eig_ex (s_at nb_brew ps pl [::]) 1 ps [::] r /\
  only_zeroth 0%coqR 1%coqR (res_tm_inc r).
Proof.
have [b0 tb snell sum] := brew_ex; have c : clear_films (5 / 4) [::] by move=> ed [].
have [r hr] := t_at_returns pinv ps pl b0 c; exists r; split=> //.
have w1 : (1 <> 0)%coqR by lra.
by have [] := C122_brewster eig_ex_ok (at_physical _ _ _ _) (at_setup _ ps pl c) w1 b0 tb snell sum hr.
Qed.
