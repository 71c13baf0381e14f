(** C120: half-wave layers, quarter-wave mirrors and coatings, in the three solvers. *)
From Coq Require Import Reals ZArith Lra Psatz.
From mathcomp Require Import all_ssreflect ssralg matrix.
From Coquelicot Require Import Complex.
From Verif Require Import Cplx Mx ModelTM Spec SpecSolve SpecFilm SpecFilm2D SpecCoat ProofSetup ProofEnergy1D ProofFilm ProofFilmSolve ProofFilm2D ProofNormal ProofCoat ProofCoat2 ProofCoat3
  ExampleKit ProofTorchObjEx ProofFilm2DEx ProofCoatEx PropertiesFilm2D.

Set Implicit Arguments.
Unset Strict Implicit.
Unset Printing Implicit Defensive.
Local Open Scope ring_scope.
Import GRing.Theory.

Lemma films_report pinv eig s w nt th f nb films r : eigen_oracle eig -> film_setup s nt th f nb films ->
  solves_films pinv eig s w films r ->
  zeroth_report f (fun tm => film_R0 tm w nt th nb films) (fun tm => film_T0 tm w nt th nb films) r.
Proof.
move=> he hs hr.
have [[_ _ _ _ h1] [_ _ _ _ h2] h3] : film_answer f w nt th nb films r.
  by case: hr => -[i e]; [exact: C111_films_2d he hs e|exact: C111_films_conical he hs e].
by split.
Qed.
Lemma films_report_1d pinv eig s tm w nt th nb films r : eigen_oracle eig -> classical_films s tm nt th nb films ->
  solves_films_1d pinv eig s w films r -> only_zeroth (film_R0 tm w nt th nb films) (film_T0 tm w nt th nb films) r.
Proof.
move=> he [h1 h2 h3 h4 h5 h6 h7 h8 h9] [T1 [infos e]] i.
have -> : (ff_x s %/ 2)%N = fto_x s by rewrite /ff_x divn2 /= uphalf_double.
have := film_eff_1d he h1 h2 h3 h4 h5 h6 h7 h8 e i; rewrite /= h9.
by have -> : is_tm (if tm then 1 else 0)%coqR = tm by rewrite /is_tm; case: (tm); case: Req_EM_T => [h|h] //; exfalso; lra.
Qed.

Lemma zeroth_ext n f rho rho' tau tau' (r : sp_result n) : (forall tm, rho tm = rho' tm) -> (forall tm, tau tm = tau' tm) ->
  zeroth_report f rho tau r -> zeroth_report f rho' tau' r.
Proof. by move=> h1 h2 []; rewrite !h1 !h2. Qed.
Lemma zeroth_same n m rho tau (d : diffraction n) (d' : diffraction m) : only_zeroth rho tau d -> only_zeroth rho tau d' -> same_zeroth d d'.
Proof.
move=> h h' i j; have [-> ->] := h i; have [-> ->] := h' j; split; first by move=> -> ->; rewrite !eqxx.
by split; case: eqP.
Qed.

(** A layer whose phase thickness is a multiple of half a turn might as well not be there, wherever it is in the stack and whatever
    the other films are. *)
Theorem C120_half_wave pinv eig pinv' eig' s s' w nt th f nb f1 n d f2 r r' : eigen_oracle eig -> eigen_oracle eig' ->
  film_setup s nt th f nb (f1 ++ glass n d :: f2) -> film_setup s' nt th f nb (f1 ++ f2) ->
  w <> 0%coqR -> (nt * sin th * (nt * sin th) < n * n)%coqR -> half_wave w (nt * sin th) n d ->
  solves_films pinv eig s w (f1 ++ glass n d :: f2) r -> solves_films pinv' eig' s' w (f1 ++ f2) r' ->
  [/\ same_zeroth (res r) (res r'), same_zeroth (res_te_inc r) (res_te_inc r') & same_zeroth (res_tm_inc r) (res_tm_inc r')].
Proof.
move=> he he' hs hs' hw hn hh hr hr'; have h' := films_report he' hs' hr'.
have h := films_report he hs hr.
have {h} : zeroth_report f (fun tm => film_R0 tm w nt th nb (f1 ++ f2)) (fun tm => film_T0 tm w nt th nb (f1 ++ f2)) r.
  by apply: zeroth_ext h => tm; have [_ e1 e2] := half_absent tm nb f1 f2 hw hn hh.
by case: h' => a' b' c' [a b c]; split; [exact: zeroth_same c c'|exact: zeroth_same a a'|exact: zeroth_same b b'].
Qed.
Print Assumptions C120_half_wave.

Theorem C120_half_wave_1d pinv eig pinv' eig' s s' tm w nt th nb f1 n d f2 r r' : eigen_oracle eig -> eigen_oracle eig' ->
  classical_films s tm nt th nb (f1 ++ glass n d :: f2) -> classical_films s' tm nt th nb (f1 ++ f2) ->
  w <> 0%coqR -> (nt * sin th * (nt * sin th) < n * n)%coqR -> half_wave w (nt * sin th) n d ->
  solves_films_1d pinv eig s w (f1 ++ glass n d :: f2) r -> solves_films_1d pinv' eig' s' w (f1 ++ f2) r' -> same_zeroth r r'.
Proof.
move=> he he' hs hs' hw hn hh hr hr'; have h' := films_report_1d he' hs' hr'; have h := films_report_1d he hs hr.
by have [_ e1 e2] := half_absent tm nb f1 f2 hw hn hh; rewrite e1 e2 in h; exact: zeroth_same h h'.
Qed.
Print Assumptions C120_half_wave_1d.

(** Mirrors of [N] pairs of quarter-wave layers. *)
Theorem C120_mirror pinv eig s w nt th f nb nh dh nl dl N r : let kx := (nt * sin th)%coqR in eigen_oracle eig ->
  film_setup s nt th f nb (pairs nh dh nl dl N) -> w <> 0%coqR ->
  (kx * kx < nb * nb)%coqR -> (kx * kx < nh * nh)%coqR -> (kx * kx < nl * nl)%coqR ->
  quarter_wave w kx nh dh -> quarter_wave w kx nl dl -> solves_films pinv eig s w (pairs nh dh nl dl N) r ->
  zeroth_report f (fun tm => mirror_R tm nt nh nl nb kx N) (fun tm => 1 - mirror_R tm nt nh nl nb kx N)%coqR r.
Proof.
move=> kx he hs hw hb hh hl qh ql hr; have h := films_report he hs hr.
have h0 := fs_nt0 hs; have h2 := fs_th0 hs.
by apply: zeroth_ext h => tm; have [e1 e2] := mirror_end tm hw h0 h2 hb N hh hl qh ql.
Qed.
Print Assumptions C120_mirror.

Theorem C120_mirror_1d pinv eig s tm w nt th nb nh dh nl dl N r : let kx := (nt * sin th)%coqR in eigen_oracle eig ->
  classical_films s tm nt th nb (pairs nh dh nl dl N) -> w <> 0%coqR ->
  (kx * kx < nb * nb)%coqR -> (kx * kx < nh * nh)%coqR -> (kx * kx < nl * nl)%coqR ->
  quarter_wave w kx nh dh -> quarter_wave w kx nl dl -> solves_films_1d pinv eig s w (pairs nh dh nl dl N) r ->
  only_zeroth (mirror_R tm nt nh nl nb kx N) (1 - mirror_R tm nt nh nl nb kx N)%coqR r.
Proof.
move=> kx he hs hw hb hh hl qh ql hr; have h := films_report_1d he hs hr.
have h0 := cf_nt0 hs; have h2 := cf_th0 hs.
by have [<- <-] := mirror_end tm hw h0 h2 hb N hh hl qh ql.
Qed.
Print Assumptions C120_mirror_1d.

(** With enough pairs the mirror returns as much of the power as one likes. *)
Theorem C120_perfect tm nt nh nl nb kx : (kx * kx < nt * nt)%coqR -> (kx * kx < nb * nb)%coqR -> (kx * kx < nh * nh)%coqR ->
  (kx * kx < nl * nl)%coqR -> (tilted tm nl kx < tilted tm nh kx)%coqR ->
  forall eps, (0 < eps)%coqR -> exists N0, forall N, (N0 <= N)%N -> (1 - eps < mirror_R tm nt nh nl nb kx N)%coqR.
Proof. exact (@mirror_limit tm nt nh nl nb kx). Qed.
Print Assumptions C120_perfect.

(** One quarter-wave layer whose admittance is the geometric mean of those of its neighbours: nothing is reflected. *)
Theorem C120_coating pinv eig s w nt th f nb n d r : let kx := (nt * sin th)%coqR in eigen_oracle eig ->
  film_setup s nt th f nb [:: glass n d] -> w <> 0%coqR -> (kx * kx < nb * nb)%coqR -> (kx * kx < n * n)%coqR -> quarter_wave w kx n d ->
  solves_films pinv eig s w [:: glass n d] r ->
  ((tilted false n kx * tilted false n kx = tilted false nt kx * tilted false nb kx)%coqR -> only_zeroth 0%coqR 1%coqR (res_te_inc r)) /\
  ((tilted true n kx * tilted true n kx = tilted true nt kx * tilted true nb kx)%coqR -> only_zeroth 0%coqR 1%coqR (res_tm_inc r)).
Proof.
move=> kx he hs hw hb hn qn hr; have [h1 h3 _] := films_report he hs hr.
have h0 := fs_nt0 hs; have h2 := fs_th0 hs.
by split=> e; [have [e1 e2] := coating_end hw h0 h2 hb hn qn e; rewrite e1 e2 in h1|have [e1 e2] := coating_end hw h0 h2 hb hn qn e; rewrite e1 e2 in h3].
Qed.
Print Assumptions C120_coating.

Theorem C120_coating_1d pinv eig s tm w nt th nb n d r : let kx := (nt * sin th)%coqR in eigen_oracle eig ->
  classical_films s tm nt th nb [:: glass n d] -> w <> 0%coqR -> (kx * kx < nb * nb)%coqR -> (kx * kx < n * n)%coqR -> quarter_wave w kx n d ->
  (tilted tm n kx * tilted tm n kx = tilted tm nt kx * tilted tm nb kx)%coqR ->
  solves_films_1d pinv eig s w [:: glass n d] r -> only_zeroth 0%coqR 1%coqR r.
Proof.
move=> kx he hs hw hb hn qn e hr; have h := films_report_1d he hs hr.
have h0 := cf_nt0 hs; have h2 := cf_th0 hs.
by have [e1 e2] := coating_end hw h0 h2 hb hn qn e; rewrite e1 e2 in h.
Qed.
Print Assumptions C120_coating_1d.

(** ** Examples *)
Lemma kx_mir : (3 * sin th_ex = 1)%coqR.
Proof. by rewrite sin_th_ex; field. Qed.
Lemma sqrt_pos_ex x : (0 < x)%coqR -> (0 < sqrt x /\ sqrt x * sqrt x = x)%coqR.
Proof. by move=> h; split; [exact: sqrt_lt_R0|apply: sqrt_sqrt; lra]. Qed.
Lemma clear_glass lo n d : (lo < n * n)%coqR -> (0 <= d)%coqR -> clear_films lo [:: glass n d].
Proof. by move=> h1 h2 ed /= [<-|//]; split=> //; exists (n * n)%coqR. Qed.
Lemma clear_cat lo a b : clear_films lo a -> clear_films lo b -> clear_films lo (a ++ b).
Proof. by move=> ha hb ed /(@List.in_app_or _ a b) [/ha|/hb]. Qed.
Lemma clear_pairs lo nh dh nl dl N : (lo < nh * nh)%coqR -> (lo < nl * nl)%coqR -> (0 <= dh)%coqR -> (0 <= dl)%coqR ->
  clear_films lo (pairs nh dh nl dl N).
Proof.
move=> h1 h2 h3 h4; rewrite /pairs; elim: N => [|N IH]; first by move=> ed [].
by move=> ed /= [<-|[<-|/IH]] //; split=> //; [exists (nh * nh)%coqR|exists (nl * nl)%coqR].
Qed.

(** Index 3 to index 2 at azimuth 90 degrees: a film of index 2, a multiple of half a wave thick, anywhere between any number of
    other transparent films; one result from the 2D solver, the other from the conical one. *)
Example C120_half_wave_ex pinv ps pl f1 f2 (m : nat) : clear_films (5 / 4) f1 -> clear_films (5 / 4) f2 ->
  let d := (INR m / (2 * sqrt 3))%coqR in exists r r',
  [/\ half_wave 1 (3 * sin th_ex) 2 d, solves_films pinv eig_ex (s_mir ps pl (f1 ++ glass 2 d :: f2)) 1 (f1 ++ glass 2 d :: f2) r,
      solves_films pinv eig_ex (s_mir ps pl (f1 ++ f2)) 1 (f1 ++ f2) r' & same_zeroth (res r) (res r')].
Proof.
move=> h1 h2 d; have [s0 s3] := sqrt_pos_ex (x := 3) ltac:(lra).
have hd : (0 <= d)%coqR by apply: Rmult_le_pos; [exact: pos_INR|apply: Rlt_le; apply: Rinv_0_lt_compat; lra].
have c1 : clear_films (5 / 4) (f1 ++ glass 2 d :: f2).
  by apply: clear_cat => //; rewrite -cat1s; apply: clear_cat => //; apply: clear_glass => //; lra.
have c2 : clear_films (5 / 4) (f1 ++ f2) by exact: clear_cat.
have hh : half_wave 1 (3 * sin th_ex) 2 d.
  exists (Z.of_nat m); rewrite kx_mir /normal_k -INR_IZR_INZ (_ : (2 * 2 - 1 * 1 = 3)%coqR); last by ring.
  by rewrite /d; field; lra.
have [r hr] := mir_2d ps pl c1 pinv; have [r' [hr' _]] := mir_conical ps pl c2 pinv.
exists r, r'; split=> //.
have hn : (3 * sin th_ex * (3 * sin th_ex) < 2 * 2)%coqR by rewrite kx_mir; lra.
have w1 : (1 <> 0)%coqR by lra.
by have [] := C120_half_wave eig_ex_ok eig_ex_ok (mir_setup ps pl c1) (mir_setup ps pl c2) w1 hn hh hr hr'.
Qed.

Example C120_half_wave_1d_ex pinv nb f1 f2 (m : nat) : (0 < nb)%coqR -> clear_films 0 f1 -> clear_films 0 f2 ->
  let d := (INR m / 4)%coqR in exists r r',
  [/\ solves_films_1d pinv eig_ex (s_flat nb (f1 ++ glass 2 d :: f2)) 1 (f1 ++ glass 2 d :: f2) r,
      solves_films_1d pinv eig_ex (s_flat nb (f1 ++ f2)) 1 (f1 ++ f2) r' & same_zeroth r r'].
Proof.
move=> hb h1 h2 d.
have hd : (0 <= d)%coqR by apply: Rmult_le_pos; [exact: pos_INR|lra].
have c1 : clear_films 0 (f1 ++ glass 2 d :: f2).
  by apply: clear_cat => //; rewrite -cat1s; apply: clear_cat => //; apply: clear_glass => //; lra.
have c2 : clear_films 0 (f1 ++ f2) by exact: clear_cat.
have s0 : (1 * sin 0 = 0)%coqR by rewrite sin_0; ring.
have k2 : normal_k 2 0 = 2%coqR by rewrite /normal_k Rmult_0_l Rminus_0_r sqrt_square; lra.
have hh : half_wave 1 (1 * sin 0) 2 d.
  by exists (Z.of_nat m); rewrite s0 k2 -INR_IZR_INZ /d; field.
have [r hr] := flat_returns pinv hb c1; have [r' hr'] := flat_returns pinv hb c2.
exists r, r'; split=> //.
have hn : (1 * sin 0 * (1 * sin 0) < 2 * 2)%coqR by rewrite s0; lra.
have w1 : (1 <> 0)%coqR by lra.
exact: (C120_half_wave_1d eig_ex_ok eig_ex_ok (flat_setup _ hb) (flat_setup _ hb) w1 hn hh hr hr').
Qed.

(** N pairs of indices 3 and 2, from index 3 to index 2, lit obliquely. *)
Example C120_mirror_ex pinv ps pl N : let films := pairs 3 (/ (4 * sqrt 8)) 2 (/ (4 * sqrt 3)) N in exists r,
  solves_films pinv eig_ex (s_mir ps pl films) 1 films r /\
  zeroth_report ps (fun tm => mirror_R tm 3 3 2 2 1 N) (fun tm => 1 - mirror_R tm 3 3 2 2 1 N)%coqR r.
Proof.
move=> films; have [s0 s3] := sqrt_pos_ex (x := 3) ltac:(lra); have [e0 s8] := sqrt_pos_ex (x := 8) ltac:(lra).
have c : clear_films (5 / 4) films.
  by apply: clear_pairs; try lra; apply: Rlt_le; apply: Rinv_0_lt_compat; lra.
have [r hr] := mir_2d ps pl c pinv; exists r; split=> //.
have k3 : normal_k 3 1 = sqrt 8 by congr sqrt; ring.
have k2 : normal_k 2 1 = sqrt 3 by congr sqrt; ring.
have q3 : quarter_wave 1 (3 * sin th_ex) 3 (/ (4 * sqrt 8)) by exists 0%Z; rewrite kx_mir k3; field; lra.
have q2 : quarter_wave 1 (3 * sin th_ex) 2 (/ (4 * sqrt 3)) by exists 0%Z; rewrite kx_mir k2; field; lra.
have w1 : (1 <> 0)%coqR by lra.
have := C120_mirror eig_ex_ok (mir_setup ps pl c) w1 _ _ _ q3 q2 hr; rewrite kx_mir; apply; lra.
Qed.

(** From air at normal incidence: quarter-wave pairs of indices 3 and 2 on index 4. *)
Example C120_mirror_1d_ex pinv N : let films := pairs 3 (1 / 12)%coqR 2 (1 / 8)%coqR N in exists r,
  solves_films_1d pinv eig_ex (s_flat 4 films) 1 films r /\
  only_zeroth (((2 ^ (2 * N) - 4 * 3 ^ (2 * N)) / (2 ^ (2 * N) + 4 * 3 ^ (2 * N))) ^ 2)%coqR
    (1 - ((2 ^ (2 * N) - 4 * 3 ^ (2 * N)) / (2 ^ (2 * N) + 4 * 3 ^ (2 * N))) ^ 2)%coqR r.
Proof.
move=> films; have c : clear_films 0 films by apply: clear_pairs; lra.
have hb : (0 < 4)%coqR by lra.
have [r hr] := flat_returns pinv hb c; exists r; split=> //.
have s0 : (1 * sin 0 = 0)%coqR by rewrite sin_0; ring.
have k n : (0 <= n)%coqR -> normal_k n 0 = n by move=> hn; rewrite /normal_k Rmult_0_l Rminus_0_r sqrt_square.
have q3 : quarter_wave 1 (1 * sin 0) 3 (1 / 12) by exists 0%Z; rewrite s0 k; lra.
have q2 : quarter_wave 1 (1 * sin 0) 2 (1 / 8) by exists 0%Z; rewrite s0 k; lra.
have w1 : (1 <> 0)%coqR by lra.
have := C120_mirror_1d eig_ex_ok (flat_setup _ hb) w1 _ _ _ q3 q2 hr; rewrite s0 /mirror_R /tilted !k; try lra.
by rewrite Rmult_1_l; apply; lra.
Qed.

Example C120_perfect_ex : forall eps, (0 < eps)%coqR -> exists N0, forall N, (N0 <= N)%N -> (1 - eps < mirror_R false 3 3 2 2 1 N)%coqR.
Proof. by apply: C120_perfect; try lra; rewrite /tilted /normal_k; apply: sqrt_lt_1; lra. Qed.

(** A film of index 2 between air and index 4. *)
Example C120_coating_1d_ex pinv (m : nat) : let films := [:: glass 2 ((2 * INR m + 1) / 8)%coqR] in exists r,
  solves_films_1d pinv eig_ex (s_flat 4 films) 1 films r /\ only_zeroth 0%coqR 1%coqR r.
Proof.
move=> films; have m0 := pos_INR m; have c : clear_films 0 films by apply: clear_glass; lra.
have hb : (0 < 4)%coqR by lra.
have [r hr] := flat_returns pinv hb c; exists r; split=> //.
have s0 : (1 * sin 0 = 0)%coqR by rewrite sin_0; ring.
have k n : (0 <= n)%coqR -> normal_k n 0 = n by move=> hn; rewrite /normal_k Rmult_0_l Rminus_0_r sqrt_square.
have q2 : quarter_wave 1 (1 * sin 0) 2 ((2 * INR m + 1) / 8) by exists (Z.of_nat m); rewrite s0 k -?INR_IZR_INZ; lra.
have w1 : (1 <> 0)%coqR by lra.
apply: (C120_coating_1d eig_ex_ok (flat_setup _ hb) w1 _ _ q2 _ hr); rewrite s0 /tilted ?k; lra.
Qed.

(** Oblique, azimuth 90 degrees: the film whose normal wave number is the geometric mean stops the reflection of TE light. *)
Example C120_coating_ex pinv ps pl : let n := sqrt (1 + sqrt 24) in let films := [:: glass n (/ (4 * sqrt (sqrt 24)))%coqR] in exists r,
  solves_films pinv eig_ex (s_mir ps pl films) 1 films r /\ only_zeroth 0%coqR 1%coqR (res_te_inc r).
Proof.
move=> n films; have [a0 a1] := sqrt_pos_ex (x := 24) ltac:(lra); have [b0 b1] := sqrt_pos_ex a0.
have [n0 n1] := sqrt_pos_ex (x := (1 + sqrt 24)%coqR) ltac:(lra); rewrite -/n in n0 n1.
have a2 : (1 < sqrt 24)%coqR by rewrite -sqrt_1; apply: sqrt_lt_1; lra.
have c : clear_films (5 / 4) films by apply: clear_glass; rewrite ?n1; [lra|apply: Rlt_le; apply: Rinv_0_lt_compat; lra].
have [r hr] := mir_2d ps pl c pinv; exists r; split=> //.
have k1 : normal_k n 1 = sqrt (sqrt 24) by rewrite /normal_k n1; congr sqrt; ring.
have q : quarter_wave 1 (3 * sin th_ex) n (/ (4 * sqrt (sqrt 24))) by exists 0%Z; rewrite kx_mir k1; field; lra.
have w1 : (1 <> 0)%coqR by lra.
have [] := C120_coating eig_ex_ok (mir_setup ps pl c) w1 _ _ q hr; rewrite kx_mir ?n1; try lra.
move=> h _; apply: h; rewrite /tilted k1 b1 /normal_k -sqrt_mult; try lra.
by congr sqrt; ring.
Qed.
