(** C121: total reflection from a stack of films, and Brewster's angle, in the three solvers. *)
From Coq Require Import Reals ZArith Lra Psatz.
From mathcomp Require Import all_ssreflect ssralg matrix.
From Coquelicot Require Import Complex.
From Verif Require Import Cplx Mx ModelTM Spec SpecSolve SpecFilm SpecFilm2D SpecCoat ProofSetup ProofEnergy1D ProofFilm ProofFilmSolve ProofSubstrate ProofFilm2D ProofNormal ProofCoat ProofCoat2 ProofCoat3 ProofCoat4
  ExampleKit PropertiesFilm ProofTorchObjEx ProofFilm2DEx ProofCoatEx PropertiesFilm2D PropertiesCoat.

Set Implicit Arguments.
Unset Strict Implicit.
Unset Printing Implicit Defensive.
Local Open Scope ring_scope.
Import GRing.Theory.

(** Beyond the critical angle of the substrate everything is reflected, whatever lies in between: films of any real permittivity,
    also negative, of any thickness, none exactly at its own critical angle. *)
Theorem C121_total_reflection pinv eig s w nt th f nb films r : eigen_oracle eig -> film_setup s nt th f nb films ->
  (nb * nb < nt * sin th * (nt * sin th))%coqR ->
  (forall ed, List.In ed films -> exists2 e, ed.1 = RtoC e & (nt * sin th * (nt * sin th) <> e)%coqR) ->
  solves_films pinv eig s w films r ->
  [/\ only_zeroth 1%coqR 0%coqR (res r), only_zeroth 1%coqR 0%coqR (res_te_inc r) & only_zeroth 1%coqR 0%coqR (res_tm_inc r)].
Proof.
move=> he hs hb hf hr.
have [[d1 _ _ _ h1] [d2 _ _ _ h2] h3] : film_answer f w nt th nb films r.
  by case: hr => -[i e]; [exact: C111_films_2d he hs e|exact: C111_films_conical he hs e].
have h0 := fs_nt0 hs; have hth := fs_th0 hs.
have [a1 b1] := tir_end h0 hth hb hf d1; have [a2 b2] := tir_end h0 hth hb hf d2.
split=> i.
- have [-> ->] := h3 i; rewrite a1 a2 b1 b2; have e := sin2_cos2 f; rewrite /Rsqr in e.
  by case: eqP => _; split=> //; [rewrite !Rmult_1_r -e|]; ring.
- by have [-> ->] := h1 i; rewrite a1 b1; split=> //; case: eqP.
- by have [-> ->] := h2 i; rewrite a2 b2; split=> //; case: eqP.
Qed.
Print Assumptions C121_total_reflection.

Theorem C121_total_reflection_1d pinv eig s tm w nt th nb films r : eigen_oracle eig -> classical_films s tm nt th nb films ->
  (nb * nb < nt * sin th * (nt * sin th))%coqR ->
  (forall ed, List.In ed films -> exists2 e, ed.1 = RtoC e & (nt * sin th * (nt * sin th) <> e)%coqR) ->
  solves_films_1d pinv eig s w films r -> only_zeroth 1%coqR 0%coqR r.
Proof.
move=> he hs hb hf hr; have h := films_report_1d he hs hr.
have h0 := cf_nt0 hs; have hth := cf_th0 hs.
have d : incident_y tm nt th * (film_pair tm w nt th nb films).1 + (film_pair tm w nt th nb films).2 != 0.
  case: hr => T1 [infos e].
  have [_ _ _ dn _] := film_amplitudes he (cf_nt hs) h0 (cf_th hs) hth (cf_phi hs) (cf_nb hs) (cf_d hs) e.
  move: dn; rewrite (cf_pol hs).
  by have -> : is_tm (if tm then 1 else 0)%coqR = tm by rewrite /is_tm; case: (tm); case: Req_EM_T => [g|g] //; exfalso; lra.
by have [e1 e2] := tir_end h0 hth hb hf d; rewrite e1 e2 in h.
Qed.
Print Assumptions C121_total_reflection_1d.

(** Brewster's angle: the refracted ray, at [tb] by Snell's law, perpendicular to the reflected one. *)
Lemma brewster_facts w nt th nb tb : w <> 0%coqR -> (0 < nt)%coqR -> (0 <= th < PI / 2)%coqR -> (0 < nb)%coqR -> (0 <= tb < PI / 2)%coqR ->
  (nt * sin th = nb * sin tb)%coqR -> (th + tb = PI / 2)%coqR ->
  [/\ film_R0 true w nt th nb [::] = 0%coqR, film_T0 true w nt th nb [::] = 1%coqR
    & film_R0 false w nt th nb [::] = ((nt * nt - nb * nb) / (nt * nt + nb * nb)) ^ 2]%coqR.
Proof.
move=> hw h0 h2 hb htb snell hp.
have etb : tb = (PI / 2 - th)%coqR by lra.
have sb : sin tb = cos th by rewrite etb sin_shift.
have cb : cos tb = sin th by rewrite etb cos_shift.
have ct := cos_pos_below h2; have cbp := cos_pos_below htb.
have snell' : (nt * sin th = nb * cos th)%coqR by rewrite snell sb.
have hB : (nb * cos th = nt * cos tb)%coqR by rewrite cb snell'.
have e0 := brewster_end w h0 h2 hb htb snell hB.
have R0 : film_R0 true w nt th nb [::] = 0%coqR by rewrite /film_R0 e0; cunf; ring.
have hkb : (nt * sin th * (nt * sin th) < nb * nb)%coqR.
  have u := sin2_cos2 tb; rewrite /Rsqr in u; rewrite snell.
  have cc := Rmult_lt_0_compat _ _ cbp cbp; have bb := Rmult_lt_0_compat _ _ hb hb.
  have := Rmult_lt_0_compat _ _ bb cc; nra.
have hkt : (nt * sin th * (nt * sin th) < nt * nt)%coqR by exact: below.
have kp : (0 < normal_k nt (nt * sin th))%coqR by apply: sqrt_lt_R0; lra.
have q : quarter_wave w (nt * sin th) nt (w / (4 * normal_k nt (nt * sin th))) by exists 0%Z; field; lra.
have [m1 m2] := mirror_end true hw h0 h2 hkb 0 hkt hkt q q; rewrite /= in m1 m2.
split=> //; first by rewrite m2 -m1 R0; ring.
have [f1 _] := film_fresnel false w h0 h2 hb htb snell.
rewrite /film_R0 f1 /fresnel_r cb.
have -> : sin th = (nb * cos th / nt)%coqR by rewrite -snell'; field; lra.
set x := (_ / _)%coqR; set y := ((_ / _) ^ 2)%coqR.
have -> : nrm2 (RtoC x) = (x ^ 2)%coqR by cunf; ring.
rewrite /x /y; congr (_ ^ 2)%coqR; field; split; first by nra.
have a := Rmult_lt_0_compat _ _ h0 ct; have b := Rmult_lt_0_compat _ _ hb ct; split; first lra.
by have := Rmult_lt_0_compat _ _ h0 a; have := Rmult_lt_0_compat _ _ hb b; lra.
Qed.

(** On a bare interface TM light passes unreflected, and what is reflected of any incident light is its TE part. *)
Theorem C121_brewster pinv eig s w nt th f nb tb r : eigen_oracle eig -> film_setup s nt th f nb [::] -> w <> 0%coqR -> (0 < nb)%coqR ->
  (0 <= tb < PI / 2)%coqR -> (nt * sin th = nb * sin tb)%coqR -> (th + tb = PI / 2)%coqR -> solves_films pinv eig s w [::] r ->
  let rho := (((nt * nt - nb * nb) / (nt * nt + nb * nb)) ^ 2)%coqR in
  [/\ only_zeroth 0%coqR 1%coqR (res_tm_inc r),
      forall i, de_ri (res_te_inc r) i = (if (i : nat) == ((ff_y s * ff_x s) %/ 2)%N then rho else 0)%coqR
    & forall i, de_ri (res r) i = (if (i : nat) == ((ff_y s * ff_x s) %/ 2)%N then sin f ^ 2 * rho else 0)%coqR].
Proof.
move=> he hs hw hb htb snell hp hr rho; have [h1 h2 h3] := films_report he hs hr.
have [e1 e2 e3] := brewster_facts hw (fs_nt0 hs) (fs_th0 hs) hb htb snell hp.
rewrite e1 e2 in h2; split=> // i; first by have [-> _] := h1 i; rewrite e3.
by have [-> _] := h3 i; rewrite e1 e3 Rmult_0_r Rplus_0_r.
Qed.
Print Assumptions C121_brewster.

Theorem C121_brewster_1d pinv eig s w nt th nb tb r : eigen_oracle eig -> classical_films s true nt th nb [::] -> w <> 0%coqR -> (0 < nb)%coqR ->
  (0 <= tb < PI / 2)%coqR -> (nt * sin th = nb * sin tb)%coqR -> (th + tb = PI / 2)%coqR -> solves_films_1d pinv eig s w [::] r ->
  only_zeroth 0%coqR 1%coqR r.
Proof.
move=> he hs hw hb htb snell hp hr; have h := films_report_1d he hs hr.
by have [e1 e2 _] := brewster_facts hw (cf_nt0 hs) (cf_th0 hs) hb htb snell hp; rewrite e1 e2 in h.
Qed.
Print Assumptions C121_brewster_1d.

(** ** Examples *)

(** From index 3 at transverse wave number 1, azimuth 90 degrees, onto a substrate of index below 1, through any number of films. *)
Lemma clear_apart films : clear_films (5 / 4) films ->
  forall ed, List.In ed films -> exists2 e, ed.1 = RtoC e & (3 * sin th_ex * (3 * sin th_ex) <> e)%coqR.
Proof. by move=> c ed /c [[e he e1] _]; exists e => //; rewrite kx_mir; lra. Qed.

Example C121_total_reflection_ex pinv nb ps pl films : (0 < nb < 1)%coqR -> clear_films (5 / 4) films -> exists r,
  solves_films pinv eig_ex (s_at nb ps pl films) 1 films r /\ only_zeroth 1%coqR 0%coqR (res r).
Proof.
move=> [b0 b1] c; have [r hr] := at_2d ps pl c b0 pinv; exists r; split=> //.
have hb : (nb * nb < 3 * sin th_ex * (3 * sin th_ex))%coqR by rewrite kx_mir; nra.
by have [] := C121_total_reflection eig_ex_ok (at_setup _ ps pl c) hb (clear_apart c) hr.
Qed.

Example C121_total_reflection_1d_ex pinv nb films : (0 < nb < 1)%coqR -> clear_films (5 / 4) films -> exists r,
  solves_films_1d pinv eig_ex (s_slant nb films) 1 films r /\ only_zeroth 1%coqR 0%coqR r.
Proof.
move=> [b0 b1] c; have [r hr] := slant_returns pinv b0 c; exists r; split=> //.
have hb : (nb * nb < 3 * sin th_ex * (3 * sin th_ex))%coqR by rewrite kx_mir; nra.
exact: C121_total_reflection_1d eig_ex_ok (slant_setup films b0) hb (clear_apart c) hr.
Qed.

(** The substrate for which the angle is Brewster's. *)
Definition nb_brew : R := (3 * sin th_ex / cos th_ex)%coqR.
Lemma brew_ex : [/\ 0 < nb_brew, 0 <= PI / 2 - th_ex < PI / 2, 3 * sin th_ex = nb_brew * sin (PI / 2 - th_ex)
  & th_ex + (PI / 2 - th_ex) = PI / 2]%coqR.
Proof.
have c0 := cos_pos_below th_ex_bound; have b := th_ex_bound.
have t0 : (0 < th_ex)%coqR.
  case: b => -[|e] // _; have := sin_th_ex; rewrite -e sin_0; lra.
split; [|lra| |lra]; first by rewrite /nb_brew kx_mir; apply: Rdiv_lt_0_compat; lra.
by rewrite sin_shift /nb_brew; field; lra.
Qed.

Example C121_brewster_ex pinv ps pl : exists r, [/\ solves_films pinv eig_ex (s_at nb_brew ps pl [::]) 1 [::] r,
  only_zeroth 0%coqR 1%coqR (res_tm_inc r) & nb_brew <> 3%coqR].
Proof.
have [b0 tb snell sum] := brew_ex; have c : clear_films (5 / 4) [::] by move=> ed [].
have [r [hr _]] := at_conical ps pl c b0 pinv; exists r; split=> //; last first.
  move=> e; move: snell; rewrite e sin_shift sin_th_ex => h.
  by have := sin2_cos2 th_ex; rewrite /Rsqr sin_th_ex; nra.
have w1 : (1 <> 0)%coqR by lra.
by have [] := C121_brewster eig_ex_ok (at_setup _ ps pl c) w1 b0 tb snell sum hr.
Qed.

Example C121_brewster_1d_ex pinv : let s := Setup (RtoC 3) (RtoC nb_brew) (RtoC th_ex) None (RtoC 0) 1 0 0 2 2 [::] in exists r,
  solves_films_1d pinv eig_ex s 1 [::] r /\ only_zeroth 0%coqR 1%coqR r.
Proof.
move=> s; have [b0 tb snell sum] := brew_ex; have h3 : (0 < 3)%coqR by lra. have b := th_ex_bound.
have hs : classical_films s true 3 th_ex nb_brew [::] by split=> //; lra.
have w1 : (1 <> 0)%coqR by lra.
have t1 : is_tm (pol s) = true by rewrite /is_tm /=; case: Req_EM_T.
have c0 := cos_pos_below b.
have [r [T1 [infos e]]] : exists r T1 infos, solve_1d pinv eig_ex false s 1 (map (fun ed : C * R => uniform_convs (ff_x s) ed.1) [::]) = Some (r, T1, infos).
  apply: (film_solve_some pinv eig_ex_ok (fun n f => eig_ex_splits _) (s := s) (films := [::])) => //; first by right.
  move=> i; rewrite t1 /film_stack /= mulr1.
  have kxi : kx_vector s 1 i = RtoC (3 * sin th_ex) by apply: (kx_mid 1 (s := s)) => //; case: i => -[].
  have -> : kz_1d (RtoC 3) (kx_vector s 1) i = RtoC (3 * cos th_ex) by rewrite /kz_1d kxi (kz_center h3 b).
  have -> : kz_1d (RtoC nb_brew) (kx_vector s 1) i = kz_lossless nb_brew (3 * sin th_ex) by rewrite /kz_1d kxi kz_losslessE.
  rewrite /kz_lossless.
  have kb : (3 * sin th_ex * (3 * sin th_ex) < nb_brew * nb_brew)%coqR.
    have u := sin2_cos2 th_ex; rewrite /Rsqr in u; have s3 := sin_th_ex; have n3 : (nb_brew * cos th_ex = 1)%coqR by rewrite /nb_brew kx_mir; field; lra.
    by rewrite kx_mir; nra.
  case: Rle_dec => hk; last lra.
  rewrite !expr2 -!RtoC_mul -!RtoC_inv; try nra.
  rewrite -!mulrA -!RtoC_mul -mulrDr -RtoC_add; apply: mulf_neq0; first exact: ci_neq0.
  apply/eqP => /(congr1 Re); rewrite Re_RtoC -[Re 0]/0%coqR.
  have q1 : (0 < 3 * cos th_ex * / (3 * 3))%coqR by apply: Rmult_lt_0_compat; lra.
  have q2 : (0 <= sqrt (nb_brew * nb_brew - 3 * sin th_ex * (3 * sin th_ex)) * / (nb_brew * nb_brew))%coqR.
    by apply: Rmult_le_pos; [exact: sqrt_pos|apply: Rlt_le; apply: Rinv_0_lt_compat; nra].
  by move: q1 q2 => /=; lra.
have hr : solves_films_1d pinv eig_ex s 1 [::] r by exists T1, infos.
exists r; split; [exact hr|exact (C121_brewster_1d eig_ex_ok hs w1 b0 tb snell sum hr)].
Qed.
