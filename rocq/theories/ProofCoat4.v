(** Total reflection from stacks of films; Brewster's angle. *)
From Coq Require Import Reals ZArith Lra Lia Psatz.
From mathcomp Require Import all_ssreflect ssralg matrix.
From Coquelicot Require Import Complex.
From Verif Require Import Cplx Mx ModelTM Spec SpecSolve SpecFilm SpecFilm2D SpecCoat ProofSetup ProofEnergy1D ProofEff ProofFilm ProofFilmSolve ProofSubstrate
  ProofNormal ProofFilm2D ProofCoat ProofCoat2 ProofCoat3.

Set Implicit Arguments.
Unset Strict Implicit.
Unset Printing Implicit Defensive.
Local Open Scope ring_scope.
Import GRing.Theory.

Lemma real_add a b : is_real a -> is_real b -> is_real (a + b).
Proof. by move=> [x ->] [y ->]; exists (x + y)%coqR; rewrite RtoC_add. Qed.
Lemma real_mul a b : is_real a -> is_real b -> is_real (a * b).
Proof. by move=> [x ->] [y ->]; exists (x * y)%coqR; rewrite RtoC_mul. Qed.
Lemma real_neg a : is_real a -> is_real (- a).
Proof. by move=> [x ->]; exists (- x)%coqR; rewrite RtoC_opp. Qed.
Lemma real_inv a : is_real a -> is_real a^-1.
Proof.
move=> [x ->]; case: (Req_EM_T x 0) => [->|h]; first by exists 0%coqR; rewrite -[RtoC 0]/(0 : C) invr0.
by exists (/ x)%coqR; rewrite RtoC_inv.
Qed.
Lemma real_two : is_real (2%:R : C).
Proof. by exists 2%coqR; cext. Qed.
Lemma real_exp a : is_real a -> is_real (cexp a).
Proof. by move=> [x ->]; exists (exp x); rewrite cexp_real. Qed.
Lemma real_cosh a : is_real a -> is_real (ccosh a).
Proof. by move=> h; apply: real_mul; [apply: real_add; apply: real_exp => //; exact: real_neg|exact: real_inv real_two]. Qed.
Lemma real_sinh a : is_real a -> is_real (csinh a).
Proof. by move=> h; apply: real_mul; [apply: real_add; [|apply: real_neg]; apply: real_exp => //; exact: real_neg|exact: real_inv real_two]. Qed.

Definition real_pair (EH : C * C) : Prop := is_real EH.1 /\ is_real EH.2.

Lemma film_real tm k0 kx (e d : R) EH : (kx * kx <> e)%coqR -> real_pair EH -> real_pair (film tm k0 (RtoC kx) (RtoC e, d) EH).
Proof.
move=> hne [h1 h2]; case: (Rlt_dec (kx * kx) e) => h.
  have [s0 s1] : (0 <= sqrt e /\ sqrt e * sqrt e = e)%coqR by split; [exact: sqrt_pos|apply: sqrt_sqrt; nra].
  have -> : (RtoC e, d) = glass (sqrt e) d by rewrite /glass s1.
  rewrite film_glass ?s1 //; have r (x : R) : is_real (RtoC x) by exists x.
  by split=> /=; apply: real_add; apply: real_mul => //; try (apply: real_neg); exact: r.
rewrite /film /= expr2 -RtoC_mul -RtoC_sub csqrt_nonneg; last lra.
have r (x : R) : is_real (RtoC x) by exists x.
set q := RtoC (sqrt _); have hq : is_real (admittance tm (RtoC e) q) by rewrite /admittance; case: (tm); [apply: real_mul; [exact: r|apply: real_inv; exact: r]|exact: r].
have hph : is_real (RtoC k0 * q * RtoC d) by apply: real_mul; [apply: real_mul|]; exact: r.
by split=> /=; apply: real_add; apply: real_mul => //; try (exact: real_cosh); apply: real_mul => //; try (exact: real_sinh); exact: real_inv.
Qed.

Lemma tir_end tm w nt th nb films : (0 < nt)%coqR -> (0 <= th < PI / 2)%coqR -> (nb * nb < nt * sin th * (nt * sin th))%coqR ->
  (forall ed, List.In ed films -> exists2 e, ed.1 = RtoC e & (nt * sin th * (nt * sin th) <> e)%coqR) ->
  incident_y tm nt th * (film_pair tm w nt th nb films).1 + (film_pair tm w nt th nb films).2 != 0 ->
  film_R0 tm w nt th nb films = 1%coqR /\ film_T0 tm w nt th nb films = 0%coqR.
Proof.
move=> h0 h2 hb hf; have y0 : (0 < tilted tm nt (nt * sin th))%coqR by apply: tilted_gt0; exact: below.
rewrite /film_R0 /film_T0 /film_r0 /film_t0 incident_tilted //.
have hs : is_real (half_space tm nb (nt * sin th)).
  rewrite /half_space /kz_lossless; case: Rle_dec => h; first lra.
  rewrite mulrN mulrA ci2 mulN1r opprK /admittance; have r (x : R) : is_real (RtoC x) by exists x.
  by case: (tm); [apply: real_mul; [exact: r|apply: real_inv; exact: r]|exact: r].
have [[E eE] [H eH]] : real_pair (film_pair tm w nt th nb films).
  rewrite /film_pair /film_stack; elim: films hf => [|[e d] fs IH] hf; first by split=> //; exists 1%coqR.
  have [e' /= -> he] := hf (e, d) (or_introl erefl).
  by apply: film_real => //; apply: IH => ed h; apply: hf; right.
rewrite /film_r /film_t eE eH; case: hs => z ->; set y := tilted _ _ _ in y0 *.
move=> hne.
have num : ci * RtoC y * RtoC E - RtoC H = - conj (ci * RtoC y * RtoC E + RtoC H) by cext.
split; last first.
  have -> : Re (RtoC z / (ci * RtoC y)) = 0%coqR; last by ring.
  have -> : RtoC z / (ci * RtoC y) = ci * RtoC (- (z / y)).
    rewrite RtoC_opp /Rdiv RtoC_mul RtoC_inv; last lra.
    rewrite invfM; have -> : ci^-1 = - ci by apply: (mulfI ci_neq0); rewrite divff ?ci_neq0 // mulrN ci2 opprK.
    by move: (RtoC z) (RtoC y)^-1 => a b; cring.
  by cunf; ring.
rewrite num.
have nm (a b : C) : nrm2 (a * b) = (nrm2 a * nrm2 b)%coqR by cunf; ring.
set D := ci * RtoC y * RtoC E + RtoC H in hne *.
have hi : (nrm2 D^-1 * nrm2 D = 1)%coqR by rewrite -nm mulVf //; cunf; ring.
have hc : nrm2 (conj D) = nrm2 D by cunf; ring.
by rewrite nm nrm2_opp hc Rmult_comm.
Qed.

(** Brewster's angle. *)
Lemma brewster_end w nt th nb tb : (0 < nt)%coqR -> (0 <= th < PI / 2)%coqR -> (0 < nb)%coqR -> (0 <= tb < PI / 2)%coqR ->
  (nt * sin th = nb * sin tb)%coqR -> (nb * cos th = nt * cos tb)%coqR ->
  film_r0 true w nt th nb [::] = 0.
Proof.
move=> h0 h2 hb htb snell hB; have [-> _] := film_fresnel true w h0 h2 hb htb snell.
by rewrite /fresnel_r hB /Rdiv (_ : (nt * cos tb - nt * cos tb = 0)%coqR) ?Rmult_0_l //; ring.
Qed.
