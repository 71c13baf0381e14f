(** Properties of unpatterned stacks (NumPy backend, 1D solver). *)
From Coq Require Import Reals Lra Psatz.
From mathcomp Require Import all_ssreflect ssralg matrix mxalgebra.
From Coquelicot Require Import Complex.
From Verif Require Import Cplx Mx ModelTM Spec SpecSolve SpecFilm ProofSetup ProofFilm ProofFilmSolve ProofSubstrate ProofNormal
  ProofEnergy1D ExampleKit.

Set Implicit Arguments.
Unset Strict Implicit.
Unset Printing Implicit Defensive.
Local Open Scope ring_scope.
Import GRing.Theory.

(** ** Inputs for the examples: films of the substrate's index, all orders propagating. *)
Lemma eig_ex_splits : splits_diagonal eig_ex.
Proof.
move=> n D; have h : diag_by (diag_mx D) (D, 1%:M) by rewrite /diag_by /= unitmx1 mulmx1 mul1mx.
by have [] := eig_ex_spec h.
Qed.

Lemma kz_prop nn x : (0 < nn)%coqR -> (x * x < nn * nn)%coqR ->
  exists2 z : R, (0 < z)%coqR & kz_lossless nn x = RtoC z.
Proof.
move=> h0 h; rewrite /kz_lossless; case: Rle_dec => h'; last lra.
by exists (sqrt (nn * nn - x * x)) => //; apply: sqrt_lt_R0; lra.
Qed.

Lemma sub_films_return pv s w films (nt th nb : R) :
  n_top s = RtoC nt -> (0 < nt)%coqR -> theta s = RtoC th -> (0 <= th < PI / 2)%coqR -> phi s = None ->
  n_bot s = RtoC nb -> (0 < nb)%coqR -> (pol s = 0%coqR \/ pol s = 1%coqR) ->
  thickness s = map snd films -> (forall ed, List.In ed films -> ed.1 = RtoC (nb * nb)) ->
  (forall i : 'I_(ff_x s), let x := order_kx nt th (fto_x s) i w (period_x s) in
     (x * x < nt * nt)%coqR /\ (x * x < nb * nb)%coqR) ->
  exists r T1 infos,
    solve_1d pv eig_ex false s w (map (fun ed => uniform_convs (ff_x s) ed.1) films) = Some (r, T1, infos).
Proof.
move=> h1 h0 h3 h2 hphi hb b0 hp ht he hx.
have hpv : phi_val s = RtoC 0 by rewrite /phi_val hphi.
have [kxE _] := kx_phys w h1 h3 h2 hpv.
have kxR i : kx_vector s w i = RtoC (order_kx nt th (fto_x s) i w (period_x s)).
  by rewrite kxE cos_0 /order_kx /order; congr RtoC; ring.
have adm tm (nn z : R) : (0 < nn)%coqR -> (0 < z)%coqR -> exists2 a : R, (0 < a)%coqR &
   admittance tm (RtoC nn ^+ 2) (ci * RtoC z) = ci * RtoC a.
  move=> nn0 z0; case: tm; last by exists z.
  exists (z / (nn * nn))%coqR; first by apply: Rdiv_lt_0_compat => //; apply: Rmult_lt_0_compat.
  by rewrite /admittance expr2 -RtoC_mul -mulrA -RtoC_div //; nra.
have ip (a : R) : (0 < a)%coqR -> ci * RtoC a != 0 by move=> a0; rewrite mulf_neq0 ?ci_neq0 //; apply: RtoC_neq0; lra.
have bot (i : 'I_(ff_x s)) tm : exists2 a : R, (0 < a)%coqR &
   admittance tm (n_bot s ^+ 2) (ci * kz_1d (n_bot s) (kx_vector s w) i) = ci * RtoC a.
  rewrite /kz_1d kxR hb kz_losslessE.
  by have [z z0 ->] := kz_prop b0 (proj2 (hx i)); apply: adm.
have top (i : 'I_(ff_x s)) tm : exists2 a : R, (0 < a)%coqR &
   admittance tm (n_top s ^+ 2) (ci * kz_1d (n_top s) (kx_vector s w) i) = ci * RtoC a.
  rewrite /kz_1d kxR h1 kz_losslessE.
  by have [z z0 ->] := kz_prop h0 (proj1 (hx i)); apply: adm.
have fil (i : 'I_(ff_x s)) tm : admittance tm (RtoC (nb * nb)) (csqrt (kx_vector s w i ^+ 2 - RtoC (nb * nb))) =
   admittance tm (n_bot s ^+ 2) (ci * kz_1d (n_bot s) (kx_vector s w) i).
  by rewrite /kz_1d kxR hb kz_losslessE -kz_q expr2 RtoC_mul.
set yb := fun i => admittance (is_tm (pol s)) (n_bot s ^+ 2) (ci * kz_1d (n_bot s) (kx_vector s w) i).
have st (i : 'I_(ff_x s)) fs : (forall ed, List.In ed fs -> ed.1 = RtoC (nb * nb)) -> exists2 c : C, c != 0 &
   film_stack (is_tm (pol s)) (k0_of w) (kx_vector s w i) fs (yb i) = (c, yb i * c).
  move=> hfs; rewrite (film_stack_matched (k0_of w) (e := RtoC (nb * nb)) (q := csqrt (kx_vector s w i ^+ 2 - RtoC (nb * nb))) (y := yb i)) //.
  - by eexists; last reflexivity; apply: cexp_neq0.
  - by rewrite fil.
  - by have [a a0 e] := bot i (is_tm (pol s)); rewrite /yb e ip.
apply: (film_solve_some pv eig_ex_ok (fun n f => eig_ex_splits _)) => //.
- rewrite -/yb; elim: films {ht} he => [|ed fs IH] // he; split.
  + by rewrite (he ed (or_introl erefl)); apply: RtoC_neq0; nra.
  + by apply: IH => ed' h'; apply: he; right.
  + move=> i; rewrite -is_tmE (he ed (or_introl erefl)) fil -/(yb i).
    have [a a0 e] := bot i (is_tm (pol s)); rewrite -/(yb i) in e.
    have [c c0 ->] := st i fs (fun ed h => he ed (or_intror h)).
    split; first by rewrite e ip.
    by rewrite /= -mulr2n -mulr_natr !mulf_neq0 ?ip ?Ctwo_neq0 // e ip.
- move=> i; rewrite -/(yb i); have [c c0 ->] := st i films he.
  have [a a0 ea] := top i (is_tm (pol s)).
  have [b b0' eb] := bot i (is_tm (pol s)); rewrite -/(yb i) in eb.
  by rewrite /= ea eb -mulrDl -mulrDr -RtoC_add mulf_neq0 ?ip //; lra.
Qed.

(** Vacuum over index-2 films on an index-2 substrate (period twice the wavelength, three orders). *)
Definition f_ex (p : R) (ts : seq R) : setup := Setup (RtoC 1) (RtoC 2) (RtoC 0) None (RtoC 0) p 1 0 2 2 ts.
Definition films_ex (ts : seq R) : seq (C * R) := map (fun d => (RtoC (2 * 2), d)) ts.

Lemma th0 : (0 <= 0 < PI / 2)%coqR.
Proof. by have := PI_RGT_0; lra. Qed.

Lemma films_ex_in ts ed : List.In ed (films_ex ts) -> ed.1 = RtoC (2 * 2).
Proof. by elim: ts => [|d ts IH] //= [<-|/IH]. Qed.
Lemma films_ex_d ts : ts = map snd (films_ex ts).
Proof. by rewrite /films_ex -map_comp map_id. Qed.

Lemma f_ex_orders nt nb (i : 'I_3) : (1 <= nt)%coqR -> (1 <= nb)%coqR ->
  let x := order_kx nt 0 1 i 1 2 in (x * x < nt * nt)%coqR /\ (x * x < nb * nb)%coqR.
Proof.
move=> h1 h2; rewrite /order_kx sin_0.
by case: i => -[|[|[|//]]] /= _; split; nra.
Qed.

Lemma f_ex_returns pv p ts : (p = 0%coqR \/ p = 1%coqR) -> exists r T1 infos,
  solve_1d pv eig_ex false (f_ex p ts) 1 (map (fun ed => uniform_convs 3 ed.1) (films_ex ts)) = Some (r, T1, infos).
Proof.
move=> hp; apply: (sub_films_return pv (s := f_ex p ts) (nt := 1) (th := 0) (nb := 2)) => //; try lra; first exact: th0.
- exact: films_ex_d.
- exact: films_ex_in.
- by move=> i; apply: f_ex_orders; lra.
Qed.

(** ** C11: a stack index-matched to both half spaces transmits everything, with the propagation phase. *)
Theorem C11_matched pinv eig : eigen_oracle eig -> forall s w films r T1 infos (nt th : R),
  n_top s = RtoC nt -> (0 < nt)%coqR -> theta s = RtoC th -> (0 <= th < PI / 2)%coqR -> phi s = None ->
  n_bot s = RtoC nt -> (forall ed, List.In ed films -> ed.1 = RtoC (nt * nt)) ->
  thickness s = map snd films ->
  solve_1d pinv eig false s w (map (fun ed => uniform_convs (ff_x s) ed.1) films) = Some (r, T1, infos) ->
  let tm := is_tm (pol s) in
  forall i : 'I_(ff_x s),
  [/\ cross_R tm r i ord0 = 0, cross_T tm r i ord0 = 0, co_R tm r i ord0 = 0
    & co_T tm r i ord0 = (if (i : nat) == fto_x s
        then cexp (- (ci * RtoC (2 * PI / w * (nt * cos th) * total_thickness films))) else 0)].
Proof. exact (@matched_solve pinv eig). Qed.
Print Assumptions C11_matched.

(** ... and the efficiencies are 0 and 1. *)
Theorem C11_efficiencies pinv eig : eigen_oracle eig -> forall s w films r T1 infos (nt th : R),
  n_top s = RtoC nt -> (0 < nt)%coqR -> theta s = RtoC th -> (0 <= th < PI / 2)%coqR -> phi s = None ->
  n_bot s = RtoC nt -> (forall ed, List.In ed films -> ed.1 = RtoC (nt * nt)) ->
  thickness s = map snd films ->
  solve_1d pinv eig false s w (map (fun ed => uniform_convs (ff_x s) ed.1) films) = Some (r, T1, infos) ->
  forall i : 'I_(ff_x s), de_ri r i = 0%coqR /\ de_ti r i = (if (i : nat) == fto_x s then 1 else 0)%coqR.
Proof. exact (@matched_efficiencies pinv eig). Qed.
Print Assumptions C11_efficiencies.

Example C11_ex p ts : (p = 0%coqR \/ p = 1%coqR) ->
  let s := Setup (RtoC 2) (RtoC 2) (RtoC 0) None (RtoC 0) p 1 0 2 2 ts in
  exists r T1 infos,
  [/\ solve_1d pinv_ex eig_ex false s 1 (map (fun ed => uniform_convs 3 ed.1) (films_ex ts)) = Some (r, T1, infos),
      thickness s = map snd (films_ex ts), (forall ed, List.In ed (films_ex ts) -> ed.1 = RtoC (2 * 2))
    & forall i : 'I_3, de_ri r i = 0%coqR /\ de_ti r i = (if (i : nat) == 1%N then 1 else 0)%coqR].
Proof.
move=> hp s; have b0 : (0 < 2)%coqR by lra.
have [|r [T1 [infos e]]] := sub_films_return pinv_ex (s := s) (w := 1) erefl b0 erefl th0 erefl erefl b0 hp (films_ex_d ts) (@films_ex_in ts).
  by move=> i; apply: f_ex_orders; lra.
exists r, T1, infos; split=> //; [exact: films_ex_d|exact: films_ex_in|].
by apply: (C11_efficiencies eig_ex_ok (s := s) erefl b0 erefl th0 erefl erefl (@films_ex_in ts) (films_ex_d ts) e).
Qed.

(** ** C12: unpatterned stacks do not diffract; the zeroth order obeys the characteristic-matrix theory. *)
Theorem C12_no_diffraction pinv eig : eigen_oracle eig -> forall s w films r T1 infos,
  thickness s = map snd films ->
  solve_1d pinv eig false s w (map (fun ed => uniform_convs (ff_x s) ed.1) films) = Some (r, T1, infos) ->
  forall i : 'I_(ff_x s), (i : nat) <> fto_x s ->
  [/\ R_s r i ord0 = 0, R_p r i ord0 = 0, T_s r i ord0 = 0 & T_p r i ord0 = 0].
Proof. exact (@film_no_diffraction pinv eig). Qed.
Print Assumptions C12_no_diffraction.

Theorem C12_film_theory pinv eig : eigen_oracle eig -> forall s w films r T1 infos (nt th nb : R),
  n_top s = RtoC nt -> (0 < nt)%coqR -> theta s = RtoC th -> (0 <= th < PI / 2)%coqR -> phi s = None ->
  n_bot s = RtoC nb ->
  thickness s = map snd films ->
  solve_1d pinv eig false s w (map (fun ed => uniform_convs (ff_x s) ed.1) films) = Some (r, T1, infos) ->
  let tm := is_tm (pol s) in
  let kx := (nt * sin th)%coqR in
  let y0 := if tm then ci * RtoC (cos th / nt) else ci * RtoC (nt * cos th) in
  let EH := film_stack tm (2 * PI / w) (RtoC kx) films (half_space tm nb kx) in
  [/\ (pol s = 0%coqR \/ pol s = 1%coqR), cross_R tm r = 0, cross_T tm r = 0, y0 * EH.1 + EH.2 != 0 &
  forall i : 'I_(ff_x s), (i : nat) = fto_x s ->
    co_R tm r i ord0 = film_r y0 EH /\ co_T tm r i ord0 = film_t y0 EH].
Proof. exact (@film_amplitudes pinv eig). Qed.
Print Assumptions C12_film_theory.

Example C12_ex p ts : (p = 0%coqR \/ p = 1%coqR) -> exists r T1 infos,
  [/\ solve_1d pinv_ex eig_ex false (f_ex p ts) 1 (map (fun ed => uniform_convs 3 ed.1) (films_ex ts)) = Some (r, T1, infos),
      thickness (f_ex p ts) = map snd (films_ex ts)
    & forall i : 'I_3, (i : nat) <> 1%N -> [/\ R_s r i ord0 = 0, R_p r i ord0 = 0, T_s r i ord0 = 0 & T_p r i ord0 = 0]].
Proof.
move=> hp; have [r [T1 [infos e]]] := f_ex_returns pinv_ex ts hp; exists r, T1, infos; split=> //.
- exact: films_ex_d.
- by move=> i hi; apply: (C12_no_diffraction eig_ex_ok (s := f_ex p ts) (films_ex_d ts) e).
Qed.

(** ** C13: a bare interface, or zero-thickness layers of any pattern on it, gives the Fresnel coefficients. *)
Theorem C13_fresnel pinv eig : eigen_oracle eig -> forall s w k (convs : seq (conv3 (ff_x s))) r T1 infos (nt th nb tb : R),
  n_top s = RtoC nt -> (0 < nt)%coqR -> theta s = RtoC th -> (0 <= th < PI / 2)%coqR -> phi s = None ->
  n_bot s = RtoC nb -> (0 < nb)%coqR -> (0 <= tb < PI / 2)%coqR -> (nt * sin th = nb * sin tb)%coqR ->
  thickness s = nseq k 0%coqR ->
  solve_1d pinv eig false s w convs = Some (r, T1, infos) ->
  forall i : 'I_(ff_x s), let tm := is_tm (pol s) in
  [/\ cross_R tm r i ord0 = 0, cross_T tm r i ord0 = 0,
      co_R tm r i ord0 = (if (i : nat) == fto_x s then RtoC (fresnel_r tm nt th nb tb) else 0)
    & co_T tm r i ord0 = (if (i : nat) == fto_x s then RtoC (fresnel_t tm nt th nb tb) else 0)].
Proof. exact (@fresnel_solve pinv eig). Qed.
Print Assumptions C13_fresnel.

(** Total internal reflection: beyond the critical angle everything is reflected into the zeroth order. *)
Theorem C13_total_reflection pinv eig : eigen_oracle eig ->
  forall s w k (convs : seq (conv3 (ff_x s))) r T1 infos (nt th nb : R),
  n_top s = RtoC nt -> (0 < nt)%coqR -> theta s = RtoC th -> (0 <= th < PI / 2)%coqR -> phi s = None ->
  n_bot s = RtoC nb -> (0 < nb)%coqR -> (nb < nt * sin th)%coqR ->
  thickness s = nseq k 0%coqR ->
  solve_1d pinv eig false s w convs = Some (r, T1, infos) ->
  forall i : 'I_(ff_x s), de_ri r i = (if (i : nat) == fto_x s then 1 else 0)%coqR /\ de_ti r i = 0%coqR.
Proof. exact (@tir_solve pinv eig). Qed.
Print Assumptions C13_total_reflection.

(** Vacuum over index 2: the Fresnel coefficient is -1/3, whatever the number of zero-thickness layers. *)
Example C13_ex k : exists r T1 infos,
  solve_1d pinv_ex eig_ex false (f_ex 0 (nseq k 0%coqR)) 1 (map (fun ed => uniform_convs 3 ed.1) (films_ex (nseq k 0%coqR)))
    = Some (r, T1, infos) /\
  forall i : 'I_3, R_s r i ord0 = (if (i : nat) == 1%N then RtoC (-1 / 3) else 0).
Proof.
have [r [T1 [infos e]]] := f_ex_returns pinv_ex (nseq k 0%coqR) (or_introl erefl).
exists r, T1, infos; split=> // i; have b0 : (0 < 2)%coqR by lra.
have snell : (1 * sin 0 = 2 * sin 0)%coqR by rewrite sin_0; ring.
have [_ _ + _] := C13_fresnel eig_ex_ok (s := f_ex 0 (nseq k 0%coqR)) erefl Rlt_0_1 erefl th0 erefl erefl b0 th0 snell erefl e i.
rewrite /co_R (_ : is_tm _ = false); last exact: reqb01.
move=> ->; case: eqP => // _; congr RtoC; rewrite /fresnel_r cos_0; field.
Qed.

Lemma s_tir_sin : (2 * sin (PI / 4) * (2 * sin (PI / 4)) = 2)%coqR /\ (1 < 2 * sin (PI / 4))%coqR.
Proof.
have e : (2 * sin (PI / 4) = sqrt 2)%coqR.
  rewrite sin_PI4; have := sqrt_lt_R0 2; have := sqrt_sqrt 2 => h1 h2.
  by rewrite -{1}h1; [field; lra|lra].
rewrite e sqrt_sqrt; last lra.
by split=> //; rewrite -{1}sqrt_1; apply: sqrt_lt_1; lra.
Qed.

Example C13_tir_ex : let s := Setup (RtoC 2) (RtoC 1) (RtoC (PI / 4)) None (RtoC 0) 0 0 0 2 2 [::] in
  exists r T1 infos,
  [/\ solve_1d pinv_ex eig_ex false s 1 [::] = Some (r, T1, infos), (1 < 2 * sin (PI / 4))%coqR,
      de_ri r ord0 = 1%coqR & de_ti r ord0 = 0%coqR].
Proof.
move=> s; have [e2 l] := s_tir_sin.
have b0 : (0 < 2)%coqR by lra. have pi0 := PI_RGT_0.
have h2 : (0 <= PI / 4 < PI / 2)%coqR by lra.
have t0 : is_tm (pol s) = false by exact: reqb01.
have kx (i : 'I_1) : kx_vector s 1 i = RtoC (2 * sin (PI / 4)).
  by apply: (kx_mid 1 (s := s)) => //; case: i => -[].
have [r [T1 [infos e]]] : exists r T1 infos, solve_1d pinv_ex eig_ex false s 1 (map (fun ed : C * R => uniform_convs (ff_x s) ed.1) [::]) = Some (r, T1, infos).
  apply: (film_solve_some pinv_ex eig_ex_ok (fun n f => eig_ex_splits _) (s := s) (films := [::])) => //; first by left.
  move=> i; rewrite t0 /film_stack /= /kz_1d !kx !kz_losslessE /kz_lossless e2.
  case: Rle_dec => h3; last lra. case: Rle_dec => h4; first lra.
  rewrite mulr1 mulrN mulrA ci2 mulN1r opprK; apply/eqP => /(congr1 Re) h.
  have := sqrt_lt_R0 (2 - 1 * 1); move: h; rewrite -[Re 0]/0%coqR; cunf => h; lra.
exists r, T1, infos; split=> //.
- by have [] := C13_total_reflection eig_ex_ok (s := s) (k := 0) (nt := 2) (th := PI / 4) (nb := 1) erefl b0 erefl h2 erefl erefl Rlt_0_1 l erefl e ord0.
- by have [] := C13_total_reflection eig_ex_ok (s := s) (k := 0) (nt := 2) (th := PI / 4) (nb := 1) erefl b0 erefl h2 erefl erefl Rlt_0_1 l erefl e ord0.
Qed.

(** ** C43: a bottom layer of the substrate's own (lossless) material only delays the transmitted orders. *)
Theorem C43_substrate_layer pinv eig : eigen_oracle eig ->
  forall s w (convs : seq (conv3 (ff_x s))) ts d r (nt th nb : R),
  n_top s = RtoC nt -> (0 < nt)%coqR -> theta s = RtoC th -> (0 <= th < PI / 2)%coqR -> phi s = None ->
  n_bot s = RtoC nb -> nb <> 0%coqR -> size convs = size ts ->
  reported_1d (solve_1d pinv eig false (with_thickness s (ts ++ [:: d])) w
    (convs ++ [:: uniform_convs (ff_x s) (RtoC (nb * nb))])) = Some r ->
  exists2 r0, reported_1d (solve_1d pinv eig false (with_thickness s ts) w convs) = Some r0 &
    same_reflection r0 r /\
    transmission_delayed (fun i => cexp (- (ci * RtoC (2 * PI / w) *
        kz_lossless nb (order_kx nt th (fto_x s) i w (period_x s)) * RtoC d))) r0 r.
Proof. exact (@substrate_solve_1d pinv eig). Qed.
Print Assumptions C43_substrate_layer.

Example C43_ex p ts d : (p = 0%coqR \/ p = 1%coqR) -> exists r,
  reported_1d (solve_1d pinv_ex eig_ex false (with_thickness (f_ex p [::]) (ts ++ [:: d])) 1
    (map (fun ed => uniform_convs 3 ed.1) (films_ex ts) ++ [:: uniform_convs 3 (RtoC (2 * 2))])) = Some r.
Proof.
move=> hp; have [r [T1 [infos e]]] := f_ex_returns pinv_ex (ts ++ [:: d]) hp; exists r.
by rewrite /films_ex !map_cat /= in e; rewrite /films_ex e.
Qed.

(** The statement fails for an absorbing substrate (kz_bot is conjugated but n_bot is not,
    transfer_method.py:9-13, 21): the layer changes the reflected amplitude. *)
Theorem C43_absorbing_refuted pinv eig : eigen_oracle eig -> splits_diagonal eig -> forall nr k w d : R,
  (0 < k <= nr)%coqR -> (0 < w)%coqR -> (0 < d)%coqR ->
  let nb : C := (nr, (- k)%coqR) in
  exists r r', [/\ reported_1d (solve_1d pinv eig false (bare nr k 0 [::]) w [::]) = Some r,
     reported_1d (solve_1d pinv eig false (bare nr k 0 [:: d]) w [:: uniform_convs 1 (nb * nb)]) = Some r'
   & R_s r' ord0 ord0 <> R_s r ord0 ord0].
Proof.
move=> h1 h2 nr k w d [k0 kn] w0 d0 nb; have n0 : (0 < nr)%coqR by lra.
have [r [T1 [infos [e _]]]] := bare_te pinv h1 h2 k n0 w.
have [r' [T1' [infos' e']]] := own_layer_returns pinv h1 h2 (Logic.conj k0 kn) w0 d0.
by exists r, r'; rewrite e e'; split=> //; apply: own_layer_visible e e'.
Qed.
Print Assumptions C43_absorbing_refuted.

(** ** C44: with an absorbing substrate the reported efficiencies leave [0, 1] (TM): negative transmission, reflection
    above one, for every extinction coefficient above n / sqrt 3. *)
Theorem C44_absorbing_refuted pinv eig : eigen_oracle eig -> splits_diagonal eig -> forall nr k w : R,
  (1 <= nr)%coqR -> (nr * nr < 3 * (k * k))%coqR ->
  exists r T1 infos, [/\ solve_1d pinv eig false (bare nr k 1 [::]) w [::] = Some (r, T1, infos),
     (de_ti r ord0 < 0)%coqR & (1 < de_ri r ord0)%coqR].
Proof. move=> h1 h2 nr k w n1 hk; apply: bare_tm_bad => //; lra. Qed.
Print Assumptions C44_absorbing_refuted.

Example C44_ex : exists r T1 infos,
  [/\ solve_1d pinv_ex eig_ex false (bare 1 2 1 [::]) 1 [::] = Some (r, T1, infos),
     (de_ti r ord0 < 0)%coqR & (1 < de_ri r ord0)%coqR].
Proof. by apply: (C44_absorbing_refuted pinv_ex eig_ex_ok eig_ex_splits 1); lra. Qed.

(** ** C45: at normal incidence TE and TM agree on unpatterned stacks over a lossless substrate. *)
Theorem C45_normal_te_tm pinv eig : eigen_oracle eig -> forall s w films (nt nb : R) r T1 infos r' T1' infos',
  n_top s = RtoC nt -> (0 < nt)%coqR -> theta s = RtoC 0 -> phi s = None -> n_bot s = RtoC nb -> (0 < nb)%coqR ->
  (forall ed, List.In ed films -> ed.1 != 0) ->
  thickness s = map snd films ->
  let convs := map (fun ed => uniform_convs (ff_x s) ed.1) films in
  solve_1d pinv eig false (with_pol s 0) w convs = Some (r, T1, infos) ->
  solve_1d pinv eig false (with_pol s 1) w convs = Some (r', T1', infos') ->
  forall i : 'I_(ff_x s),
  [/\ R_p r' i ord0 = - R_s r i ord0, T_p r' i ord0 = RtoC (nb / nt) * T_s r i ord0,
      de_ri r' i = de_ri r i & de_ti r' i = de_ti r i].
Proof. exact (@normal_te_tm pinv eig). Qed.
Print Assumptions C45_normal_te_tm.

Example C45_ex ts : exists r T1 infos r' T1' infos',
  [/\ solve_1d pinv_ex eig_ex false (f_ex 0 ts) 1 (map (fun ed => uniform_convs 3 ed.1) (films_ex ts)) = Some (r, T1, infos),
      solve_1d pinv_ex eig_ex false (f_ex 1 ts) 1 (map (fun ed => uniform_convs 3 ed.1) (films_ex ts)) = Some (r', T1', infos')
    & forall i : 'I_3, de_ri r' i = de_ri r i].
Proof.
have [r [T1 [infos e]]] := f_ex_returns pinv_ex ts (or_introl erefl).
have [r' [T1' [infos' e']]] := f_ex_returns pinv_ex ts (or_intror erefl).
exists r, T1, infos, r', T1', infos'; split=> // i.
have b0 : (0 < 2)%coqR by lra.
have hnz ed : List.In ed (films_ex ts) -> ed.1 != 0 by move=> /films_ex_in ->; apply: RtoC_neq0; lra.
by have [] := C45_normal_te_tm eig_ex_ok (s := f_ex 0 ts) (nt := 1) erefl Rlt_0_1 erefl erefl erefl b0 hnz (films_ex_d ts) e e' i.
Qed.

(** ... but not over an absorbing one: TM reflects more than the incident power, TE less. *)
Theorem C45_absorbing_refuted pinv eig : eigen_oracle eig -> splits_diagonal eig -> forall nr k w : R,
  (1 <= nr)%coqR -> (nr * nr < 3 * (k * k))%coqR ->
  exists r r', [/\ reported_1d (solve_1d pinv eig false (bare nr k 0 [::]) w [::]) = Some r,
     reported_1d (solve_1d pinv eig false (bare nr k 1 [::]) w [::]) = Some r'
   & (de_ri r ord0 < 1 < de_ri r' ord0)%coqR].
Proof.
move=> h1 h2 nr k w n1 hk; have n0 : (0 < nr)%coqR by lra.
have [r [T1 [infos [e [_ l]]]]] := bare_te pinv h1 h2 k n0 w.
have [r' [T1' [infos' [e' _ l']]]] := bare_tm_bad pinv h1 h2 n0 w n1 hk.
by exists r, r'; rewrite e e'.
Qed.
Print Assumptions C45_absorbing_refuted.
