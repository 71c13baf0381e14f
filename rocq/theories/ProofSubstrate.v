(** A bottom layer made of the (lossless) substrate's own material only delays the transmitted waves. *)
From Coq Require Import Reals Lra.
From mathcomp Require Import all_ssreflect ssralg matrix mxalgebra.
From Coquelicot Require Import Complex.
From Verif Require Import Cplx Mx ModelTM ProofFlux ProofEnergy1D Spec SpecSolve SpecFilm ProofSetup ProofFilm ProofStack
  ProofCompose ProofFilmSolve.

Set Implicit Arguments.
Unset Strict Implicit.
Unset Printing Implicit Defensive.
Local Open Scope ring_scope.
Import GRing.Theory.

Ltac cunf := rewrite /nrm2 /Re /Im /conj /Cconj /ci /Ci; cbn -[Rplus Rmult Ropp Rminus].

Lemma kz_q (nb x : R) : ci * kz_lossless nb x = csqrt (RtoC x ^+ 2 - RtoC (nb * nb)).
Proof.
rewrite expr2 -RtoC_mul -RtoC_sub /kz_lossless; case: Rle_dec => h.
  case: (Req_dec (x * x - nb * nb) 0) => [e|ne].
    have e' : (nb * nb - x * x = 0)%coqR by lra.
    by rewrite e e' csqrt0 sqrt_0 (_ : RtoC 0 = 0) // mulr0.
  rewrite csqrt_neg; last lra.
  by congr (_ * RtoC (sqrt _)); ring.
rewrite csqrt_nonneg; last lra.
rewrite mulrN mulrA.
by rewrite ci2 mulN1r opprK.
Qed.

Section Sub.
Variable pinv : forall n, 'M[C]_n -> 'M[C]_n.
Variable eig : forall n, 'M[C]_n -> 'rV[C]_n * 'M[C]_n.
Hypothesis heig : eigen_oracle eig.

(** The first step of the loop on a matched layer. *)
Lemma matched_gstep pol n (kx : nat -> C) k0 (e : C) d (y : nat -> C) st :
  (forall i : 'I_n, y i = admittance (reqb pol 1) e (csqrt (kx i ^+ 2 - e))) ->
  gstep pinv (modes_1d pinv eig pol kx k0 (film_layer n (e, d))) (1%:M, diagf n y, 1%:M) = Some st ->
  rel (1%:M, diagf n y, diagf n (fun i => cexp (- RtoC k0 * csqrt (kx i ^+ 2 - e) * RtoC d)) *m 1%:M) st.
Proof.
move=> hy; rewrite /gstep /modes_1d.
case hm: (transfer_1d_2 _ _ _ _ _ _ _ _) => [[[W V] q]|] //.
have [hpol eV eX] := film_modes (eigen_eig_ok heig) k0 hm.
case hu: (layer_update _ _ _ _ _ _ _ _) => [[[[[F2 G2] T2] Ai] B]|] //= [<-].
have e1 : (1%:M : 'M[C]_n) = diagf n (fun=> 1) *m 1%:M by rewrite diagf1 mulmx1.
have e2 : diagf n y = diagf n y *m 1%:M by rewrite mulmx1.
have [[uW _ _ _ _] _] := layer_update_some hu.
have [y0 a0 eF2 eG2 eT2] := diag_step e1 e2 e1 eV (eX d) hu.
set x := fun i => cexp (- RtoC k0 * csqrt (kx i ^+ 2 - e) * RtoC d) in eX eF2 eG2 eT2 *.
have ye (i : 'I_n) : y i / admittance (reqb pol 1) e (csqrt (kx i ^+ 2 - e)) = 1.
  by rewrite hy mulfV //; apply: (y0 i).
exists W => //; split=> /=.
- rewrite eF2 -diagf1; congr (_ *m _); apply: diagf_eq => i li.
  by have := ye (Ordinal li) => /= ->; rewrite subrr !(mulr0, mul0r) addr0.
- rewrite eG2; congr (_ *m _); apply: diagf_eq => i li.
  have := ye (Ordinal li) => /= ->; rewrite subrr !(mulr0, mul0r) subr0 mulr1.
  by rewrite (hy (Ordinal li)).
- rewrite eT2 mulmx1; congr (_ *m _); apply: diagf_eq => i li.
  by have := ye (Ordinal li) => /= ->; rewrite mulrDr mulr1 half_half divr1 mul1r.
Qed.

(** Closing with a left factor on T. *)
Lemma fin_left pol n (kt kb : nat -> C) th nt nb (F G T : 'M[C]_n) (ph : nat -> C) r :
  (forall i : 'I_n, (pol = 0%coqR -> nrm2 (ph i) = 1%coqR \/ Re (kb i / (nt * ccos th)) = 0%coqR) /\
                    (pol = 1%coqR -> nrm2 (ph i) = 1%coqR \/ Re (kb i / nb ^+ 2 / (ccos th / nt)) = 0%coqR)) ->
  fin_1d pinv pol kt kb th nt nb (F, G, diagf n ph *m T) = Some r ->
  exists2 r0, fin_1d pinv pol kt kb th nt nb (F, G, T) = Some r0 & same_reflection r0 r /\ transmission_delayed ph r0 r.
Proof.
move=> hph; rewrite /fin_1d /transfer_1d_4 /=.
have kk (z : C) i (w : R) : (nrm2 (ph i) = 1%coqR \/ w = 0%coqR) ->
  Re (ph i * z * conj (ph i * z) * RtoC w) = Re (z * conj z * RtoC w).
  have -> : Re (ph i * z * conj (ph i * z) * RtoC w) = (nrm2 (ph i) * Re (z * conj z * RtoC w)%R)%coqR.
    by cunf; ring.
  by case=> [->|->]; [rewrite Rmult_1_l|cunf; ring].
case: ifP => [/reqbP ep|_].
  case: (meeinv _ _ _) => [M|] // [<-]; eexists; first by reflexivity.
  split; first by split.
  move=> i /=; rewrite -!mulmxA {1 3 5}/diagf mul_diag_mx !mxE.
  have [h _] := hph i.
  have -> : \sum_(j < n) T i j * (M *m (ci *: diagf n kt *m delta_i0 n + (ci * nt * ccos th) *: delta_i0 n)) j ord0 =
      (T *m (M *m (ci *: diagf n kt *m delta_i0 n + (ci * nt * ccos th) *: delta_i0 n))) i ord0 by rewrite mxE.
  split=> //; rewrite ?mulr0 //.
  - by apply: kk; apply: h.
  - by apply: kk; apply: h.
case: ifP => // /reqbP ep.
case: (meeinv _ _ _) => [M|] // [<-]; eexists; first by reflexivity.
split; first by split.
move=> i /=; rewrite -!mulmxA {1 3 5}/diagf mul_diag_mx !mxE.
have [_ h] := hph i.
set v := M *m _; have -> : \sum_(j < n) T i j * v j ord0 = (T *m v) i ord0 by rewrite mxE.
split=> //; rewrite ?mulr0 //.
- by apply: kk; apply: h.
- by apply: kk; apply: h.
Qed.

Lemma substrate_solve_1d s w (convs : seq (conv3 (ff_x s))) ts d r (nt th nb : R) :
  n_top s = RtoC nt -> (0 < nt)%coqR -> theta s = RtoC th -> (0 <= th < PI / 2)%coqR -> phi s = None ->
  n_bot s = RtoC nb -> nb <> 0%coqR -> size convs = size ts ->
  reported_1d (solve_1d pinv eig false (with_thickness s (ts ++ [:: d])) w
    (convs ++ [:: uniform_convs (ff_x s) (RtoC (nb * nb))])) = Some r ->
  exists2 r0, reported_1d (solve_1d pinv eig false (with_thickness s ts) w convs) = Some r0 &
    same_reflection r0 r /\
    transmission_delayed (fun i => cexp (- (ci * RtoC (k0_of w) *
        kz_lossless nb (order_kx nt th (fto_x s) i w (period_x s)) * RtoC d))) r0 r.
Proof.
move=> h1 h0 h3 h2 hphi hb nb0 hsz; rewrite /solve_1d /= layers_of_cat //.
have hpv : phi_val s = RtoC 0 by rewrite /phi_val hphi.
have [kxE _] := kx_phys w h1 h3 h2 hpv.
case: (layers_of convs ts) => [ls|] //.
rewrite !reported_rcwa_1d -/(kx_vector s w).
set kx := kx_vector s w in kxE *.
set kxr := fun i => order_kx nt th (fto_x s) i w (period_x s).
have kxR i : kx i = RtoC (kxr i) by rewrite kxE cos_0 /kxr /order_kx /order; congr RtoC; ring.
have kzE i : kz_1d (n_bot s) kx i = kz_lossless nb (kxr i) by rewrite /kz_1d hb kxR kz_losslessE.
set ph := fun i => cexp (- (ci * RtoC (k0_of w) * kz_lossless nb (kxr i) * RtoC d)).
have phE (i : nat) : cexp (- RtoC (k0_of w) * csqrt (kx i ^+ 2 - RtoC (nb * nb)) * RtoC d) = ph i.
  by rewrite /ph kxR -kz_q; congr cexp; cring.
have main (y kt kb : nat -> C) (F' G' T' : 'M[C]_(ff_x s)) :
   (forall i : 'I_(ff_x s), y i = admittance (reqb (pol s) 1) (RtoC (nb * nb)) (csqrt (kx i ^+ 2 - RtoC (nb * nb)))) ->
   (forall i : 'I_(ff_x s), (pol s = 0%coqR -> nrm2 (ph i) = 1%coqR \/ Re (kb i / (n_top s * ccos (theta s))) = 0%coqR) /\
     (pol s = 1%coqR -> nrm2 (ph i) = 1%coqR \/ Re (kb i / n_bot s ^+ 2 / (ccos (theta s) / n_top s)) = 0%coqR)) ->
   F' = 1%:M -> G' = diagf (ff_x s) y -> T' = 1%:M ->
   obind (fin_1d pinv (pol s) kt kb (theta s) (n_top s) (n_bot s))
     (gstack pinv [seq modes_1d pinv eig (pol s) kx (k0_of w) i | i <- ls ++ [:: film_layer (ff_x s) (RtoC (nb * nb), d)]]
        (F', G', T')) = Some r ->
   exists2 r0, obind (fin_1d pinv (pol s) kt kb (theta s) (n_top s) (n_bot s))
     (gstack pinv [seq modes_1d pinv eig (pol s) kx (k0_of w) i | i <- ls] (F', G', T')) = Some r0 &
     same_reflection r0 r /\ transmission_delayed ph r0 r.
  move=> hy hph -> -> ->; rewrite map_cat /gstack stack_with_cat /=.
  case hg: (gstep _ _ _) => [st|] //.
  have hr := matched_gstep hy hg.
  have := gstack_rel pinv [seq modes_1d pinv eig (pol s) kx (k0_of w) i | i <- ls] hr.
  rewrite (@diagf_eq (ff_x s) (fun i => cexp (- RtoC (k0_of w) * csqrt (kx i ^+ 2 - RtoC (nb * nb)) * RtoC d)) ph); last by [].
  rewrite gstack_left /gstack.
  case: (stack_with _ _ (1%:M, _, 1%:M)) => [[[F1 G1] T1]|]; case: (stack_with _ _ st) => [st1|] //= hr1.
  by rewrite (fin_1d_rel _ _ _ _ _ _ _ hr1); apply: fin_left.
have hc : ccos (theta s) = RtoC (cos th) by rewrite h3 ccos_real.
have c0 := cos_pos_below h2.
have phs (i : nat) : nrm2 (ph i) = 1%coqR \/ (exists x, kz_lossless nb (kxr i) = ci * RtoC x).
  rewrite /ph /kz_lossless; case: Rle_dec => h; last by right; exists (- sqrt (kxr i * kxr i - nb * nb))%coqR; rewrite RtoC_opp mulrN.
  left; set z := sqrt _.
  have -> : - (ci * RtoC (k0_of w) * RtoC z * RtoC d) = ci * RtoC (- (k0_of w * z * d)) by rewrite RtoC_opp !RtoC_mul; cring.
  have hn u : nrm2 (cexp (ci * RtoC u)) = 1%coqR.
    have := cexpN_mul (ci * RtoC u); rewrite (_ : - (ci * RtoC u) = conj (ci * RtoC u)); last by rewrite conjM conjI conjR mulNr.
    by rewrite cexp_conj => e; have := congr1 Re e; rewrite -[Re 1]/1%coqR => <-; cunf; ring.
  exact: hn.
have nbC : RtoC nb != 0 by apply: RtoC_neq0.
rewrite /transfer_1d_1; case: ifP => [/reqbP ep|_].
  apply: (main (fun i => ci * kz_1d (n_bot s) kx i)) => //; last by rewrite diagfZ.
    move=> i; rewrite kzE kz_q kxR /admittance.
    by have -> : reqb (pol s) 1 = false by rewrite ep reqb01.
  move=> i; split=> _; case: (phs i) => [|[x e]]; [by left|right|by left|right].
    rewrite kzE e h1 hc -RtoC_mul -mulrA -RtoC_div; first by cunf; ring.
    by have := Rmult_lt_0_compat _ _ h0 c0; lra.
  rewrite kzE e h1 hc hb expr2 -RtoC_mul -RtoC_div; last lra.
  rewrite -[ci * _ / _ / _]mulrA -invfM -RtoC_mul -mulrA -RtoC_div; first by cunf; ring.
  apply: Rmult_integral_contrapositive_currified; first exact: Rmult_integral_contrapositive_currified.
  by have := Rdiv_lt_0_compat _ _ c0 h0; lra.
case: ifP => // /reqbP ep.
apply: (main (fun i => ci * (kz_1d (n_bot s) kx i / n_bot s ^+ 2))) => //; last by rewrite diagfZ.
  move=> i; have -> : reqb (pol s) 1 = true by rewrite ep reqb_refl.
  by rewrite /admittance mulrA kzE kz_q kxR hb expr2 RtoC_mul.
move=> i; split=> _; case: (phs i) => [|[x e]]; [by left|right|by left|right].
  rewrite kzE e h1 hc -RtoC_mul -mulrA -RtoC_div; first by cunf; ring.
  by have := Rmult_lt_0_compat _ _ h0 c0; lra.
rewrite kzE e h1 hc hb expr2 -RtoC_mul -RtoC_div; last lra.
rewrite -[ci * _ / _ / _]mulrA -invfM -RtoC_mul -mulrA -RtoC_div; first by cunf; ring.
apply: Rmult_integral_contrapositive_currified; first exact: Rmult_integral_contrapositive_currified.
by have := Rdiv_lt_0_compat _ _ c0 h0; lra.
Qed.

End Sub.
