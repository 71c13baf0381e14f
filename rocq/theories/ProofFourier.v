(** Lemmas on the Fourier coefficients computed by the code. *)
From Coq Require Import Reals Lra.
From mathcomp Require Import all_ssreflect ssralg ssrint matrix.
From Coquelicot Require Import Complex RInt RInt_analysis Hierarchy Derive Continuity AutoDerive.
From Verif Require Import Cplx Mx Spec SpecFourier ModelTM ModelFourier.

Set Implicit Arguments.
Unset Strict Implicit.
Unset Printing Implicit Defensive.
Local Open Scope ring_scope.
Import GRing.Theory.

(** ** Integrals *)

Lemma cint_ext f g a b v : (forall t, (Rmin a b < t < Rmax a b)%coqR -> f t = g t) ->
  cintegral f a b v -> cintegral g a b v.
Proof. by move=> e [h1 h2]; split; [apply: is_RInt_ext h1|apply: is_RInt_ext h2] => t h; rewrite e. Qed.

Lemma cint_chasles f a b c u v : cintegral f a b u -> cintegral f b c v -> cintegral f a c (u + v).
Proof.
move=> [h1 h2] [h3 h4]; split; first exact: is_RInt_Chasles h1 h3.
exact: is_RInt_Chasles h2 h4.
Qed.

Lemma cint_point f a : cintegral f a a 0.
Proof. split; exact: is_RInt_point. Qed.

Lemma cint_scal f a b v (k : C) : cintegral f a b v -> cintegral (fun t => k * f t) a b (k * v).
Proof.
move=> [h1 h2]; split.
  rewrite ReM; apply: is_RInt_ext; last first.
    apply: (@is_RInt_minus R_NormedModule).
      exact: (@is_RInt_scal R_NormedModule _ a b (Re k) _ h1).
    exact: (@is_RInt_scal R_NormedModule _ a b (Im k) _ h2).
  by move=> t _; rewrite ReM.
rewrite ImM; apply: is_RInt_ext; last first.
  apply: (@is_RInt_plus R_NormedModule).
    exact: (@is_RInt_scal R_NormedModule _ a b (Re k) _ h2).
  exact: (@is_RInt_scal R_NormedModule _ a b (Im k) _ h1).
by move=> t _; rewrite ImM.
Qed.

(** [F] is an antiderivative of the continuous function [f]. *)
Definition primitive (F f : R -> C) : Prop :=
  forall t, [/\ is_derive (fun t => Re (F t)) t (Re (f t)), is_derive (fun t => Im (F t)) t (Im (f t)),
    continuous (fun t => Re (f t)) t & continuous (fun t => Im (f t)) t].

Lemma cint_primitive F f a b : primitive F f -> cintegral f a b (F b - F a).
Proof.
move=> h; split.
  have := @is_RInt_derive R_CompleteNormedModule (fun t => Re (F t)) (fun t => Re (f t)) a b.
  by apply=> t _; case: (h t).
have := @is_RInt_derive R_CompleteNormedModule (fun t => Im (F t)) (fun t => Im (f t)) a b.
by apply=> t _; case: (h t).
Qed.

Lemma steps_cons e x v t : steps (e :: x) v t = if rlt t e then v 0%N else steps x (fun j => v j.+1) t.
Proof. by rewrite /steps /=; case: rlt. Qed.

Lemma climbing_last e x : climbing e x -> (e <= last e x)%coqR.
Proof.
elim: x e => [|y x IH] e /=; first by move=> _; lra.
by case=> hy /IH; lra.
Qed.

(** Integral of a step function times a smooth one, piece by piece. *)
Lemma cint_steps F f x : primitive F f -> forall a v, climbing a x ->
  cintegral (fun t => steps x v t * f t) a (last a x)
    (\sum_(j < size x) v j * (F (nth 0%coqR x j) - F (nth a (a :: x) j))).
Proof.
move=> hF; elim: x => [|e x IH] a v /=.
  by rewrite big_ord0 => _; exact: cint_point.
move=> [h1 h2]; rewrite big_ord_recl /=.
apply: (cint_chasles (b := e)).
  apply: cint_ext; last exact: (cint_scal (v 0%N) (cint_primitive a e hF)).
  move=> t; rewrite Rmin_left // Rmax_right // => -[ht1 ht2].
  by rewrite steps_cons /rlt; case: Rlt_dec.
have -> : \sum_(i < size x) v (bump 0 i) * (F (nth 0%coqR x i) - F (nth a (e :: x) i))
   = \sum_(i < size x) v i.+1 * (F (nth 0%coqR x i) - F (nth e (e :: x) i)).
  apply: eq_bigr => i _; rewrite (set_nth_default a e (s := e :: x) (n := i)) //=.
  by apply: ltnW; rewrite ltnS.
apply: cint_ext; last exact: (IH e (fun j => v j.+1) h2).
move=> t ht.
have hl := climbing_last h2.
move: ht; rewrite Rmin_left // Rmax_right // => -[ht1 ht2].
by rewrite steps_cons /rlt; case: Rlt_dec => // ht3; lra.
Qed.

Lemma primitive_exp (w : R) : w <> 0%coqR ->
  primitive (fun t => cexp (- ci * RtoC (w * t)) / (- ci * RtoC w)) (fun t => cexp (- ci * RtoC (w * t))).
Proof.
move=> hw.
have E t : - ci * RtoC t = (0, - t)%coqR :> C.
  by apply: Cext; rewrite /ci /Ci /Re /Im; cbn; ring.
have X t : cexp (- ci * RtoC (w * t)) = (cos (w * t), - sin (w * t))%coqR :> C.
  by rewrite E /cexp /Re /Im /= exp_0 cos_neg sin_neg; apply: Cext; rewrite /Re /Im /=; ring.
have V : (- ci * RtoC w)^-1 = (0, 1 / w)%coqR :> C.
  have nz : - ci * RtoC w != 0 by rewrite E; apply/eqP => -[] h; apply: hw; lra.
  apply: (mulfI nz); rewrite mulfV // E.
  by apply: Cext; rewrite /Re /Im; cbn; field.
move=> t; split.
- apply: (is_derive_ext (fun t => (sin (w * t) / w)%coqR)).
    by move=> u; rewrite X V ReM /Re /Im /=; field.
  rewrite X /Re /=; auto_derive => //; field; lra.
- apply: (is_derive_ext (fun t => (cos (w * t) / w)%coqR)).
    by move=> u; rewrite X V ImM /Re /Im /=; field.
  rewrite X /Im /=; auto_derive => //; field; lra.
- apply: (continuous_ext (fun t => cos (w * t)%coqR)); first by move=> u; rewrite X.
  apply: (@ex_derive_continuous R_AbsRing R_NormedModule); auto_derive; done.
- apply: (continuous_ext (fun t => (- sin (w * t))%coqR)); first by move=> u; rewrite X.
  apply: (@ex_derive_continuous R_AbsRing R_NormedModule); auto_derive; done.
Qed.

Lemma primitive_one : primitive (fun t => RtoC t) (fun _ => 1).
Proof.
move=> t; split.
- by apply: (is_derive_ext (fun t => t)) => //; auto_derive.
- by apply: (is_derive_ext (fun t => 0%coqR)) => //; auto_derive.
- exact: continuous_const.
- exact: continuous_const.
Qed.

(** ** C15: the CFS coefficients are the Fourier integrals *)

Lemma abel (n : nat) (v E : nat -> C) (E0 : C) : E n = E0 ->
  \sum_(j < n.+1) v j * (E j - (if val j is j'.+1 then E j' else E0))
  = - \sum_(j < n.+1) (v (j.+1 %% n.+1)%N - v j) * E j.
Proof.
move=> hE.
have -> : \sum_(j < n.+1) v j * (E j - (if val j is j'.+1 then E j' else E0))
  = \sum_(j < n.+1) v j * E j - \sum_(j < n.+1) v j * (if val j is j'.+1 then E j' else E0).
  by rewrite -sumrB; apply: eq_bigr => i _; rewrite mulrBr.
have -> : \sum_(j < n.+1) (v (j.+1 %% n.+1)%N - v j) * E j
  = \sum_(j < n.+1) v (j.+1 %% n.+1)%N * E j - \sum_(j < n.+1) v j * E j.
  by rewrite -sumrB; apply: eq_bigr => i _; rewrite mulrBl.
rewrite opprB; congr (_ - _).
rewrite big_ord_recl [RHS]big_ord_recr /= modnn hE addrC; congr (_ + _).
by apply: eq_bigr => i _; rewrite /= modn_small // ltnS.
Qed.

(** Integers among the reals. *)
Definition intr (m : R) : Prop := exists a b : nat, m = (INR a - INR b)%coqR.
Lemma mode_int fto k : intr (mode fto k).
Proof. by exists k, fto.*2. Qed.

Lemma cexp_2pi_nat (a : nat) : cexp (ci * RtoC (2 * PI * INR a)) = 1.
Proof.
have E t : ci * RtoC t = (0, t)%coqR :> C by apply: Cext; rewrite /ci /Ci /Re /Im; cbn; ring.
rewrite E /cexp /Re /Im /= exp_0.
have -> : (2 * PI * INR a = 0 + 2 * INR a * PI)%coqR by ring.
by rewrite cos_period sin_period cos_0 sin_0; cext.
Qed.

Lemma cexp_2pi (m : R) : intr m -> cexp (- ci * RtoC (2 * PI * m)) = 1.
Proof.
case=> a [b ->].
have -> : - ci * RtoC (2 * PI * (INR a - INR b)) = ci * RtoC (2 * PI * INR b) - ci * RtoC (2 * PI * INR a).
  by rewrite Rmult_minus_distr_l RtoC_sub mulNr mulrBr opprB.
by rewrite cexpD cexpN !cexp_2pi_nat invr1 mulr1.
Qed.

Lemma mode_eq0 fto k : (mode fto k = 0)%coqR -> k = fto.*2.
Proof. by rewrite /mode => h; apply: INR_eq; lra. Qed.

Lemma piece_nth x j : (j < size x)%N -> piece x j = (nth 0 x j - nth 0 (0 :: x) j)%coqR.
Proof. by case: j => [|j] h //=; rewrite Rminus_0_r. Qed.

Lemma cfs_fourier x period fto v k : covers x period ->
  fourier_coef (steps x v) period (mode fto k) (cfs x period fto v k).
Proof.
case=> hc hl hp; rewrite /fourier_coef /cfs.
have hp0 : RtoC period != 0 by apply: RtoC_neq0; lra.
have hP := PI_RGT_0.
case: eqP => [->|hk].
- have m0 : mode fto fto.*2 = 0%coqR by rewrite /mode; ring.
  rewrite mulrCA mulfV // mulr1.
  apply: (cint_ext (f := fun t => steps x v t * 1)).
    move=> t _; rewrite m0.
    have -> : (2 * PI * 0 * t / period = 0)%coqR by field; lra.
    by rewrite (_ : RtoC 0 = 0) // mulr0 cexp0.
  have := cint_steps primitive_one v hc; rewrite hl.
  congr cintegral; apply: eq_bigr => j _.
  by rewrite piece_nth // RtoC_sub.
have hm : mode fto k <> 0%coqR by move/mode_eq0.
pose w := (2 * PI * mode fto k / period)%coqR.
have hw : w <> 0%coqR.
  by rewrite /w => /Rmult_integral [|/Rinv_neq_0_compat]; [move=> /Rmult_integral []; lra|lra].
apply: (cint_ext (f := fun t => steps x v t * cexp (- ci * RtoC (w * t)))).
  move=> t _; congr (_ * cexp (_ * RtoC _)); rewrite /w; field; lra.
have := cint_steps (primitive_exp hw) v hc; rewrite hl.
congr cintegral.
case: x hc hl => [|e x] hc hl; first by move: hl hp => /= <-; lra.
set xs := e :: x.
have hwp : RtoC w = RtoC (2 * PI * mode fto k) / RtoC period by rewrite -RtoC_div //; lra.
pose E j := cexp (- ci * RtoC (w * nth 0 xs j)%coqR).
have nw : - ci * RtoC w != 0.
  by rewrite mulf_neq0 ?RtoC_neq0 // oppr_eq0; apply/eqP => -[]; lra.
have abl := @abel (size x) v E 1 _.
transitivity ((\sum_(j < (size x).+1) v j * (E j - (if val j is j'.+1 then E j' else 1))) / (- ci * RtoC w)).
  rewrite mulr_suml; apply: eq_bigr => -[j hj] _ /=; rewrite -mulrA mulrBl; congr (_ * (_ - _)).
  case: j hj => [|j] hj /=; last by [].
  by rewrite Rmult_0_r (_ : RtoC 0 = 0) // mulr0 cexp0.
rewrite abl; last first.
  rewrite /E nth_last -/xs.
  have -> : (w * last 0 xs = 2 * PI * mode fto k)%coqR.
    by rewrite hl /w; field; lra.
  by rewrite cexp_2pi //; exact: mode_int.
rewrite hwp (mulNr ci) invrN mulrNN.
have -> : \sum_(j < (size x).+1) (v (j.+1 %% (size x).+1)%N - v j) * E j
  = \sum_(j < size xs) (v (j.+1 %% size xs)%N - v j)
      * cexp (- ci * RtoC (2 * PI * nth 0 xs j * mode fto k / period)%coqR).
  apply: eq_bigr => j _; congr (_ * cexp (_ * RtoC _)); rewrite /w.
  set y := nth _ _ _.
  by field; lra.
set S := \sum_(_ < _) _.
have nk : RtoC (2 * PI * mode fto k) != 0.
  by apply: RtoC_neq0 => /Rmult_integral []; lra.
rewrite !invfM invrK.
by rewrite [RHS]mulrCA; congr (_ * _); rewrite mulrA mulrC.
Qed.
