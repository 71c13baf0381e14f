(** Complex scalars: Coquelicot's [C = R * R] equipped with a mathcomp field structure,
    conjugation, exponential, trigonometric functions and the principal square root.
    This file is infrastructure; it models the scalar operations numpy performs on
    complex128 values, idealised to exact arithmetic. *)
From Coq Require Import Reals Lra Psatz FunctionalExtensionality ClassicalEpsilon.
From mathcomp Require Import all_ssreflect ssralg.
From Coquelicot Require Import Complex.

Set Implicit Arguments.
Unset Strict Implicit.
Unset Printing Implicit Defensive.

(** ** mathcomp structures on C *)

Definition Ceqb (x y : C) : bool :=
  if Req_EM_T x.1 y.1 then (if Req_EM_T x.2 y.2 then true else false) else false.

Lemma CeqP : Equality.axiom Ceqb.
Proof.
move=> [a b] [c d]; rewrite /Ceqb /=.
case: (Req_EM_T a c) => [e1|ne1] /=; last by constructor=> -[].
case: (Req_EM_T b d) => [e2|ne2] /=; constructor; first by rewrite e1 e2.
by case.
Qed.

Definition C_eqMixin := EqMixin CeqP.
Canonical C_eqType := Eval hnf in EqType C C_eqMixin.

Definition Cfind (P : pred C) (n : nat) : option C :=
  match excluded_middle_informative (exists x, P x) with
  | left h => Some (proj1_sig (constructive_indefinite_description _ h))
  | right _ => None
  end.

Lemma Cfind_correct : forall (P : pred C) n x, Cfind P n = Some x -> P x.
Proof.
move=> P n x; rewrite /Cfind; case: excluded_middle_informative => // h [<-].
by case: constructive_indefinite_description.
Qed.

Lemma Cfind_complete : forall P : pred C, (exists x, P x) -> exists n, Cfind P n.
Proof. by move=> P h; exists 0%N; rewrite /Cfind; case: excluded_middle_informative. Qed.

Lemma Cfind_ext : forall P Q : pred C, P =1 Q -> Cfind P =1 Cfind Q.
Proof. by move=> P Q h n; rewrite (functional_extensionality P Q h). Qed.

Definition C_choiceMixin : choiceMixin C :=
  Choice.Mixin Cfind_correct Cfind_complete Cfind_ext.
Canonical C_choiceType := Eval hnf in ChoiceType C C_choiceMixin.

Lemma CaddA : associative Cplus.
Proof. by move=> x y z; rewrite Cplus_assoc. Qed.
Lemma CaddC : commutative Cplus.
Proof. by move=> x y; rewrite Cplus_comm. Qed.
Lemma Cadd0 : left_id (RtoC 0) Cplus.
Proof. by move=> x; rewrite Cplus_0_l. Qed.
Lemma CaddN : left_inverse (RtoC 0) Copp Cplus.
Proof. by move=> x; rewrite Cplus_comm Cplus_opp_r. Qed.

Definition C_zmodMixin := ZmodMixin CaddA CaddC Cadd0 CaddN.
Canonical C_zmodType := Eval hnf in ZmodType C C_zmodMixin.

Lemma CmulA : associative Cmult.
Proof. by move=> x y z; rewrite Cmult_assoc. Qed.
Lemma CmulC : commutative Cmult.
Proof. by move=> x y; rewrite Cmult_comm. Qed.
Lemma Cmul1 : left_id (RtoC 1) Cmult.
Proof. by move=> x; rewrite Cmult_1_l. Qed.
Lemma CmulDl : left_distributive Cmult Cplus.
Proof. by move=> x y z; rewrite Cmult_plus_distr_r. Qed.
Lemma Cone_neq0 : RtoC 1 != RtoC 0.
Proof. by apply/eqP => -[] /R1_neq_R0. Qed.

Definition C_ringMixin := ComRingMixin CmulA CmulC Cmul1 CmulDl Cone_neq0.
Canonical C_ringType := Eval hnf in RingType C C_ringMixin.
Canonical C_comRingType := Eval hnf in ComRingType C CmulC.

Definition Cinvx (x : C) : C := if x == RtoC 0 then x else Cinv x.

Lemma CmulVx (x : C) : x != RtoC 0 -> Cmult (Cinvx x) x = RtoC 1.
Proof. by move=> nz; rewrite /Cinvx (negbTE nz) Cmult_comm; apply: Cinv_r; apply/eqP. Qed.

Lemma Cinvx0 : Cinvx (RtoC 0) = RtoC 0.
Proof. by rewrite /Cinvx eqxx. Qed.

Definition C_fieldUnitMixin := FieldUnitMixin CmulVx Cinvx0.
Canonical C_unitRingType := Eval hnf in UnitRingType C C_fieldUnitMixin.
Canonical C_comUnitRingType := Eval hnf in [comUnitRingType of C].
Definition C_fieldMixin : GRing.Field.mixin_of C_unitRingType.
Proof. by move=> x nz. Qed.
Definition C_idomainMixin := FieldIdomainMixin C_fieldMixin.
Canonical C_idomainType := Eval hnf in IdomainType C C_idomainMixin.
Canonical C_fieldType := Eval hnf in FieldType C C_fieldMixin.

Delimit Scope R_scope with coqR.
Local Open Scope ring_scope.
Import GRing.Theory.

Lemma CaddE (x y : C) : x + y = Cplus x y. Proof. by []. Qed.
Lemma CoppE (x : C) : - x = Copp x. Proof. by []. Qed.
Lemma CmulE (x y : C) : x * y = Cmult x y. Proof. by []. Qed.
Lemma CzeroE : (0 : C) = RtoC 0. Proof. by []. Qed.
Lemma ConeE : (1 : C) = RtoC 1. Proof. by []. Qed.
Lemma CinvE (x : C) : x != 0 -> x^-1 = Cinv x.
Proof. by move=> h; rewrite /GRing.inv /= /Cinvx (negbTE h). Qed.

(** Move a scalar goal from the mathcomp operations to the Coquelicot ones. *)
Ltac cnorm :=
  repeat (match goal with
  | |- context [@GRing.add _ ?a ?b] => change (@GRing.add _ a b) with (Cplus a b)
  | |- context [@GRing.mul _ ?a ?b] => change (@GRing.mul _ a b) with (Cmult a b)
  | |- context [@GRing.opp _ ?a] => change (@GRing.opp _ a) with (Copp a)
  | |- context [GRing.zero _] => change (GRing.zero _) with (RtoC 0)
  | |- context [GRing.one _] => change (GRing.one _) with (RtoC 1)
  end).
Ltac ceq := match goal with |- @eq _ ?a ?b => change (@eq C a b) end.
Ltac cring := ceq; cnorm; ring.

Definition Re (z : C) : R := z.1.
Definition Im (z : C) : R := z.2.
Global Arguments Re : simpl never.
Global Arguments Im : simpl never.

(** [1j] in the Python source. *)
Definition ci : C := Ci.

Lemma ci2 : ci * ci = -1.
Proof. by rewrite /ci /Ci; apply: injective_projections => /=; cbn; ring. Qed.

(** ** conjugation ([.conj()]) as a ring morphism *)
Definition conj (z : C) : C := Cconj z.

Lemma Cext (x y : C) : Re x = Re y -> Im x = Im y -> x = y.
Proof. by case: x y => [a b] [c d]; rewrite /Re /Im /= => -> ->. Qed.

Ltac cext := apply: Cext; rewrite /Re /Im /conj /Cconj /ci /Ci; cbn -[Rplus Rmult Ropp Rminus]; try ring.

Lemma conjD x y : conj (x + y) = conj x + conj y. Proof. cext. Qed.
Lemma conjM x y : conj (x * y) = conj x * conj y. Proof. cext. Qed.
Lemma conjN x : conj (- x) = - conj x. Proof. cext. Qed.
Lemma conj0 : conj 0 = 0. Proof. cext. Qed.
Lemma conj1 : conj 1 = 1. Proof. cext. Qed.
Lemma conjK x : conj (conj x) = x. Proof. cext. Qed.
Lemma conjI : conj ci = - ci. Proof. cext. Qed.
Lemma conjR (r : R) : conj (RtoC r) = RtoC r. Proof. cext. Qed.
Lemma conjB x y : conj (x - y) = conj x - conj y.
Proof. by rewrite conjD conjN. Qed.

Lemma conj_is_additive : additive conj.
Proof. exact: conjB. Qed.
Canonical conj_additive := Additive conj_is_additive.
Lemma conj_is_multiplicative : multiplicative conj.
Proof. by split; [exact: conjM | exact: conj1]. Qed.
Canonical conj_rmorphism := AddRMorphism conj_is_multiplicative.

Lemma conj_eq0 x : (conj x == 0) = (x == 0).
Proof. exact: fmorph_eq0. Qed.
Lemma conjV x : conj x^-1 = (conj x)^-1.
Proof. exact: fmorphV. Qed.

(** ** real embedding *)
Lemma RtoC_add (a b : R) : RtoC (a + b) = RtoC a + RtoC b. Proof. cext. Qed.
Lemma RtoC_mul (a b : R) : RtoC (a * b) = RtoC a * RtoC b. Proof. cext. Qed.
Lemma RtoC_opp (a : R) : RtoC (- a) = - RtoC a. Proof. cext. Qed.
Lemma RtoC_sub (a b : R) : RtoC (a - b) = RtoC a - RtoC b. Proof. cext. Qed.
Lemma RtoC_inj (a b : R) : RtoC a = RtoC b -> a = b. Proof. by case. Qed.
Lemma RtoC_neq0 (a : R) : a <> 0%coqR -> RtoC a != 0.
Proof. by move=> h; apply/eqP => -[]. Qed.
Lemma RtoC_inv (a : R) : a <> 0%coqR -> RtoC (/ a) = (RtoC a)^-1.
Proof.
move=> h; apply: (mulfI (RtoC_neq0 h)).
rewrite mulfV ?RtoC_neq0 // -RtoC_mul Rinv_r //.
Qed.
Lemma RtoC_div (a b : R) : b <> 0%coqR -> RtoC (a / b) = RtoC a / RtoC b.
Proof. by move=> h; rewrite /Rdiv RtoC_mul RtoC_inv. Qed.

Lemma conj_real z : conj z = z -> z = RtoC (Re z).
Proof.
case: z => a b []; rewrite /Re /= => h.
have -> : b = 0%coqR by lra. by [].
Qed.
Lemma Re_RtoC r : Re (RtoC r) = r. Proof. by []. Qed.
Lemma Im_RtoC r : Im (RtoC r) = 0%coqR. Proof. by []. Qed.
Lemma ReD x y : Re (x + y) = (Re x + Re y)%coqR. Proof. by []. Qed.
Lemma ImD x y : Im (x + y) = (Im x + Im y)%coqR. Proof. by []. Qed.
Lemma ReN x : Re (- x) = (- Re x)%coqR. Proof. by []. Qed.
Lemma ImN x : Im (- x) = (- Im x)%coqR. Proof. by []. Qed.
Lemma ReM x y : Re (x * y) = (Re x * Re y - Im x * Im y)%coqR. Proof. by []. Qed.
Lemma ImM x y : Im (x * y) = (Re x * Im y + Im x * Re y)%coqR. Proof. by []. Qed.
Lemma Re_conj x : Re (conj x) = Re x. Proof. by []. Qed.
Lemma Im_conj x : Im (conj x) = (- Im x)%coqR. Proof. by []. Qed.
Lemma ReZ (r : R) x : Re (RtoC r * x) = (r * Re x)%coqR.
Proof. rewrite ReM Re_RtoC Im_RtoC; ring. Qed.
Lemma Re_sum (I : Type) (r : seq I) (P : pred I) (F : I -> C) :
  Re (\sum_(i <- r | P i) F i) = \big[Rplus/0%coqR]_(i <- r | P i) Re (F i).
Proof. by elim/big_rec2: _ => // i y1 y2 _ <-. Qed.

(** squared modulus *)
Definition nrm2 (z : C) : R := (Re z * Re z + Im z * Im z)%coqR.
Lemma mul_conj z : z * conj z = RtoC (nrm2 z).
Proof. by rewrite /nrm2; cext. Qed.
Lemma nrm2_ge0 z : (0 <= nrm2 z)%coqR.
Proof. by rewrite /nrm2; nra. Qed.
Lemma nrm2_eq0 z : nrm2 z = 0%coqR -> z = 0.
Proof. by rewrite /nrm2 => h; apply: Cext; rewrite -[RHS]/0%coqR; nra. Qed.

(** ** exponential: [np.exp] on complex arguments *)
Definition cexp (z : C) : C := (exp (Re z) * cos (Im z), exp (Re z) * sin (Im z))%coqR.

Lemma cexpD x y : cexp (x + y) = cexp x * cexp y.
Proof.
rewrite /cexp ReD ImD exp_plus cos_plus sin_plus; cext.
Qed.
Lemma cexp0 : cexp 0 = 1.
Proof. by rewrite /cexp /Re /Im /= exp_0 cos_0 sin_0; cext. Qed.
Lemma cexpN_mul x : cexp (- x) * cexp x = 1.
Proof. by rewrite -cexpD addNr cexp0. Qed.
Lemma cexp_neq0 x : cexp x != 0.
Proof. by apply/eqP => h; move: (cexpN_mul x); rewrite h mulr0 => /eqP; rewrite eq_sym oner_eq0. Qed.
Lemma cexpN x : cexp (- x) = (cexp x)^-1.
Proof. by apply: (mulIf (cexp_neq0 x)); rewrite cexpN_mul mulVf // cexp_neq0. Qed.
Lemma cexp_conj x : cexp (conj x) = conj (cexp x).
Proof. by rewrite /cexp Re_conj Im_conj cos_neg sin_neg; cext. Qed.
Lemma cexp_real (r : R) : cexp (RtoC r) = RtoC (exp r).
Proof. by rewrite /cexp Re_RtoC Im_RtoC cos_0 sin_0; cext. Qed.

(** ** [np.cos], [np.sin] on complex arguments *)
Definition ccos (z : C) : C := (cos (Re z) * cosh (Im z), - (sin (Re z) * sinh (Im z)))%coqR.
Definition csin (z : C) : C := (sin (Re z) * cosh (Im z), cos (Re z) * sinh (Im z))%coqR.

Lemma ccos_real (r : R) : ccos (RtoC r) = RtoC (cos r).
Proof. by rewrite /ccos Re_RtoC Im_RtoC cosh_0 sinh_0; cext. Qed.
Lemma csin_real (r : R) : csin (RtoC r) = RtoC (sin r).
Proof. by rewrite /csin Re_RtoC Im_RtoC cosh_0 sinh_0; cext. Qed.

(** ** principal square root: [z ** 0.5] for a complex array.
    [Re >= 0]; on the negative real axis the root is [+ i sqrt |z|]. *)
Definition csqrt (z : C) : C :=
  let m := sqrt (nrm2 z) in
  let a := sqrt ((m + Re z) / 2) in
  let b := sqrt ((m - Re z) / 2) in
  if Rlt_dec (Im z) 0 then (a, (- b)%coqR) else (a, b).

Lemma abs_Re_le z : (Rabs (Re z) <= sqrt (nrm2 z))%coqR.
Proof.
rewrite -sqrt_Rsqr_abs; apply: sqrt_le_1_alt; rewrite /Rsqr /nrm2; nra.
Qed.

Lemma csqrt_aux z : (sqrt ((sqrt (nrm2 z) + Re z) / 2) * sqrt ((sqrt (nrm2 z) - Re z) / 2)
   = Rabs (Im z) / 2)%coqR.
Proof.
have h := abs_Re_le z.
have [h1 h2] : (- sqrt (nrm2 z) <= Re z <= sqrt (nrm2 z))%coqR by move: h; rewrite /Rabs; case: Rcase_abs => ?; lra.
rewrite -sqrt_mult; try lra.
have -> : ((sqrt (nrm2 z) + Re z) / 2 * ((sqrt (nrm2 z) - Re z) / 2)
  = (sqrt (nrm2 z) * sqrt (nrm2 z) - Re z * Re z) / 4)%coqR by field.
rewrite sqrt_sqrt; last exact: nrm2_ge0.
have -> : ((nrm2 z - Re z * Re z) / 4 = Rsqr (Rabs (Im z) / 2))%coqR.
  rewrite /nrm2 /Rsqr -[X in (_ = X)%coqR]/( _ * _)%coqR.
  have := Rsqr_abs (Im z); rewrite /Rsqr => e; nra.
by rewrite sqrt_Rsqr //; have := Rabs_pos (Im z); lra.
Qed.

Lemma csqrt_sqr z : csqrt z * csqrt z = z.
Proof.
have h := abs_Re_le z.
have [h1 h2] : (- sqrt (nrm2 z) <= Re z <= sqrt (nrm2 z))%coqR by move: h; rewrite /Rabs; case: Rcase_abs => ?; lra.
have e1 : (sqrt ((sqrt (nrm2 z) + Re z) / 2) * sqrt ((sqrt (nrm2 z) + Re z) / 2)
   = (sqrt (nrm2 z) + Re z) / 2)%coqR by rewrite sqrt_sqrt //; lra.
have e2 : (sqrt ((sqrt (nrm2 z) - Re z) / 2) * sqrt ((sqrt (nrm2 z) - Re z) / 2)
   = (sqrt (nrm2 z) - Re z) / 2)%coqR by rewrite sqrt_sqrt //; lra.
have e3 := csqrt_aux z.
rewrite /csqrt; case: Rlt_dec => hi; apply: Cext; rewrite ?ReM ?ImM /Re /Im /= -/(Re z) -/(Im z).
- lra.
- rewrite Rabs_left // in e3; lra.
- lra.
- rewrite Rabs_right in e3; lra.
Qed.

Lemma csqrt_Re_ge0 z : (0 <= Re (csqrt z))%coqR.
Proof. by rewrite /csqrt; case: Rlt_dec => ?; rewrite /Re /=; apply: sqrt_pos. Qed.

Lemma csqrt_nonneg (r : R) : (0 <= r)%coqR -> csqrt (RtoC r) = RtoC (sqrt r).
Proof.
move=> h; rewrite /csqrt /nrm2 Re_RtoC Im_RtoC.
have -> : (r * r + 0 * 0 = r * r)%coqR by ring.
rewrite sqrt_square //.
have -> : ((r + r) / 2 = r)%coqR by field. have -> : ((r - r) / 2 = 0)%coqR by field.
by rewrite sqrt_0; case: Rlt_dec => // h0; lra.
Qed.

Lemma csqrt_neg (r : R) : (r < 0)%coqR -> csqrt (RtoC r) = ci * RtoC (sqrt (- r)).
Proof.
move=> h; rewrite /csqrt /nrm2 Re_RtoC Im_RtoC.
have -> : (r * r + 0 * 0 = (-r) * (-r))%coqR by ring.
rewrite sqrt_square; last lra.
have -> : ((-r + r) / 2 = 0)%coqR by field. have -> : ((-r - r) / 2 = -r)%coqR by field.
by rewrite sqrt_0; case: Rlt_dec => h0; [lra|]; cext.
Qed.

Lemma csqrt0 : csqrt 0 = 0.
Proof. by rewrite (csqrt_nonneg (Rle_refl 0)) sqrt_0. Qed.

Lemma csqrt_eq0 z : csqrt z = 0 -> z = 0.
Proof. by move=> h; rewrite -(csqrt_sqr z) h mul0r. Qed.
