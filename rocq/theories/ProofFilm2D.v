(** Unpatterned stacks in the conical and 2D solvers: the film fields, turned into the plane of incidence, solve the
    boundary-value problem of the solver, which has no other solution. *)
From Coq Require Import Reals Lra Psatz.
From mathcomp Require Import all_ssreflect ssralg matrix mxalgebra.
From Coquelicot Require Import Complex.
From Verif Require Import Cplx Mx ModelTM ModelField Spec SpecSolve SpecField SpecAgree SpecFilm SpecFilm2D ProofFlux ProofEnergy1D
  ProofEnergy2D ProofSetup ProofEff ProofEnd ProofSubstrate ProofWellSolve ProofPinv ProofField ProofBVP ProofBVP2
  ProofFieldSolve ProofAgree ProofAgree2 ProofAgree3 ProofFilm ProofFilmSolve.

Set Implicit Arguments.
Unset Strict Implicit.
Unset Printing Implicit Defensive.
Local Open Scope ring_scope.
Import GRing.Theory.

(** ** The field in a stack of films *)
Section Scalar.
Variables (tm : bool) (k0 : R) (kx : C).

Definition up (EH : C * C) : 'cV[C]_1 * 'cV[C]_1 := (\col_i EH.1, \col_i (- EH.2)).
Definition film_medium (ed : C * R) : medium 1 :=
  if tm then Medium (ed.1%:M) ((kx ^+ 2 / ed.1 - 1)%:M) ed.2 else Medium 1%:M ((kx ^+ 2 - ed.1)%:M) ed.2.
Definition rest (ed : C * R) z : C * R := (ed.1, (ed.2 - z)%coqR).
Definition film_profile ed EH : profile_of 1 :=
  (fun z => (up (film tm k0 kx (rest ed z) EH)).1, fun z => (up (film tm k0 kx (rest ed z) EH)).2).
Fixpoint film_profiles films EH : seq (profile_of 1) :=
  match films with
  | [::] => [::]
  | ed :: t => film_profile ed (foldr (film tm k0 kx) EH t) :: film_profiles t EH
  end.

Lemma ccosh0 : ccosh 0 = 1.
Proof. by rewrite /ccosh oppr0 cexp0 -[1 + 1]/(2%:R) divff ?Ctwo_neq0. Qed.
Lemma csinh0 : csinh 0 = 0.
Proof. by rewrite /csinh oppr0 subrr mul0r. Qed.
Lemma film_at0 e EH : film tm k0 kx (e, 0%coqR) EH = EH.
Proof. by rewrite /film /film_matrix /= mulr0 ccosh0 csinh0 !mul0r !mulr0 !mul0r !mul1r addr0 add0r; case: EH. Qed.

Lemma film_through films EH :
  through (map (@m_d 1) (map film_medium films)) (up (foldr (film tm k0 kx) EH films)) (film_profiles films EH) (up EH).
Proof.
have top e d EH' : ((film_profile (e, d) EH').1 0%coqR, (film_profile (e, d) EH').2 0%coqR) = up (film tm k0 kx (e, d) EH').
  by rewrite -[LHS]/(up (film tm k0 kx (e, (d - 0)%coqR) EH')) Rminus_0_r.
have bot e d EH' : ((film_profile (e, d) EH').1 d, (film_profile (e, d) EH').2 d) = up EH'.
  by rewrite -[LHS]/(up (film tm k0 kx (e, (d - d)%coqR) EH')) Rminus_eq_0 film_at0.
elim: films => [//|[e d] t IH]; have hd : m_d (film_medium (e, d)) = d by rewrite /film_medium; case: (tm).
split; first exact: top.
by rewrite hd bot; exact: IH.
Qed.

Lemma cderiv_hyp (q : C) d z :
  cderiv (fun t => ccosh (q * RtoC (d - t))) z (- q * csinh (q * RtoC (d - z))) /\
  cderiv (fun t => csinh (q * RtoC (d - t))) z (- q * ccosh (q * RtoC (d - z))).
Proof.
have e1 t : q * RtoC (d - t) = q * RtoC (-1 * t + d) by congr (_ * RtoC _); ring.
have e2 t : - (q * RtoC (d - t)) = q * RtoC (1 * t + - d) by rewrite -mulrN -RtoC_opp; congr (_ * RtoC _); ring.
have h1 := cderiv_exp q (-1) d z; have h2 := cderiv_exp q 1 (- d) z.
have m1 : RtoC (-1) = -1 by rewrite -[(-1)%coqR]/(- (1))%coqR RtoC_opp.
split.
  apply: (@cderiv_ext (fun t => 2%:R^-1 * (cexp (q * RtoC (-1 * t + d)) + cexp (q * RtoC (1 * t + - d))))).
    by move=> t; rewrite /ccosh e2 e1 mulrC.
  apply: cderiv_eq (cderiv_scale _ (cderiv_add h1 h2)).
  by rewrite /csinh e2 e1 m1 [RtoC 1](_ : _ = 1) //; move: (cexp _) (cexp _) (2%:R^-1) => a b c; cring.
apply: (@cderiv_ext (fun t => 2%:R^-1 * (cexp (q * RtoC (-1 * t + d)) - cexp (q * RtoC (1 * t + - d))))).
  by move=> t; rewrite /csinh e2 e1 mulrC.
apply: cderiv_eq (cderiv_scale _ (cderiv_sub h1 h2)).
by rewrite /ccosh e2 e1 m1 [RtoC 1](_ : _ = 1) //; move: (cexp _) (cexp _) (2%:R^-1) => a b c; cring.
Qed.

Lemma film_solves ed EH : ed.1 != 0 -> kx ^+ 2 != ed.1 ->
  solves k0 (film_medium ed) (film_profile ed EH).1 (film_profile ed EH).2.
Proof.
move=> e0 hk; set q := csqrt (kx ^+ 2 - ed.1); set y := admittance tm ed.1 q.
have qq : q * q = kx ^+ 2 - ed.1 by rewrite csqrt_sqr.
have q0 : q != 0 by apply/eqP => h; move: qq hk; rewrite h mulr0 => /esym /eqP; rewrite subr_eq0 => ->.
pose P := if tm then ed.1 else 1; pose Q := if tm then kx ^+ 2 / ed.1 - 1 else kx ^+ 2 - ed.1.
have hP : P * y = q by rewrite /P /y /admittance; case: (tm); [rewrite mulrC mulfVK|rewrite mul1r].
have hQ : Q = q * y.
  rewrite /Q /y /admittance; case: (tm); last by rewrite qq.
  by rewrite mulrA qq mulrBl divff.
have y0 : y != 0 by apply: contraNneq q0 => h; rewrite -hP h mulr0.
have hm : film_medium ed = Medium P%:M Q%:M ed.2 by rewrite /film_medium /P /Q; case: (tm).
have key z : vderiv (film_profile ed EH).1 z (RtoC k0 *: (P%:M *m (film_profile ed EH).2 z)) /\
             vderiv (film_profile ed EH).2 z (RtoC k0 *: (Q%:M *m (film_profile ed EH).1 z)).
  have [hc hs] := cderiv_hyp (RtoC k0 * q) ed.2 z; rewrite !mul_scalar_mx.
  have yy := mulVf y0.
  split=> i.
    apply: (@cderiv_ext (fun t => EH.1 * ccosh (RtoC k0 * q * RtoC (ed.2 - t)) + EH.2 / y * csinh (RtoC k0 * q * RtoC (ed.2 - t)))).
      by move=> t; rewrite !mxE /film /film_matrix /= -/q -/y; cring.
    apply: cderiv_eq (cderiv_add (cderiv_scale _ hc) (cderiv_scale _ hs)).
    rewrite !mxE /film /film_matrix /= -/q -/y -hP; move: (ccosh _) (csinh _) yy => a b; set v := y^-1 => yy.
    transitivity (- (RtoC k0 * P) * (EH.1 * y * b + (v * y) * EH.2 * a)); first cring.
    by rewrite yy; cring.
  apply: (@cderiv_ext (fun t => (- (y * EH.1)) * csinh (RtoC k0 * q * RtoC (ed.2 - t)) + (- EH.2) * ccosh (RtoC k0 * q * RtoC (ed.2 - t)))).
    by move=> t; rewrite !mxE /film /film_matrix /= -/q -/y; cring.
  apply: cderiv_eq (cderiv_add (cderiv_scale _ hs) (cderiv_scale _ hc)).
  rewrite !mxE /film /film_matrix /= -/q -/y hQ; move: (ccosh _) (csinh _) yy => a b; set v := y^-1 => yy.
  transitivity (RtoC k0 * q * (y * EH.1 * a + EH.2 * b * 1)); first cring.
  by rewrite -yy; cring.
rewrite hm; split=> z _; first exact: key.
by have [h1 h2] := key z; split; [exact: vderiv_vcont h1|exact: vderiv_vcont h2].
Qed.

Definition regular (films : seq (C * R)) : Prop := forall ed, List.In ed films -> ed.1 != 0 /\ kx ^+ 2 != ed.1.

Lemma film_bvp films EH : regular films ->
  boundary_value_problem k0 (map film_medium films) (up (foldr (film tm k0 kx) EH films)) (film_profiles films EH) (up EH).
Proof.
move=> h; split; first exact: film_through.
elim: films h => [//|ed t IH] h; split; last by apply: IH => x hx; apply: h; right.
by have [a b] := h ed (or_introl erefl); exact: film_solves.
Qed.
End Scalar.

(** ** Its image in the plane of incidence of the middle order *)
Section Azimuth.
Variables (n : nat) (i0 : 'I_n) (kx ky c s : nat -> C) (k0 : R).
Hypothesis unit_cs : c i0 ^+ 2 + s i0 ^+ 2 = 1.
Hypothesis along : c i0 * ky i0 = s i0 * kx i0.
Definition kap : C := c i0 * kx i0 + s i0 * ky i0.

Lemma kapx : kx i0 = kap * c i0.
Proof.
rewrite -[LHS]mul1r -unit_cs /kap.
transitivity (c i0 ^+ 2 * kx i0 + s i0 * (s i0 * kx i0)); first by rewrite !expr2; cring.
by rewrite -along expr2; cring.
Qed.
Lemma kapy : ky i0 = kap * s i0.
Proof.
rewrite -[LHS]mul1r -unit_cs /kap.
transitivity (c i0 * (c i0 * ky i0) + s i0 ^+ 2 * ky i0); first by rewrite expr2; cring.
by rewrite along expr2; cring.
Qed.
Lemma kap2 : kap ^+ 2 = kx i0 ^+ 2 + ky i0 ^+ 2.
Proof. by rewrite kapx kapy !exprMn -mulrDr unit_cs mulr1. Qed.

Definition dl (x : C) : 'M[C]_(n, 1) := \matrix_(i, j) (if i == i0 then x else 0).
Lemma dl_scalar x (y : C) : dl x *m y%:M = dl (x * y).
Proof. by apply/matrixP => i j; rewrite mul_mx_scalar !mxE; case: ifP => _; rewrite ?mulr0 // mulrC. Qed.
Lemma dl_col x (y : C) : dl x *m (\col_i y) = dl (x * y).
Proof. by rewrite -dl_scalar; congr (_ *m _); apply/matrixP => i j; rewrite !mxE !ord1 eqxx. Qed.
Lemma dlD x y : dl x + dl y = dl (x + y).
Proof. by apply/matrixP => i j; rewrite !mxE; case: ifP => _; rewrite ?addr0. Qed.
Lemma dlN x : - dl x = dl (- x).
Proof. by apply/matrixP => i j; rewrite !mxE; case: ifP => _; rewrite ?oppr0. Qed.
Lemma scalar_dl (e : C) x : e%:M *m dl x = dl (e * x).
Proof. by apply/matrixP => i j; rewrite mul_scalar_mx !mxE; case: ifP => _; rewrite ?mulr0. Qed.
Lemma diag_dl (f : 'I_n -> C) x (A : 'M[C]_n) : (forall i j, A i j = if i == j then f i else 0) -> A *m dl x = dl (f i0 * x).
Proof.
move=> h; apply/matrixP => i j; rewrite !mxE (bigD1 i) //= big1 ?addr0; last first.
  by move=> l hl; rewrite h eq_sym (negbTE hl) mul0r.
by rewrite h eqxx !mxE; case: eqP => [->|_]; rewrite ?mulr0.
Qed.
Lemma tk_dl ka kb (e : C) x : tk ka kb e%:M *m dl x = dl (ka i0 * e * kb i0 * x).
Proof.
apply: (diag_dl (f := fun i => ka i * e * kb i)) => i j; rewrite !mxE; case: eqP => [->|_]; first by rewrite mulr1n.
by rewrite mulr0n mulr0 mul0r.
Qed.
Lemma dk_dl ka kb x : dk n ka kb *m dl x = dl (ka i0 * kb i0 * x).
Proof. by apply: (diag_dl (f := fun i => ka i * kb i)) => i j; rewrite !mxE. Qed.

Definition pair_dl x y : 'M[C]_(n + n, 1) := col_mx (dl x) (dl y).

Lemma e_from_h_dl e x y : e_from_h kx ky (uniform_convs n e) *m pair_dl x y =
  pair_dl (- (kx i0 * e^-1 * ky i0 * x) + (kx i0 * e^-1 * kx i0 * y - y)) ((x - ky i0 * e^-1 * ky i0 * x) + ky i0 * e^-1 * kx i0 * y).
Proof.
rewrite /pair_dl /e_from_h /uniform_convs mul_block_col !mulNmx !mulmxBl !mul1mx !tk_dl.
by rewrite !dlN !dlD.
Qed.
Lemma h_from_e_dl e x y : h_from_e kx ky (uniform_convs n e) *m pair_dl x y =
  pair_dl (- (kx i0 * ky i0 * x) + (kx i0 * kx i0 * y - e * y)) ((e * x - ky i0 * ky i0 * x) + ky i0 * kx i0 * y).
Proof.
rewrite /pair_dl /h_from_e /uniform_convs mul_block_col !mulNmx !mulmxBl !scalar_dl !dk_dl.
by rewrite !dlN !dlD.
Qed.

Definition te_E t := pair_dl (- (t * s i0)) (t * c i0).
Definition te_H t := pair_dl (t * c i0) (t * s i0).

Lemma pair_scalar x y (p : C) : pair_dl x y *m p%:M = pair_dl (x * p) (y * p).
Proof. by rewrite /pair_dl mul_col_mx !dl_scalar. Qed.

Lemma te_film_embeds t films :
  embeds (te_E t) (te_H t) (map (film_medium false kap) films) (media_of kx ky (map (film_layer n) films)).
Proof.
elim: films => [//|[e d] fs IH]; split; [by []| | |exact: IH].
  rewrite -[m_P (medium_sp _ _ _ _)]/(e_from_h kx ky (uniform_convs n e)) [m_P _]/= /te_E /te_H e_from_h_dl pair_scalar kapx kapy.
  move: (e^-1) => v; congr pair_dl; cring.
rewrite -[m_Q (medium_sp _ _ _ _)]/(h_from_e kx ky (uniform_convs n e)) [m_Q _]/= /te_E /te_H h_from_e_dl pair_scalar kapx kapy.
have e1 : c i0 * c i0 + s i0 * s i0 = 1 by rewrite -!expr2.
congr pair_dl.
  transitivity (t * c i0 * (kap * kap * 1 - e)); first by rewrite expr2; cring.
  by rewrite -e1; cring.
transitivity (t * s i0 * (kap * kap * 1 - e)); first by rewrite expr2; cring.
by rewrite -e1; cring.
Qed.

Lemma tm_film_embeds a films : (forall ed, List.In ed films -> ed.1 != 0) ->
  embeds (te_H a) (te_E a) (map (@flipm 1) (map (film_medium true kap) films)) (media_of kx ky (map (film_layer n) films)).
Proof.
elim: films => [//|[e d] fs IH] he; split; [by []| | |by apply: IH => x hx; apply: he; right].
  have e1 : c i0 * c i0 + s i0 * s i0 = 1 by rewrite -!expr2.
  rewrite -[m_P (medium_sp _ _ _ _)]/(e_from_h kx ky (uniform_convs n e)) [m_P _]/= /te_E /te_H e_from_h_dl pair_scalar kapx kapy.
  move: (e^-1) => v; congr pair_dl.
    transitivity (a * c i0 * (kap * kap * v * 1 - 1)); first by rewrite expr2; cring.
    by rewrite -{1}e1; cring.
  transitivity (a * s i0 * (kap * kap * v * 1 - 1)); first by rewrite expr2; cring.
  by rewrite -{1}e1; cring.
rewrite -[m_Q (medium_sp _ _ _ _)]/(h_from_e kx ky (uniform_convs n e)) [m_Q _]/= /te_E /te_H h_from_e_dl pair_scalar kapx kapy.
by congr pair_dl; cring.
Qed.
End Azimuth.

(** ** Differences of solutions *)
Definition sub_profiles m (fs gs : seq (profile_of m)) : seq (profile_of m) :=
  [seq (fun z => p.1.1 z - p.2.1 z, fun z => p.1.2 z - p.2.2 z) | p <- zip fs gs].
Lemma bvp_sub m k0 (ls : seq (medium m)) t1 fs b1 t2 gs b2 :
  boundary_value_problem k0 ls t1 fs b1 -> boundary_value_problem k0 ls t2 gs b2 ->
  boundary_value_problem k0 ls (t1.1 - t2.1, t1.2 - t2.2) (sub_profiles fs gs) (b1.1 - b2.1, b1.2 - b2.2).
Proof.
case=> h1 h2 [h3 h4]; split.
  elim: (map _ _) t1 t2 fs gs h1 h3 {h2 h4} => [|d ds IH] t1 t2 [|[u v] fs] [|[u' v'] gs] //=; first by move=> -> ->.
  by case=> <- h1 [<- h3]; split=> //; exact: (IH _ _ _ _ h1 h3).
elim: ls fs gs h2 h4 {h1 h3} => [|l ls IH] [|[u v] fs] [|[u' v'] gs] //= [h1 h2] [h3 h4].
by split; [exact: solves_sub|exact: IH].
Qed.

Section Amps.
Variables (n : nat) (i0 : 'I_n) (kx ky c s : nat -> C) (k0 : R) (nt th nb : C).
Hypothesis mid : (i0 : nat) = (n %/ 2)%N.
Hypothesis unit_cs : c i0 ^+ 2 + s i0 ^+ 2 = 1.
Hypothesis along : c i0 * ky i0 = s i0 * kx i0.
Hypothesis nt0 : nt != 0.
Hypothesis kt : kz_of nt (kx i0) (ky i0) = nt * ccos th.
Let kb := kz_of nb (kx i0) (ky i0).
Let y0 tm := admittance tm (nt ^+ 2) (ci * (nt * ccos th)).
Let yb tm := admittance tm (nb ^+ 2) (ci * kb).
Let teE t := te_E i0 c s t.
Let teH t := te_H i0 c s t.

Lemma te_up t E H : (teE t *m (up (E, H)).1, teH t *m (up (E, H)).2) =
  (pair_dl i0 (- (t * s i0) * E) (t * c i0 * E), pair_dl i0 (- (t * c i0 * H)) (- (t * s i0 * H))).
Proof. by rewrite /teE /teH /te_E /te_H /pair_dl !mul_col_mx !dl_col !mulrN. Qed.
Lemma tm_up t E H : (teH t *m (up (E, H)).2, teE t *m (up (E, H)).1) =
  (pair_dl i0 (- (t * c i0 * H)) (- (t * s i0 * H)), pair_dl i0 (- (t * s i0) * E) (t * c i0 * E)).
Proof. by rewrite /teE /teH /te_E /te_H /pair_dl !mul_col_mx !dl_col !mulrN. Qed.

Lemma midE (i : 'I_n) : (i == (n %/ 2)%N :> nat) = (i == i0).
Proof. by rewrite -mid. Qed.

Ltac orders := let i := fresh "i" in congr pair; congr col_mx; apply/colP; intro i; rewrite !mxE ?midE; case: (i =P i0) => [->|_];
  rewrite ?kt -/kb ?(mulr0, mul0r, oppr0, addr0, subr0, subrr); try by [].

Lemma te_top t E H r : 1 + r = t * E -> y0 false * (1 - r) = t * H ->
  (teE t *m (up (E, H)).1, teH t *m (up (E, H)).2) = above_sp nt th (RtoC (PI / 2)) kx ky c s (dl i0 r) 0.
Proof.
rewrite te_up /y0 /admittance /= => h1 h2; rewrite /above_sp csin_pi2 ccos_pi2 /e_xy /h_xy /pair_dl.
orders.
- by rewrite mul1r h1; cring.
- by rewrite mul1r h1; cring.
- by transitivity (- (c i0 * (t * H))); [cring|rewrite -h2; cring].
- by transitivity (- (s i0 * (t * H))); [cring|rewrite -h2; cring].
Qed.
Lemma te_bottom t : (teE t *m (up (1, yb false)).1, teH t *m (up (1, yb false)).2) = below_sp nb kx ky c s (dl i0 t) 0.
Proof.
rewrite te_up /yb /admittance /= /below_sp /e_xy /h_xy /pair_dl.
by orders; cring.
Qed.
Lemma te_top0 t E H psi (Rs Rp : 'cV[C]_n) : y0 false * E + H = 0 ->
  let a := above_sp nt th psi kx ky c s Rs Rp in
  (a.1 - teE t *m (up (E, H)).1, a.2 - teH t *m (up (E, H)).2) = above_sp nt th psi kx ky c s (Rs - dl i0 (t * E)) Rp.
Proof.
move=> h0 a; have h : H = - (ci * (nt * ccos th) * E) by apply/eqP; rewrite -addr_eq0 addrC; apply/eqP; exact: h0.
have e1 := congr1 fst (te_up t E H); have e2 := congr1 snd (te_up t E H); rewrite -[LHS]/(_ *m _) in e1; rewrite -[LHS]/(_ *m _) in e2.
rewrite e1 e2 {e1 e2} /a /above_sp /e_xy /h_xy /pair_dl /= !opp_col_mx !add_col_mx h.
by orders; move: (Rs i0 ord0) (Rp i0 ord0) => u v; cring.
Qed.
Lemma te_bottom0 t (Ts Tp : 'cV[C]_n) : let a := below_sp nb kx ky c s Ts Tp in
  (a.1 - teE t *m (up (1, yb false)).1, a.2 - teH t *m (up (1, yb false)).2) = below_sp nb kx ky c s (Ts - dl i0 t) Tp.
Proof.
have e1 := congr1 fst (te_up t 1 (yb false)); have e2 := congr1 snd (te_up t 1 (yb false)); rewrite -[LHS]/(_ *m _) in e1; rewrite -[LHS]/(_ *m _) in e2; move=> a.
rewrite e1 e2 {e1 e2} /yb /admittance /a /below_sp /e_xy /h_xy /pair_dl /= !opp_col_mx !add_col_mx.
by orders; move: (Ts i0 ord0) (Tp i0 ord0) => u v; cring.
Qed.

Lemma y0tm : ci * nt * y0 true = - ccos th.
Proof.
rewrite /y0 /admittance /= expr2 invfM.
have e := mulfV nt0; move: e; set v := nt^-1 => e.
transitivity ((ci * ci) * ccos th * (nt * v) * (nt * v)); first cring.
by rewrite e ci2; cring.
Qed.
Lemma y0tmE : y0 true = ci / nt ^+ 2 * (nt * ccos th).
Proof. by rewrite /y0 /admittance /=; move: ((nt ^+ 2)^-1) => v; cring. Qed.

Lemma tm_top t E H r : 1 + r = t * E -> y0 true * (1 - r) = t * H -> let a := - (ci * nt * t) in
  (teH a *m (up (E, H)).2, teE a *m (up (E, H)).1) = above_sp nt th (RtoC 0) kx ky c s 0 (dl i0 (ci * nt * r)).
Proof.
move=> h1 h2 a; rewrite tm_up /above_sp csin_0 ccos_0 /e_xy /h_xy /pair_dl.
have k1 : - ccos th - ci / nt ^+ 2 * (nt * ccos th) * (ci * nt * r) = ci * nt * (t * H).
  rewrite -y0tmE -h2 -y0tm; cring.
have k2 : - (ci * nt) - ci * nt * r = a * E by rewrite /a -mulrA -mulrN; transitivity (- (ci * nt) * (1 + r)); [cring|rewrite h1; cring].
orders.
- rewrite !mul1r ?mulr1 k1 /a; cring.
- rewrite !mul1r ?mulr1 ?add0r k1 /a; cring.
- rewrite ?mulr1 k2; cring.
- rewrite ?mulr1 ?add0r k2; cring.
Qed.
Lemma tm_bottom t : let a := - (ci * nt * t) in
  (teH a *m (up (1, yb true)).2, teE a *m (up (1, yb true)).1) = below_sp nb kx ky c s 0 (dl i0 (ci * nt * t)).
Proof.
move=> a; rewrite tm_up /yb /admittance /= /below_sp /e_xy /h_xy /pair_dl /a.
by orders; move: ((nb ^+ 2)^-1) => v; cring.
Qed.
Lemma tm_top0 a E H psi (Rs Rp : 'cV[C]_n) : y0 true * E + H = 0 ->
  let A := above_sp nt th psi kx ky c s Rs Rp in
  (A.1 - teH a *m (up (E, H)).2, A.2 - teE a *m (up (E, H)).1) = above_sp nt th psi kx ky c s Rs (Rp + dl i0 (a * E)).
Proof.
move=> h0 A; have h : H = - (ci / nt ^+ 2 * (nt * ccos th) * E) by apply/eqP; rewrite -addr_eq0 addrC -y0tmE; apply/eqP; exact: h0.
have e1 := congr1 fst (tm_up a E H); have e2 := congr1 snd (tm_up a E H); rewrite -[LHS]/(_ *m _) in e1; rewrite -[LHS]/(_ *m _) in e2.
rewrite e1 e2 {e1 e2} /A /above_sp /e_xy /h_xy /pair_dl /= !opp_col_mx !add_col_mx h.
by orders; move: (Rs i0 ord0) (Rp i0 ord0) ((nt ^+ 2)^-1) => u v x; cring.
Qed.
Lemma tm_bottom0 a (Ts Tp : 'cV[C]_n) : let A := below_sp nb kx ky c s Ts Tp in
  (A.1 - teH a *m (up (1, yb true)).2, A.2 - teE a *m (up (1, yb true)).1) = below_sp nb kx ky c s Ts (Tp + dl i0 a).
Proof.
have e1 := congr1 fst (tm_up a 1 (yb true)); have e2 := congr1 snd (tm_up a 1 (yb true)); rewrite -[LHS]/(_ *m _) in e1; rewrite -[LHS]/(_ *m _) in e2; move=> A.
rewrite e1 e2 {e1 e2} /yb /admittance /A /below_sp /e_xy /h_xy /pair_dl /= !opp_col_mx !add_col_mx.
by orders; move: (Ts i0 ord0) (Tp i0 ord0) ((nb ^+ 2)^-1) => u v x; cring.
Qed.
End Amps.

Lemma dl_neq0 n (i0 : 'I_n) (x : C) : x != 0 -> dl i0 x <> 0.
Proof. by move=> /eqP h /matrixP /(_ i0 ord0); rewrite !mxE eqxx => /h. Qed.
Lemma sub_fix n (x y : 'cV[C]_n) : x - y = x -> y = 0.
Proof. by rewrite -[RHS]addr0 => /addrI /eqP; rewrite oppr_eq0 => /eqP. Qed.
Lemma add_fix n (x y : 'cV[C]_n) : x + y = x -> y = 0.
Proof. by rewrite -[RHS]addr0 => /addrI. Qed.
Lemma dl0 n (i0 : 'I_n) : dl i0 0 = 0.
Proof. by apply/matrixP => i j; rewrite !mxE; case: ifP. Qed.

(** From a tangential pair to reflection and transmission. *)
Lemma film_match y (E H : C) : y * E + H != 0 ->
  1 + film_r y (E, H) = film_t y (E, H) * E /\ y * (1 - film_r y (E, H)) = film_t y (E, H) * H.
Proof.
rewrite /film_r /film_t /= => d0; have e := mulfV d0; move: e; set v := (y * E + H)^-1 => e; split.
  transitivity ((y * E + H) * v + (y * E - H) * v); first by rewrite e.
  by rewrite -[2%:R]/(1 + 1); cring.
transitivity (y * ((y * E + H) * v - (y * E - H) * v)); first by rewrite e.
by rewrite -[2%:R]/(1 + 1); cring.
Qed.

Section Run.
Variables (n : nat) (i0 : 'I_n) (kx ky : nat -> C) (k0 : R) (nt th nb psi : C) (films : seq (C * R)).
Variables (r : sp_result n) (ml : 'cV[C]_(n + n) -> mlist n).
Hypothesis rx : real_vec n kx.
Hypothesis ry : real_vec n ky.
Hypothesis mid : (i0 : nat) = (n %/ 2)%N.
Hypothesis nt0 : nt != 0.
Hypothesis kt : kz_of nt (kx i0) (ky i0) = nt * ccos th.
Let c := fun i => cos_varphi (kx i) (ky i).
Let s := fun i => sin_varphi (kx i) (ky i).
Let kb := kz_of nb (kx i0) (ky i0).
Let y0 tm := admittance tm (nt ^+ 2) (ci * (nt * ccos th)).
Let yb tm := admittance tm (nb ^+ 2) (ci * kb).
Let ls := map (film_layer n) films.
Hypothesis thick0 : forall l, List.In l ls -> (0 <= thick l)%coqR.
Hypothesis hrun : run kx ky k0 th nt nb psi ls r ml.
Let kp := kap i0 kx ky c s.
Hypothesis reg : regular kp films.
Let EH tm := film_stack tm k0 kp films (yb tm).

Let hd' a : List.In a (media_of kx ky ls) -> (0 <= m_d a)%coqR.
Proof. by move=> ha; have [l hl ->] := In_map ha; exact: thick0. Qed.
Let unit_cs : c i0 ^+ 2 + s i0 ^+ 2 = 1.
Proof. by have [] := varphi_directions rx ry i0. Qed.
Let along : c i0 * ky i0 = s i0 * kx i0.
Proof. by have [_ h _ _ _] := varphi_directions rx ry i0. Qed.

Lemma te_denominator : y0 false * (EH false).1 + (EH false).2 != 0.
Proof.
apply/negP => /eqP h; have [_ _ [_ [b2 u2] _] _] := hrun.
have b := embed_bvp (te_film_embeds unit_cs along 1 films) (film_bvp false k0 (1, yb false) reg).
have b' := bvp_sub b2 b; rewrite -/(film_stack false k0 kp films (yb false)) -/(EH false) in b'.
move: h b'; case: (EH false) => E H h.
rewrite [in X in boundary_value_problem _ _ X _ _](te_top0 _ _ mid kt) // te_bottom0 // => b'.
have [_ _ e _] := u2 hd' _ _ _ _ _ b'.
by have /dl_neq0 := oner_neq0 [fieldType of C]; apply; exact: (sub_fix e).
Qed.

Lemma te_film : let rr := film_r (y0 false) (EH false) in let tt := film_t (y0 false) (EH false) in
  let d := res_te_inc r in [/\ R_s d = dl i0 rr, R_p d = 0, T_s d = dl i0 tt & T_p d = 0].
Proof.
have d0 := te_denominator; have [_ _ [_ [b2 u2] _] _] := hrun; move=> rr tt d; rewrite /rr /tt {rr tt}.
have b := embed_bvp (te_film_embeds unit_cs along (film_t (y0 false) (EH false)) films) (film_bvp false k0 (1, yb false) reg).
rewrite -/(film_stack false k0 kp films (yb false)) -/(EH false) in b.
move: d0 b; case: (EH false) => E H d0 b; have [m1 m2] := film_match d0.
rewrite (te_top _ _ mid kt m1 m2) te_bottom in b.
by have [-> -> -> ->] := u2 hd' _ _ _ _ _ b.
Qed.

Lemma films_neq0 : forall ed, List.In ed films -> ed.1 != 0.
Proof. by move=> ed /reg []. Qed.

Lemma tm_denominator : y0 true * (EH true).1 + (EH true).2 != 0.
Proof.
apply/negP => /eqP h; have [_ _ [_ _ [b3 u3]] _] := hrun.
have b := embed_bvp (tm_film_embeds unit_cs along 1 films_neq0) (flip_bvp (film_bvp true k0 (1, yb true) reg)).
have b' := bvp_sub b3 b; rewrite -/(film_stack true k0 kp films (yb true)) -/(EH true) in b'.
move: h b'; case: (EH true) => E H h.
rewrite [in X in boundary_value_problem _ _ X _ _](tm_top0 _ _ mid kt) // tm_bottom0 // => b'.
have [_ _ _ e] := u3 hd' _ _ _ _ _ b'.
by have /dl_neq0 := oner_neq0 [fieldType of C]; apply; exact: (add_fix e).
Qed.

Lemma tm_film : let rr := film_r (y0 true) (EH true) in let tt := film_t (y0 true) (EH true) in
  let d := res_tm_inc r in [/\ R_s d = 0, R_p d = dl i0 (ci * nt * rr), T_s d = 0 & T_p d = dl i0 (ci * nt * tt)].
Proof.
have d0 := tm_denominator; have [_ _ [_ _ [b3 u3]] _] := hrun; move=> rr tt d; rewrite /rr /tt {rr tt}.
have b := embed_bvp (tm_film_embeds unit_cs along (- (ci * nt * film_t (y0 true) (EH true))) films_neq0)
  (flip_bvp (film_bvp true k0 (1, yb true) reg)).
rewrite -/(film_stack true k0 kp films (yb true)) -/(EH true) in b.
move: d0 b; case: (EH true) => E H d0 b; have [m1 m2] := film_match d0.
rewrite [in X in boundary_value_problem _ _ X _ _](tm_top _ _ mid nt0 kt m1 m2) tm_bottom in b.
by have [-> -> -> ->] := u3 hd' _ _ _ _ _ b.
Qed.
End Run.

Lemma film_stack_sq tm k0 (k k' : C) films y : k ^+ 2 = k' ^+ 2 -> film_stack tm k0 k films y = film_stack tm k0 k' films y.
Proof. by move=> h; elim: films => [//|ed t IH]; rewrite /film_stack /= -/(film_stack _ _ _ _ _) IH /film h. Qed.

Lemma eff_scaled (a x : C) (v : R) : Re (a * x * conj (a * x) * RtoC v) = (nrm2 a * nrm2 x * v)%coqR.
Proof. by case: a x => a1 a2 [x1 x2]; rewrite /nrm2 /Re /Im /=; cunf => /=; ring. Qed.

Section Physical.
Variables (n : nat) (i0 : 'I_n) (kx ky : nat -> C) (w nt th nb : R) (psi : C) (films : seq (C * R)).
Variables (r : sp_result n) (ml : 'cV[C]_(n + n) -> mlist n).
Hypothesis rx : real_vec n kx.
Hypothesis ry : real_vec n ky.
Hypothesis mid : (i0 : nat) = (n %/ 2)%N.
Hypothesis nt0 : (0 < nt)%coqR.
Hypothesis hth : (0 <= th < PI / 2)%coqR.
Hypothesis hc : kx i0 ^+ 2 + ky i0 ^+ 2 = RtoC (nt * sin th) ^+ 2.
Hypothesis thick0 : forall ed, List.In ed films -> (0 <= ed.2)%coqR.
Hypothesis reg : forall ed, List.In ed films -> ed.1 != 0 /\ RtoC (nt * sin th) ^+ 2 != ed.1.
Hypothesis hrun : run kx ky (k0_of w) (RtoC th) (RtoC nt) (RtoC nb) psi (map (film_layer n) films) r ml.
Let c := fun i => cos_varphi (kx i) (ky i).
Let s := fun i => sin_varphi (kx i) (ky i).
Let kp := kap i0 kx ky c s.

Let n0 : RtoC nt != 0.
Proof. by apply: RtoC_neq0; lra. Qed.
Let kt : kz_of (RtoC nt) (kx i0) (ky i0) = RtoC nt * ccos (RtoC th).
Proof. by rewrite /kz_of (kz2_center nt0 hth hc) ccos_real RtoC_mul. Qed.
Let kp2 : kp ^+ 2 = RtoC (nt * sin th) ^+ 2.
Proof. by have [h1 h2 _ _ _] := varphi_directions rx ry i0; rewrite /kp (kap2 h1 h2). Qed.
Let kb : kz_of (RtoC nb) (kx i0) (ky i0) = kz_lossless nb (nt * sin th).
Proof. by rewrite /kz_of -kz_losslessE -hc opprD addrA. Qed.
Let y0E tm : admittance tm (RtoC nt ^+ 2) (ci * (RtoC nt * ccos (RtoC th))) = incident_y tm nt th.
Proof.
rewrite /admittance /incident_y ccos_real; case: tm; last by rewrite RtoC_mul.
rewrite /Rdiv RtoC_mul RtoC_inv; last lra.
rewrite expr2 invfM; have e1 := mulfV n0; move: e1; set x := (RtoC nt)^-1 => e1.
transitivity (ci * (RtoC (cos th) * x) * (RtoC nt * x)); first cring.
by rewrite e1 mulr1.
Qed.
Let ybE tm : admittance tm (RtoC nb ^+ 2) (ci * kz_of (RtoC nb) (kx i0) (ky i0)) = half_space tm nb (nt * sin th).
Proof. by rewrite kb /half_space RtoC_mul expr2. Qed.
Let EHE tm : film_stack tm (k0_of w) kp films (admittance tm (RtoC nb ^+ 2) (ci * kz_of (RtoC nb) (kx i0) (ky i0))) =
  film_pair tm w nt th nb films.
Proof. by rewrite ybE (film_stack_sq _ _ _ _ kp2). Qed.
Let thick1 l : List.In l (map (film_layer n) films) -> (0 <= thick l)%coqR.
Proof. by move=> hl; have [ed he ->] := In_map hl; exact: thick0. Qed.
Let reg1 : regular kp films.
Proof. by move=> ed he; rewrite kp2; exact: reg. Qed.
Let midE (i : 'I_n) : (i == (n %/ 2)%N :> nat) = (i == i0).
Proof. by rewrite -mid. Qed.
Let cos0 : (0 < cos th)%coqR.
Proof. exact: (cos_pos_below hth). Qed.
Let kz2 nn : kz_2d nn kx ky i0 = kz_of nn (kx i0) (ky i0).
Proof. by rewrite kz_2dE. Qed.

Lemma te_film_run : film_result false 1 w nt th nb films (res_te_inc r).
Proof.
have d0 := te_denominator rx ry mid kt thick1 hrun reg1; have := te_film rx ry mid kt thick1 hrun reg1.
rewrite y0E EHE in d0 *; move=> /= [e1 e2 e3 e4].
have [[_ er _] _ _ _] := hrun.
split=> //.
  move=> i; rewrite /co_R /co_T e1 e3 !mxE midE !mul1r; by case: ifP.
have q0 : RtoC nt * ccos (RtoC th) != 0 by rewrite ccos_real mulf_neq0 //; apply: RtoC_neq0; lra.
move=> i; rewrite er /report_sp /= e1 e2 e3 e4 !mxE midE !zero_de !Rplus_0_r; case: (i =P i0) => [->|_].
  rewrite !kz2 kt divff // kb -[X in X * conj X]mul1r -[X in _ = _ /\ Re (X * conj X * _) = _]mul1r !eff_scaled /film_R0 /film_T0.
  have -> : nrm2 1 = 1%coqR by rewrite /nrm2 /Re /Im /=; ring.
  have -> : half_space false nb (nt * sin th) / incident_y false nt th = kz_lossless nb (nt * sin th) / (RtoC nt * ccos (RtoC th)).
    rewrite /half_space /incident_y /admittance ccos_real -RtoC_mul invfM mulrACA divff ?ci_neq0 // mul1r //.
  by split; rewrite Rmult_1_l // [Re 1](_ : _ = 1%coqR) // Rmult_1_r.
by rewrite !zero_de.
Qed.

Lemma tm_film_run : film_result true (ci * RtoC nt) w nt th nb films (res_tm_inc r).
Proof.
have d0 := tm_denominator rx ry mid kt thick1 hrun reg1; have := tm_film rx ry mid n0 kt thick1 hrun reg1.
rewrite y0E EHE in d0 *; move=> /= [e1 e2 e3 e4].
have [[_ _ er] _ _ _] := hrun.
split=> //.
  by move=> i; rewrite /co_R /co_T e2 e4 !mxE midE; case: ifP.
have q0 : RtoC nt * ccos (RtoC th) != 0 by rewrite ccos_real mulf_neq0 //; apply: RtoC_neq0; lra.
have na : nrm2 (ci * RtoC nt) = (nt * nt)%coqR by rewrite /nrm2 /Re /Im /=; ring.
move=> i; rewrite er /report_sp /= e1 e2 e3 e4 !mxE midE !zero_de !Rplus_0_l; case: (i =P i0) => [->|_]; last by rewrite !zero_de.
rewrite !kz2 kt kb !eff_scaled na /film_R0 /film_T0.
have i1 : RtoC nt * ccos (RtoC th) / RtoC nt ^+ 2 / (RtoC nt * ccos (RtoC th)) = RtoC (/ (nt * nt)).
  by rewrite mulrAC divff // mul1r expr2 -RtoC_mul RtoC_inv //; nra.
have i2 : half_space true nb (nt * sin th) / incident_y true nt th =
  RtoC (nt * nt) * (kz_lossless nb (nt * sin th) / RtoC nb ^+ 2 / (RtoC nt * ccos (RtoC th))).
  rewrite /half_space /incident_y /admittance ccos_real expr2 -[RtoC nb * RtoC nb]RtoC_mul.
  have x0 : RtoC (cos th) != 0 by apply: RtoC_neq0; lra.
  have -> : RtoC (cos th / nt) = RtoC (cos th) / RtoC nt by rewrite /Rdiv RtoC_mul RtoC_inv //; lra.
  move: (kz_lossless _ _) (RtoC (nb * nb))^-1 => x y; rewrite !invfM invrK.
  have a1 := mulfV n0; have a2 := mulfV ci_neq0; move: a1 a2; move: (RtoC (cos th))^-1 => z.
  set v := (RtoC nt)^-1; set u := ci^-1 => a1 a2.
  transitivity ((ci * u) * (x * y * z * RtoC nt)); first cring.
  rewrite a2 RtoC_mul mul1r; transitivity ((RtoC nt * v) * (x * y * z * RtoC nt)); last cring.
  by rewrite a1 mul1r.
rewrite i1 i2; have -> : forall (a : R) z, Re (RtoC a * z) = (a * Re z)%coqR by move=> a [z1 z2]; rewrite /Re /=; cunf => /=; ring.
rewrite Re_RtoC -[film_r _ _]/(film_r0 true w nt th nb films) -[film_t _ _]/(film_t0 true w nt th nb films).
by split; [field; lra|ring].
Qed.

Lemma mixed_film_run (f : R) : psi = RtoC f -> superposed (csin psi) (ccos psi) (res r) (res_te_inc r) (res_tm_inc r) ->
  film_mixture (sin f ^ 2) (cos f ^ 2) w nt th nb films (res r).
Proof.
move=> -> hs i; have [_ p1 p2 _ p3] := te_film_run; have [_ q1 q2 _ q3] := tm_film_run.
rewrite /cross_R /cross_T in p1 p2 q1 q2; have [p4 p5] := p3 i; have [q4 q5] := q3 i.
have hm : mixture (sin f ^ 2)%coqR (cos f ^ 2)%coqR (res r) (res_te_inc r) (res_tm_inc r).
  move=> j; have [[k1 k2 k3] _ _ _] := hrun.
  have [s1 s2 s3 s4] := hs j; rewrite csin_real ccos_real p1 p2 q1 q2 !mxE !mulr0 ?addr0 ?add0r in s1 s2 s3 s4.
  rewrite k1 k2 k3 /report_sp /= p1 p2 q1 q2 s1 s2 s3 s4 !mxE !mul0r.
  have key (a : R) (x : C) (v : R) : Re (RtoC a * x * conj (RtoC a * x) * RtoC v) = (a ^ 2 * Re (x * conj x * RtoC v)%R)%coqR.
    by case: x => x y; rewrite /Re /Im /=; cunf => /=; ring.
  rewrite !key; have -> : Re 0 = 0%coqR by [].
  by split; ring.
have [m1 m2] := hm i; rewrite m1 m2 p4 p5 q4 q5; case: ifP => _; split=> //; ring.
Qed.
End Physical.

(** ** The solvers *)
Section Solvers.
Variable pinv : forall n, 'M[C]_n -> 'M[C]_n.
Variable eig : forall n, 'M[C]_n -> 'rV[C]_n * 'M[C]_n.
Hypothesis heig : eigen_oracle eig.
Variables (s : setup) (w nt th nb f : R) (films : seq (C * R)).
Hypothesis hnt : n_top s = RtoC nt.
Hypothesis nt0 : (0 < nt)%coqR.
Hypothesis hth : theta s = RtoC th.
Hypothesis th0 : (0 <= th < PI / 2)%coqR.
Hypothesis hphi : forall p, phi s = Some p -> is_real p.
Hypothesis hpsi : psi s = RtoC f.
Hypothesis hnb : n_bot s = RtoC nb.
Hypothesis ht : thickness s = map snd films.
Hypothesis hd : forall ed, List.In ed films -> (0 <= ed.2)%coqR.
Hypothesis he : forall ed, List.In ed films -> ed.1 != 0 /\ RtoC (nt * sin th) ^+ 2 != ed.1.
Let n := (ff_y s * ff_x s)%N.
Let convs := map (fun ed => uniform_convs n ed.1) films.

Let n1 : (n %/ 2 < n)%N.
Proof. by rewrite ltn_Pdiv // /n muln_gt0. Qed.

Lemma films_2d r infos : solve_2d pinv eig false s w convs = Some (r, infos) -> film_answer f w nt th nb films r.
Proof.
move=> h0; have hs := super_2d h0; move: h0; rewrite /solve_2d /convs ht layers_films => h.
have [p hp] := phi_real hphi; have [rx ry hc] := tiled_phys w hnt hth th0 hp.
have hr := run_2d rx ry (eigen_eig_ok heig) h; rewrite hth hnt hnb in hr.
pose i0 := Ordinal n1.
split; [exact: (te_film_run (i0 := i0) rx ry erefl nt0 th0 hc hd he hr)|exact: (tm_film_run (i0 := i0) rx ry erefl nt0 th0 hc hd he hr)|].
exact: (mixed_film_run (i0 := i0) rx ry erefl nt0 th0 hc hd he hr hpsi hs).
Qed.

Lemma films_conical r infos : solve_1d_conical pinv eig false s w convs = Some (r, infos) -> film_answer f w nt th nb films r.
Proof.
move=> h0; have hs := super_conical h0; move: h0; rewrite /solve_1d_conical; case: eqP => // hy.
rewrite /convs ht layers_films => h.
have [p hp] := phi_real hphi; have [rx ry hc] := tiled_phys w hnt hth th0 hp.
have hyu l : List.In l (map (film_layer n) films) -> y_uniform l.
  move=> hl; have [ed hed ->] := In_map hl; have [e0 _] := he hed.
  by rewrite /y_uniform /= -scalar_mxM mulVf.
have hr := run_conical rx ry (eigen_eig_ok heig) (ky_const w hy) hyu h; rewrite hth hnt hnb in hr.
pose i0 := Ordinal n1.
split; [exact: (te_film_run (i0 := i0) rx ry erefl nt0 th0 hc hd he hr)|exact: (tm_film_run (i0 := i0) rx ry erefl nt0 th0 hc hd he hr)|].
exact: (mixed_film_run (i0 := i0) rx ry erefl nt0 th0 hc hd he hr hpsi hs).
Qed.
End Solvers.


Lemma same_zero n m f w nt th nb films (r : sp_result n) (r' : sp_result m) :
  film_answer f w nt th nb films r -> film_answer f w nt th nb films r' ->
  [/\ same_zeroth (res r) (res r'), same_zeroth (res_te_inc r) (res_te_inc r') & same_zeroth (res_tm_inc r) (res_tm_inc r')].
Proof.
move=> [[_ _ _ _ h1] [_ _ _ _ h2] h3] [[_ _ _ _ g1] [_ _ _ _ g2] g3].
have gen (d : diffraction n) (d' : diffraction m) (u v : R) :
  (forall i : 'I_n, de_ri d i = (if (i : nat) == (n %/ 2)%N then u else 0%coqR) /\ de_ti d i = (if (i : nat) == (n %/ 2)%N then v else 0%coqR)) ->
  (forall i : 'I_m, de_ri d' i = (if (i : nat) == (m %/ 2)%N then u else 0%coqR) /\ de_ti d' i = (if (i : nat) == (m %/ 2)%N then v else 0%coqR)) ->
  same_zeroth d d'.
  move=> hd hd' i j; have [-> ->] := hd i; have [-> ->] := hd' j.
  by do 2!case: eqP => // ?.
by split; [exact: (gen _ _ _ _ h3 g3)|exact: (gen _ _ _ _ h1 g1)|exact: (gen _ _ _ _ h2 g2)].
Qed.

(** A bare interface. *)
Lemma film_fresnel tm w nt th nb tb : (0 < nt)%coqR -> (0 <= th < PI / 2)%coqR -> (0 < nb)%coqR -> (0 <= tb < PI / 2)%coqR ->
  (nt * sin th = nb * sin tb)%coqR ->
  film_r0 tm w nt th nb [::] = RtoC (fresnel_r tm nt th nb tb) /\ film_t0 tm w nt th nb [::] = RtoC (fresnel_t tm nt th nb tb).
Proof.
move=> h0 h2 b0 htb snell; rewrite /film_r0 /film_t0 /film_pair /film_r /film_t /film_stack /= (half_space_snell tm b0 htb snell) /incident_y.
have p1 := cos_pos_below h2; have p2 := cos_pos_below htb; rewrite mulr1 /fresnel_r /fresnel_t.
have q1 := Rmult_lt_0_compat _ _ h0 p1; have q2 := Rmult_lt_0_compat _ _ b0 p2.
have q3 := Rmult_lt_0_compat _ _ h0 p2; have q4 := Rmult_lt_0_compat _ _ b0 p1.
have i1 := Rinv_0_lt_compat _ h0; have i2 := Rinv_0_lt_compat _ b0.
have q5 := Rmult_lt_0_compat _ _ p1 i1; have q6 := Rmult_lt_0_compat _ _ p2 i2.
split.
- case: (tm); rewrite -mulrDr -mulrBr -RtoC_add -RtoC_sub Rdiv_ci -RtoC_div.
  + congr RtoC; field; lra.
  + by rewrite /Rdiv; lra.
  + by [].
  + lra.
- have e2c : 2%:R = RtoC 2 by rewrite -[2%coqR]/(1 + 1)%coqR RtoC_add.
  case: (tm); rewrite e2c mulrCA -RtoC_mul -mulrDr -RtoC_add Rdiv_ci -RtoC_div.
  + congr RtoC; field; lra.
  + by rewrite /Rdiv; lra.
  + by congr RtoC; rewrite /Rdiv; ring.
  + lra.
Qed.
