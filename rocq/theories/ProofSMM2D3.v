From Coq Require Import Reals Lra Psatz.
From mathcomp Require Import all_ssreflect ssralg matrix mxalgebra.
From Coquelicot Require Import Complex.
From Verif Require Import Cplx Mx Spec SpecSolve SpecField ModelTM ModelSMM ModelSMM2D SpecSMM2D ProofFlux ProofEff ProofEnergy1D ProofEnergy2D ProofEnd
  ProofSubstrate ProofWellSolve ProofField ProofBVP ProofBVP2 ProofFilmSolve SpecSMM ProofSMM ProofSMM2 ProofSMM2D ProofSMM2D2.

Set Implicit Arguments.
Unset Strict Implicit.
Unset Printing Implicit Defensive.
Local Open Scope ring_scope.
Import GRing.Theory.

(** ** Power of one order *)
Lemma nrm2MM (x y : C) : nrm2 (x * y)%R = (nrm2 x * nrm2 y)%coqR.
Proof. by case: x => a b; case: y => c d; rewrite /nrm2 /Re /Im /=; ring. Qed.
Lemma nrm2_R x : nrm2 (RtoC x) = (x * x)%coqR.
Proof. by rewrite /nrm2 /Re /Im /=; ring. Qed.
Lemma Re_divR z W : W <> 0%coqR -> Re (z / RtoC W) = (Re z / W)%coqR.
Proof. by move=> W0; rewrite -RtoC_inv //; case: z => a b; rewrite /Re /=; field. Qed.
Lemma nrm2_rot (c s : R) (a b : C) : (c * c + s * s = 1)%coqR ->
  (nrm2 (RtoC c * b - RtoC s * a)%R + nrm2 (RtoC c * a + RtoC s * b)%R = nrm2 a + nrm2 b)%coqR.
Proof.
case: a => a1 a2; case: b => b1 b2 h; rewrite /nrm2 /Re /Im /=.
transitivity ((c * c + s * s) * (a1 * a1 + a2 * a2 + (b1 * b1 + b2 * b2)))%coqR; last by rewrite h; ring.
ring.
Qed.

Lemma power_rot (nn nt th kx ky c s : R) (es p : C) (sg : C) : nn <> 0%coqR -> (nt * cos th <> 0)%coqR -> nrm2 sg = 1%coqR ->
  (c * c + s * s = 1)%coqR -> (c * ky = s * kx)%coqR ->
  let z := kz_of (RtoC nn) (RtoC kx) (RtoC ky) in z != 0 ->
  let ep := sg * (ci / RtoC nn ^+ 2 * z * p) in
  wave_power (RtoC nn) (RtoC nt) (RtoC th) (RtoC kx) (RtoC ky) (RtoC c * ep - RtoC s * es) (RtoC c * es + RtoC s * ep) =
  (nrm2 es * Re (z / (RtoC nt * ccos (RtoC th)))%R + nrm2 p * Re (z / RtoC nn ^+ 2 / (RtoC nt * ccos (RtoC th)))%R)%coqR.
Proof.
move=> nn0 W0 hsg h1 hd z z0 ep; rewrite /wave_power -/z ccos_real -RtoC_mul !Re_divR //.
have zz : z * z = RtoC nn ^+ 2 - RtoC kx ^+ 2 - RtoC ky ^+ 2 by exact: kz_sq.
have hri : (Re z * Im z = 0)%coqR.
  have : Im (z * z) = 0%coqR by rewrite zz !expr2 -!RtoC_mul -!RtoC_sub.
  by case: z {z0 ep zz} => a b; rewrite /Re /Im /=; lra.
have n20 : (nn * nn <> 0)%coqR by nra.
rewrite (_ : Re (z / RtoC nn ^+ 2)%R = (Re z / (nn * nn))%coqR); last by rewrite expr2 -RtoC_mul Re_divR.
case: (Req_dec (Re z) 0) => r0; first by rewrite r0 /Rdiv !(Rmult_0_l, Rmult_0_r); lra.
have i0 : Im z = 0%coqR by nra.
have eq : z = RtoC (Re z) by rewrite /Re /Im in i0 *; case: (z) i0 => a b /= ->.
set x := Re z in r0 eq *.
have xx : (x * x = nn * nn - kx * kx - ky * ky)%coqR.
  by move: zz; rewrite eq !expr2 -!RtoC_mul -!RtoC_sub; case.
have kxE : (kx = c * (c * kx + s * ky))%coqR by transitivity ((c * c + s * s) * kx)%coqR; [rewrite h1; ring|rewrite Rmult_plus_distr_r (Rmult_assoc s s) -hd; ring].
have kyE : (ky = s * (c * kx + s * ky))%coqR by transitivity ((c * c + s * s) * ky)%coqR; [rewrite h1; ring|rewrite Rmult_plus_distr_r (Rmult_assoc c c) hd; ring].
rewrite (nrm2_rot _ _ h1).
have dotE : RtoC kx * (RtoC c * ep - RtoC s * es) + RtoC ky * (RtoC c * es + RtoC s * ep) = RtoC (c * kx + s * ky) * ep.
  rewrite (_ : _ + _ = (RtoC c * RtoC kx + RtoC s * RtoC ky) * ep + (RtoC c * RtoC ky - RtoC s * RtoC kx) * es); last by mring.
  by rewrite -!RtoC_mul hd subrr mul0r addr0 RtoC_add.
rewrite dotE; set rho := (c * kx + s * ky)%coqR.
have rr : (rho * rho = kx * kx + ky * ky)%coqR.
  transitivity ((c * rho) * (c * rho) + (s * rho) * (s * rho))%coqR; last by rewrite -kxE -kyE.
  by transitivity ((c * c + s * s) * (rho * rho))%coqR; [rewrite h1|]; ring.
have epn : (nrm2 ep = x * x / (nn * nn * (nn * nn)) * nrm2 p)%coqR.
  rewrite /ep !nrm2MM hsg eq nrm2_R (_ : nrm2 ci = 1%coqR); last by rewrite /nrm2 /ci /Re /Im /=; ring.
  by rewrite expr2 -RtoC_mul -RtoC_inv // nrm2_R; field.
rewrite eq -RtoC_inv // nrm2MM nrm2MM !nrm2_R epn.
have -> : (rho * rho = nn * nn - x * x)%coqR by rewrite rr xx; ring.
rewrite -[Re (RtoC _)]/(nt * cos th)%coqR; move: (nt * cos th)%coqR W0 => W W0; clearbody x; move: (nrm2 es) (nrm2 p) => A B.
by field.
Qed.

(** ** The incident field *)
Definition v3 (a b c : R) : C * C * C := (RtoC a, RtoC b, RtoC c).
Lemma cross_v3 a b c x y z : cross (v3 a b c) (v3 x y z) = v3 (b * z - c * y) (c * x - a * z) (a * y - b * x).
Proof. by rewrite /cross /v3 -!RtoC_mul -!RtoC_sub. Qed.
Lemma unit_v3 v a b c : (0 < v)%coqR -> (a * a + b * b + c * c = v * v)%coqR -> unit3 (v3 a b c) = Some (v3 (a / v) (b / v) (c / v)).
Proof.
move=> v0 h; have hn : norm3 (v3 a b c) = v.
  by rewrite /norm3 /v3 !nrm2_R h sqrt_square //; lra.
have e0 : reqb v 0 = false by rewrite /reqb; case: Req_EM_T => // e; lra.
rewrite /unit3 hn e0.
by rewrite /v3 -!RtoC_mul.
Qed.

Section Source.
Variables (nt th ph : R).
Hypothesis nt0 : (0 < nt)%coqR.
Hypothesis hth : (0 < th < PI / 2)%coqR.

Lemma sourceE te : smm_source te (RtoC nt) (RtoC th) (RtoC ph) =
  Some (if te then (RtoC (sin ph), RtoC (- cos ph)) else (RtoC (- (cos th * cos ph)), RtoC (- (cos th * sin ph)))).
Proof.
have s0 : (0 < sin th)%coqR by apply: sin_gt_0; have := PI_RGT_0; lra.
have c0 : (0 < cos th)%coqR by apply: cos_gt_0; lra.
have p1 : (sin ph * sin ph + cos ph * cos ph = 1)%coqR by have := sin2_cos2 ph; rewrite /Rsqr.
have t1 : (sin th * sin th + cos th * cos th = 1)%coqR by have := sin2_cos2 th; rewrite /Rsqr.
rewrite /smm_source !ccos_real !csin_real -!RtoC_mul.
have -> : (RtoC th != 0) by apply: RtoC_neq0; lra.
rewrite -[(0, 0, 1)]/(v3 0 0 1) -[(RtoC _, RtoC _, RtoC _)]/(v3 _ _ _) cross_v3.
rewrite (unit_v3 (v := (nt * sin th)%coqR)); last 2 first.
- by apply: Rmult_lt_0_compat.
- set N := nt; transitivity (N * sin th * (N * sin th) * (sin ph * sin ph + cos ph * cos ph))%coqR; [ring|rewrite p1; ring].
rewrite cross_v3 (unit_v3 (v := nt)) //; last first.
  transitivity (nt * nt * (cos th * cos th * (sin ph * sin ph + cos ph * cos ph) +
    sin th * sin th * ((sin ph * sin ph + cos ph * cos ph) * (sin ph * sin ph + cos ph * cos ph))))%coqR; last by rewrite p1; transitivity (nt * nt * (sin th * sin th + cos th * cos th))%coqR; [ring|rewrite t1; ring].
  field; split; lra.
have nn : nt <> 0%coqR by lra.
have sn : sin th <> 0%coqR by lra.
by case: te; congr Some; congr pair; congr RtoC; field.
Qed.
End Source.

Section Agreement.
Variable pinv : forall n, 'M[C]_n -> 'M[C]_n.
Variable eig : forall n, 'M[C]_n -> 'rV[C]_n * 'M[C]_n.
Variable n : nat.
Variables (kx ky : nat -> C) (k0 : R) (th ph nt nb : R).
Hypothesis rx : forall i, (i < n)%N -> exists x : R, kx i = RtoC x.
Hypothesis ry : forall i, (i < n)%N -> exists x : R, ky i = RtoC x.
Hypothesis n_gt0 : (0 < n)%N.
Hypothesis nt0 : (0 < nt)%coqR.
Hypothesis nb0 : nb <> 0%coqR.
Hypothesis hth : (0 < th < PI / 2)%coqR.
Hypothesis hoff : off_axes n kx ky.
Hypothesis hgt : off_grazing n (RtoC nt) kx ky.
Hypothesis hgb : off_grazing n (RtoC nb) kx ky.
Hypothesis mx : kx (n %/ 2)%N = RtoC (nt * sin th * cos ph).
Hypothesis my : ky (n %/ 2)%N = RtoC (nt * sin th * sin ph).
Let c := fun i => cos_varphi (kx i) (ky i).
Let s := fun i => sin_varphi (kx i) (ky i).

Lemma hmid : kx (n %/ 2)%N ^+ 2 + ky (n %/ 2)%N ^+ 2 = RtoC (nt * sin th) ^+ 2.
Proof.
rewrite mx my !expr2 -!RtoC_mul -RtoC_add; congr RtoC.
have p1 : (sin ph * sin ph + cos ph * cos ph = 1)%coqR by have := sin2_cos2 ph; rewrite /Rsqr.
by transitivity (nt * sin th * (nt * sin th) * (sin ph * sin ph + cos ph * cos ph))%coqR; [ring|rewrite p1; ring].
Qed.

Lemma dirs : directions n kx ky c s.
Proof. exact: varphi_directions (rvx rx) (rvy ry). Qed.
Lemma dirsR (i : 'I_n) : exists a b : R, [/\ c i = RtoC a, s i = RtoC b, (a * a + b * b = 1)%coqR
  & forall x y, kx i = RtoC x -> ky i = RtoC y -> (a * y = b * x)%coqR].
Proof.
have [h1 h2 h3 h4 _] := dirs i; exists (Re (c i)), (Re (s i)).
have ec : c i = RtoC (Re (c i)) by case: h3 => x ->.
have es : s i = RtoC (Re (s i)) by case: h4 => x ->.
split=> //.
- by move: h1; rewrite {1}ec {1}es !expr2 -!RtoC_mul -RtoC_add; case.
- by move=> x y ex ey; move: h2; rewrite {1}ec {1}es ex ey -!RtoC_mul; case.
Qed.

Lemma mid_lt : (n %/ 2 < n)%N.
Proof. by rewrite ltn_Pdiv. Qed.

Lemma sigma : let mid := (n %/ 2)%N in exists a b sg : R, [/\ c mid = RtoC a, s mid = RtoC b, a = (sg * cos ph)%coqR, b = (sg * sin ph)%coqR & sg = 1%coqR \/ sg = (-1)%coqR].
Proof.
have [a [b [ea eb h1 h2]]] := dirsR (Ordinal mid_lt).
have p1 : (sin ph * sin ph + cos ph * cos ph = 1)%coqR by have := sin2_cos2 ph; rewrite /Rsqr.
have s0 : (0 < sin th)%coqR by apply: sin_gt_0; have := PI_RGT_0; lra.
have w0 : (nt * sin th <> 0)%coqR by nra.
have e : (a * sin ph = b * cos ph)%coqR.
  have h := h2 _ _ mx my; apply: (Rmult_eq_reg_l (nt * sin th)) => //.
  transitivity (a * (nt * sin th * sin ph))%coqR; first ring.
  by rewrite h; ring.
exists a, b, (a * cos ph + b * sin ph)%coqR; split=> //.
- transitivity (a * (sin ph * sin ph + cos ph * cos ph))%coqR; [rewrite p1; ring|].
  by rewrite Rmult_plus_distr_l -Rmult_assoc e; ring.
- transitivity (b * (sin ph * sin ph + cos ph * cos ph))%coqR; [rewrite p1; ring|].
  by rewrite Rmult_plus_distr_l -(Rmult_assoc b (cos ph)) -e; ring.
- have q : ((a * cos ph + b * sin ph) * (a * cos ph + b * sin ph) = 1)%coqR.
    transitivity (a * a * (cos ph * cos ph) + 2 * (a * sin ph) * (b * cos ph) + b * b * (sin ph * sin ph))%coqR; first ring.
    transitivity ((a * a + b * b) * (sin ph * sin ph + cos ph * cos ph) - (a * sin ph - b * cos ph) * (a * sin ph - b * cos ph))%coqR; first ring.
    by rewrite h1 p1 e; ring.
  move: (a * cos ph + b * sin ph)%coqR q => x q.
  have : ((x - 1) * (x + 1) = 0)%coqR by lra.
  by case/Rmult_integral => h; [left|right]; lra.
Qed.

Lemma source_inc te : exists2 sg : C, pm1 sg & forall px py, smm_source te (RtoC nt) (RtoC th) (RtoC ph) = Some (px, py) ->
  col_mx (px *: delta_i0 n) (py *: delta_i0 n) = sg *: inc_xy n kx ky th (if te then RtoC (PI / 2) else RtoC 0).
Proof.
have [a [b [g [ea eb ha hb hg]]]] := sigma.
have gg : (g * g = 1)%coqR by case: hg => ->; ring.
exists (if te then RtoC (- g) else RtoC g).
  have em : RtoC (-1) = -1 by rewrite RtoC_opp.
  by case: te; case: hg => ->; rewrite ?Ropp_involutive /pm1 ?em; [right|left|left|right].
move=> px py; rewrite (sourceE ph nt0 hth).
rewrite /inc_xy /e_xy scale_col_mx; case: te => - [] epx epy; congr col_mx; apply/colP => i; rewrite !mxE;
  case: ifP => [/eqP ei|_]; rewrite ?mulr0 ?oppr0 ?mulr0 ?subrr ?addr0 ?mulr0 //;
  rewrite !ccos_real !csin_real ?sin_PI2 ?cos_PI2 ?sin_0 ?cos_0 -/(c i) -/(s i) ei ea eb -?epx -?epy ha hb.
all: rewrite !mulr1 -?RtoC_mul -?RtoC_opp -?RtoC_mul -?RtoC_sub -?RtoC_add -?RtoC_mul; congr RtoC.
all: try (transitivity (g * g * sin ph)%coqR; [rewrite gg|]; ring).
all: try (transitivity (- (g * g * cos ph))%coqR; [rewrite gg|]; ring).
all: try (transitivity (- (g * g * cos th * cos ph))%coqR; [rewrite gg|]; ring).
all: try (transitivity (- (g * g * cos th * sin ph))%coqR; [rewrite gg|]; ring).
Qed.
Lemma rcwa_eff psi (ls : seq (layer n)) r infos : rcwa_2d pinv eig false kx ky k0 psi (RtoC th) (RtoC nt) (RtoC nb) ls = Some (r, infos) ->
  forall d, d = res r \/ d = res_te_inc r \/ d = res_tm_inc r -> forall i : 'I_n,
  de_ri d i = (nrm2 (R_s d i ord0) * Re (kz_of (RtoC nt) (kx i) (ky i) / (RtoC nt * ccos (RtoC th)))%R +
               nrm2 (R_p d i ord0) * Re (kz_of (RtoC nt) (kx i) (ky i) / RtoC nt ^+ 2 / (RtoC nt * ccos (RtoC th)))%R)%coqR /\
  de_ti d i = (nrm2 (T_s d i ord0) * Re (kz_of (RtoC nb) (kx i) (ky i) / (RtoC nt * ccos (RtoC th)))%R +
               nrm2 (T_p d i ord0) * Re (kz_of (RtoC nb) (kx i) (ky i) / RtoC nb ^+ 2 / (RtoC nt * ccos (RtoC th)))%R)%coqR.
Proof.
rewrite /rcwa_2d /transfer_sp_1; case: ifP => // _.
case hs: (stack_with _ _ _) => [[[[F G] T] is']|] //.
case h4: (transfer_sp_4 _ _ _ _ _ _ _ _ _ _ _) => [r4|] //; have [uA ->] := transfer_sp_4_some h4.
by case=> <- _ d [->|[->|->]] i /=; rewrite !de_form.
Qed.

Lemma xy_power nn (i : 'I_n) (es p g : C) : nn <> 0%coqR -> off_grazing n (RtoC nn) kx ky -> nrm2 g = 1%coqR ->
  let z := kz_of (RtoC nn) (kx i) (ky i) in let ep := g * (ci / RtoC nn ^+ 2 * z * p) in
  wave_power (RtoC nn) (RtoC nt) (RtoC th) (kx i) (ky i) (c i * ep - s i * es) (c i * es + s i * ep) =
  (nrm2 es * Re (z / (RtoC nt * ccos (RtoC th)))%R + nrm2 p * Re (z / RtoC nn ^+ 2 / (RtoC nt * ccos (RtoC th)))%R)%coqR.
Proof.
move=> nn0 hg g1 z ep; have z0 := kz_n0 rx ry i hg; rewrite -/z in z0.
have [a [b [ea eb h1 h2]]] := dirsR i.
have [x ex] := rx (ltn_ord i); have [y ey] := ry (ltn_ord i).
have cth : (0 < cos th)%coqR by apply: cos_gt_0; lra.
have W0 : (nt * cos th <> 0)%coqR by nra.
have := power_rot es p nn0 W0 g1 h1 (h2 _ _ ex ey).
by rewrite /ep /z ea eb ex ey => h; apply: h; rewrite -ex -ey.
Qed.

Lemma power_pm nn (x y u v sg : C) : pm1 sg -> wave_power nn (RtoC nt) (RtoC th) x y (sg * u) (sg * v) = wave_power nn (RtoC nt) (RtoC th) x y u v.
Proof.
move=> h; have g1 : nrm2 sg = 1%coqR by case: h => ->; rewrite /nrm2 /Re /Im /=; ring.
rewrite /wave_power (_ : (x * (sg * u) + y * (sg * v)) / kz_of nn x y = sg * ((x * u + y * v) / kz_of nn x y)); last by mring.
by rewrite !(nrm2MM sg) g1 !Rmult_1_l.
Qed.

Lemma agreement pol kxa kya psi (ls : seq (layer n)) r infos d :
  rcwa_2d pinv eig false kx ky k0 psi (RtoC th) (RtoC nt) (RtoC nb) ls = Some (r, infos) ->
  smm_2d eig pol kx ky kxa kya k0 (RtoC th) (RtoC ph) (RtoC nt) (RtoC nb) ls = Some d ->
  let e := if reqb pol 0 then res_te_inc r else res_tm_inc r in
  (exists2 sg : C, pm1 sg & col_mx (R_s d) (R_p d) = sg *: refl_xy (RtoC nt) kx ky c s e /\
                            col_mx (T_s d) (T_p d) = sg *: trans_xy (RtoC nb) kx ky c s e) /\
  (forall i : 'I_n, wave_power (RtoC nt) (RtoC nt) (RtoC th) (kx i) (ky i) (R_s d i ord0) (R_p d i ord0) = de_ri e i /\
                    wave_power (RtoC nb) (RtoC nt) (RtoC th) (kx i) (ky i) (T_s d i ord0) (T_p d i ord0) = de_ti e i).
Proof.
move=> hr; rewrite /smm_2d.
case hsl: (smm_slabs _ _ _ _) => [sl|] //; case hS: (device _ _ _ _ _ _) => [S|] //.
case: ifP => // _; have [sg hsg hsrc] := source_inc (reqb pol 0).
case hso: (smm_source _ _ _ _) => [[px py]|] //; rewrite (hsrc _ _ hso) => - [] <- /=.
set e := if reqb pol 0 then res_te_inc r else res_tm_inc r.
have [e1 e2] : refl_xy (RtoC nt) kx ky c s e = S11 S *m inc_xy n kx ky th (if reqb pol 0 then RtoC (PI / 2) else RtoC 0) /\
               trans_xy (RtoC nb) kx ky c s e = S21 S *m inc_xy n kx ky th (if reqb pol 0 then RtoC (PI / 2) else RtoC 0).
  apply: (device_2d rx ry nt0 nb0 hth hoff hgt hgb hmid hr hsl hS).
  by rewrite /e; case: (reqb pol 0); [right; left|right; right].
rewrite -!scalemxAr -e1 -e2 !vsubmxK; split; first by exists sg.
have he : e = res r \/ e = res_te_inc r \/ e = res_tm_inc r by rewrite /e; case: (reqb pol 0); [right; left|right; right].
move=> i; have [-> ->] := rcwa_eff hr he i.
rewrite /refl_xy /trans_xy /e_xy !scale_col_mx !col_mxKu !col_mxKd !mxE !power_pm //.
have nn0 : nt <> 0%coqR by lra.
split.
- rewrite -(xy_power i (R_s e i ord0) (R_p e i ord0) (g := -1) nn0 hgt) ?mulN1r //.
  by rewrite /nrm2 /Re /Im /=; ring.
- rewrite -(xy_power i (T_s e i ord0) (T_p e i ord0) (g := 1) nb0 hgb) ?mul1r //.
  by rewrite /nrm2 /Re /Im /=; ring.
Qed.
End Agreement.
