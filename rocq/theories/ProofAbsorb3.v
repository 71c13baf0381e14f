(** Solver-level well-posedness of stacks with absorbing layers. *)
From Coq Require Import Reals Lra Psatz.
From mathcomp Require Import all_ssreflect ssralg matrix mxalgebra.
From Coquelicot Require Import Complex.
From Verif Require Import Cplx Mx Spec ModelTM SpecSolve SpecField SpecVec SpecPassive SpecAbsorb ProofFlux ProofEnergy1D ProofEnergy2D
  ProofFilm ProofStack ProofCompose ProofSetup ProofWell ProofWellSolve ProofField ProofBVP ProofBVP2 ProofPassive ProofPassive2
  ProofAbsorb ProofAbsorb2.

Set Implicit Arguments.
Unset Strict Implicit.
Unset Printing Implicit Defensive.
Local Open Scope ring_scope.
Import GRing.Theory.

Lemma quad0 n (A : 'M[C]_n) : quad A 0 = 0.
Proof. by rewrite quadE /dot big1 // => i _; rewrite mxE conj0 mul0r. Qed.
Lemma absorbing_le n ex ey ez : absorbing_convs ((ex, ey, ez) : conv3 n) ->
  forall v, [/\ (Im (quad ex v) <= 0)%coqR, (Im (quad ey v) <= 0)%coqR & (0 <= Im (quad ez v))%coqR].
Proof.
move=> h v; case: (eqVneq v 0) => [->|/eqP /h [h1 h2 h3]]; last by split; lra.
by rewrite !quad0 /Im /=; split; lra.
Qed.
Lemma absorbing_inj n ex ey ez (v : 'cV[C]_n) : absorbing_convs (ex, ey, ez) ->
  Im (quad ex v) = 0%coqR \/ Im (quad ey v) = 0%coqR \/ Im (quad ez v) = 0%coqR -> v = 0.
Proof. by move=> h e; apply/eqP; case: eqP => // /h [h1 h2 h3]; case: e => [|[]] e; lra. Qed.

Lemma dot0l n (v : 'cV[C]_n) : dot 0 v = 0.
Proof. by rewrite /dot big1 // => i _; rewrite mxE conj0 mul0r. Qed.
Lemma dot0r n (v : 'cV[C]_n) : dot v 0 = 0.
Proof. by rewrite /dot big1 // => i _; rewrite mxE mulr0. Qed.

Section Units.
Variables (m : nat) (S : 'M[C]_m) (k0 : R) (P Q : 'M[C]_m).
Lemma Q_unit : (forall u v, power_loss S k0 P Q u v = 0%coqR -> u = 0) -> Q \in unitmx.
Proof.
move=> h; apply: unit_inj => u e; apply: (h u 0).
by rewrite /power_loss e !mulmx0 !dot0r addr0 /Im /=; ring.
Qed.
Lemma P_unit : (forall u v, power_loss S k0 P Q u v = 0%coqR -> v = 0) -> P \in unitmx.
Proof.
move=> h; apply: unit_inj => v e; apply: (h 0 v).
by rewrite /power_loss e !mulmx0 !dot0l addr0 /Im /=; ring.
Qed.
End Units.

Lemma real_of_vec n (k : nat -> C) : real_vec n k -> forall i : 'I_n, is_real (k i).
Proof.
move=> h i; exists (Re (k i)); apply: Cext; rewrite ?Re_RtoC ?Im_RtoC //.
by have := congr1 Im (h i (ltn_ord i)); rewrite Im_conj; lra.
Qed.

Lemma loss_const m S k0 (l : medium m) u v : loss S k0 l (fun=> u, fun=> v) 0 = power_loss S k0 (m_P l) (m_Q l) u v.
Proof. by []. Qed.

Lemma TM_B_unit n (kx : nat -> C) (ez : 'M[C]_n) : real_vec n kx ->
  (forall v : 'cV[C]_n, v <> 0 -> (0 < Im (quad ez v))%coqR) -> diagf n kx *m ez *m diagf n kx - 1%:M \in unitmx.
Proof.
move=> hk hz; apply: unit_inj => v /eqP; rewrite mulmxBl mul1mx subr_eq0 => /eqP e.
set w := diagf n kx *m v.
have eq : quad ez w = dot v v.
  transitivity (dot v (diagf n kx *m ez *m diagf n kx *m v)); last by rewrite e.
  rewrite quadE -[LHS]dotE -[RHS]dotE /w adjM.
  have -> : adj (diagf n kx) = diagf n kx := herm_diag hk.
  by rewrite !mulmxA.
have w0 : w = 0 by apply/eqP; case: eqP => // /hz; rewrite eq Im_dot_self; lra.
by rewrite -e -mulmxA -/w w0 mulmx0.
Qed.

Lemma pos_of_neg (k0 x y : R) : (0 < k0)%coqR -> (x <= 0)%coqR -> (0 <= y)%coqR -> (0 <= k0 * (- x + y))%coqR.
Proof. by move=> h1 h2 h3; apply: Rmult_le_pos; lra. Qed.
Lemma zero_of_neg (k0 x y : R) : (0 < k0)%coqR -> (x <= 0)%coqR -> (0 <= y)%coqR -> (k0 * (- x + y) = 0)%coqR ->
  x = 0%coqR /\ y = 0%coqR.
Proof. by move=> h1 h2 h3 /Rmult_integral [|]; [lra|split; lra]. Qed.

(** ** The three mounts absorb *)
Lemma absorber_1d n (tm : bool) (k0 : R) kx (c : conv3 n) d : (0 < k0)%coqR -> real_vec n kx -> absorbing_convs c ->
  absorber 1%:M k0 (m_P (medium_1d tm kx c d)) (m_Q (medium_1d tm kx c d)).
Proof.
case: c => [[ex ey] ez] hk rk hc; have rk' := real_of_vec rk; have hle := absorbing_le hc; set P := m_P _; set Q := m_Q _.
have eL u v : power_loss 1%:M k0 P Q u v = joule_1d tm k0 kx (ex, ey, ez) (fun=> u, fun=> v) 0.
  by rewrite -(loss_1d tm k0 (ex, ey, ez) d _ 0 rk').
have ge u v : (0 <= power_loss 1%:M k0 P Q u v)%coqR.
  rewrite eL /joule_1d {P Q eL}; case: tm => /=.
    have [h1 _ _] := hle v; have [_ _ h3] := hle (\col_i (kx i * u i ord0)).
    exact (pos_of_neg hk h1 h3).
  by have [_ h2 _] := hle u; apply: Rmult_le_pos; lra.
move: ge eL; rewrite /P /Q {P Q}; case: tm => ge eL.
- have hv u v : power_loss 1%:M k0 (m_P (medium_1d true kx (ex, ey, ez) d)) (m_Q (medium_1d true kx (ex, ey, ez) d)) u v = 0%coqR -> v = 0.
    rewrite eL /joule_1d /=; have [h1 _ _] := hle v; have [_ _ h3] := hle (\col_i (kx i * u i ord0)).
    by case/(zero_of_neg hk h1 h3) => e _; apply: (absorbing_inj hc); left.
  split=> //; [exact: P_unit hv| |by right].
  rewrite /medium_1d /m_Q.
  have -> : \matrix_(i, j) (kx i * ez i j * kx j - (if i == j then 1 else 0)) = diagf n kx *m ez *m diagf n kx - 1%:M.
    by rewrite /diagf mul_mx_diag mul_diag_mx; apply/matrixP => i j; rewrite !mxE; case: eqP.
  by apply: TM_B_unit => // v v0; have [] := hc v v0.
- have hu u v : power_loss 1%:M k0 (m_P (medium_1d false kx (ex, ey, ez) d)) (m_Q (medium_1d false kx (ex, ey, ez) d)) u v = 0%coqR -> u = 0.
    rewrite eL /joule_1d /=; have [_ h2 _] := hle u; move=> e.
    apply: (absorbing_inj hc); right; left; case: (Rmult_integral _ _ e); lra.
  by split=> //; [exact: unitmx1|exact: Q_unit hu|left].
Qed.

Lemma absorber_sp n (k0 : R) kx ky (c : conv3 n) d : (0 < k0)%coqR -> real_vec n kx -> real_vec n ky -> absorbing_convs c ->
  absorber (- Jxy n) k0 (m_P (medium_sp kx ky c d)) (m_Q (medium_sp kx ky c d)).
Proof.
case: c => [[ex ey] ez] hk rkx rky hc; have hle := absorbing_le hc; have rx := real_of_vec rkx; have ry := real_of_vec rky; set P := m_P _; set Q := m_Q _.
have eL u v : power_loss (- Jxy n) k0 P Q u v = joule_sp k0 kx ky (ex, ey, ez) (fun=> u, fun=> v) 0.
  by rewrite -(loss_sp k0 (ex, ey, ez) d _ 0 rx ry).
have ge u v : (0 <= power_loss (- Jxy n) k0 P Q u v)%coqR.
  rewrite eL /joule_sp /=; set dz := \col_i _.
  have [h1 _ _] := hle (usubmx u); have [_ h2 _] := hle (dsubmx u); have [_ _ h3] := hle dz.
  by apply: Rmult_le_pos; lra.
have hz u v : power_loss (- Jxy n) k0 P Q u v = 0%coqR ->
  u = 0 /\ (\col_i (kx i * v (rshift n i) ord0 - ky i * v (lshift n i) ord0) : 'cV[C]_n) = 0.
  rewrite eL /joule_sp /=; set dz := \col_i _.
  have [h1 _ _] := hle (usubmx u); have [_ h2 _] := hle (dsubmx u); have [_ _ h3] := hle dz.
  case/Rmult_integral => e; first lra.
  split; last by apply: (absorbing_inj hc); right; right; lra.
  rewrite -[u]vsubmxK.
  have -> : usubmx u = 0 by apply: (absorbing_inj hc); left; lra.
  have -> : dsubmx u = 0 by apply: (absorbing_inj hc); right; left; lra.
  exact: col_mx0.
have hu u v : power_loss (- Jxy n) k0 P Q u v = 0%coqR -> u = 0 by case/hz.
split=> //; [|exact: Q_unit hu|by left].
apply: unit_inj => v e.
have [_ dz0] : (0 : 'cV[C]_(n + n)) = 0 /\ (\col_i (kx i * v (rshift n i) ord0 - ky i * v (lshift n i) ord0) : 'cV[C]_n) = 0.
  by apply: (hz 0 v); rewrite /power_loss e !dot0l addr0 /Im /=; ring.
move: e; rewrite /P /medium_sp /m_P -{1}[v]vsubmxK /e_from_h mul_block_col !mulmxBl !mulNmx !mul1mx !ProofPassive2.tkE.
set p := usubmx v; set q := dsubmx v.
have ew : dg kx q - dg ky p = 0 by rewrite -dz0; apply/colP => i; rewrite !mxE.
have {}ew : dg kx q = dg ky p by apply/eqP; rewrite -subr_eq0 ew.
rewrite -{1}col_mx0 => /eq_col_mx [e1 e2].
have p0 : p = 0 by move: e2; rewrite ew subrK.
have q0 : q = 0 by move: e1; rewrite ew addKr => /eqP; rewrite oppr_eq0 => /eqP.
by rewrite -[v]vsubmxK -/p -/q p0 q0 col_mx0.
Qed.

Lemma sqrtv_Re n (lam : 'rV[C]_n) j : (0 <= Re (sqrtv lam ord0 j))%coqR.
Proof. rewrite mxE; exact: csqrt_Re_ge0. Qed.

(** ** Classical mount *)
Section OneD.
Variable pinv : forall n, 'M[C]_n -> 'M[C]_n.
Variable eig : forall n, 'M[C]_n -> 'rV[C]_n * 'M[C]_n.
Hypothesis heig : eig_ok eig.

Lemma eat_1d p n kx (l : layer n) k0 : p = 0%coqR \/ p = 1%coqR -> (0 < k0)%coqR -> (0 < thick l)%coqR -> real_vec n kx ->
  dark_1d eig p kx (epx l, epy l, epzi l) -> eating 1%:M (modes_1d pinv eig p kx k0 l).
Proof.
move=> hp hk hd rk [hc hb].
have [W [V [q [e uW hq]]]] : exists W V q, [/\ transfer_1d_2 pinv eig false p kx (epx l) (epy l) (epzi l) = Some (W, V, q),
    W \in unitmx & forall j, (0 <= Re (q ord0 j))%coqR].
  move: hb; rewrite /basis /helmholtz; case: hp => ->.
    case: (Req_EM_T 0 0) => [h|h]; last by case: h.
    rewrite te_operatorE /transfer_1d_2 reqb_refl /=; case: (eig _) => lam U /= uU.
    by do 3 eexists; split; [reflexivity|exact: uU|move=> j; exact: sqrtv_Re].
  case: (Req_EM_T 1 0) => [h|h]; first lra.
  rewrite tm_operatorE /transfer_1d_2 reqb10 reqb_refl /=; case: (eig _) => lam U /= uU.
  rewrite meeinv_unit; last first.
    apply: unit_inj => v ev; apply: (absorbing_inj hc); left; by rewrite quadE ev dot0r.
  by do 3 eexists; split; [reflexivity|exact: uU|move=> j; exact: sqrtv_Re].
have [eP eQ] := diagonal_1d heig e.
have ha := absorber_1d (is_tm p) (thick l) hk rk hc.
have [uV _] := mode_units ha eQ uW.
exists W, V, (Xmat k0 q (thick l)); rewrite /modes_1d e; split=> //; split=> //.
- by move=> b b0; exact: (down_power hk ha eP eQ uW hq b0).
- by move=> a b hab; exact: (layer_drop hk ha eP eQ uW hd hab).
Qed.

Lemma fine_1d p n kx k0 th (nt nb : R) (ls : seq (layer n)) :
  p = 0%coqR \/ p = 1%coqR -> (0 < nt)%coqR -> (0 < nb)%coqR ->
  (forall l, List.In l ls -> fine 1%:M (modes_1d pinv eig p kx k0 l)) ->
  (forall i, (i < n)%N -> (0 < Re (kz_1d (RtoC nt) kx i))%coqR) \/
    (exists2 l, List.In l ls & eating 1%:M (modes_1d pinv eig p kx k0 l)) ->
  exists r T1 infos, rcwa_1d pinv eig false p kx k0 th (RtoC nt) (RtoC nb) ls = Some (r, T1, infos).
Proof.
move=> hpol hnt hnb hl htop.
have hS : adj (1%:M : 'M[C]_n) = 1%:M by rewrite adj1.
have hm l : List.In l (map (modes_1d pinv eig p kx k0) ls) -> fine 1%:M l.
  by move=> /List.in_map_iff [x [<- hx]]; exact: hl.
have he : (exists2 l, List.In l ls & eating 1%:M (modes_1d pinv eig p kx k0 l)) ->
   exists2 l, List.In l (map (modes_1d pinv eig p kx k0) ls) & eating 1%:M l.
  by move=> [l hi h]; exists (modes_1d pinv eig p kx k0 l) => //; exact: (List.in_map _ _ _ hi).
have hb nn i : (i < n)%N -> (0 <= Re (kz_1d (RtoC nn) kx i))%coqR.
  by move=> _; rewrite /kz_1d Re_conj; exact: csqrt_Re_ge0.
have hb2 (nn : R) i : (0 < nn)%coqR -> (i < n)%N -> (0 <= Re (kz_1d (RtoC nn) kx i / RtoC nn ^+ 2)%R)%coqR.
  move=> h0 hi; rewrite expr2 -RtoC_mul Re_div_real; last by nra.
  apply: Rmult_le_pos; first exact: hb.
  by apply: Rlt_le; apply: Rinv_0_lt_compat; nra.
suff : exists r, reported_1d (rcwa_1d pinv eig false p kx k0 th (RtoC nt) (RtoC nb) ls) = Some r.
  case: (rcwa_1d _ _ _ _ _ _ _ _ _ _) => [[[r T1] is']|] /= [] // r' _.
  by exists r, T1, is'.
rewrite reported_rcwa_1d /transfer_1d_1.
case: hpol => epol; rewrite epol in hm he htop *.
  rewrite reqb_refl.
  have [F [G [T [-> ok st]]]] := fine_gstack hS pinv 1%:M hm (start_1d_ok (hb nb)).
  rewrite /= /fin_1d /transfer_1d_4 reqb_refl /= meeinv_unit; first by eexists.
  case: htop => [hkz|h]; first exact: final_1d_unit ok hkz.
  exact: final_1d_strict (st (he h)) (hb nt).
rewrite reqb10 reqb_refl.
have [F [G [T [-> ok st]]]] := fine_gstack hS pinv 1%:M hm (start_1d_ok (fun i => hb2 nb i hnb)).
rewrite /= /fin_1d /transfer_1d_4 reqb10 reqb_refl /= meeinv_unit; first by eexists.
have -> : (ci / RtoC nt ^+ 2) *: diagf n (kz_1d (RtoC nt) kx) = ci *: diagf n (fun i => kz_1d (RtoC nt) kx i / RtoC nt ^+ 2).
  rewrite !diagfZ; apply: diagf_eq => i _; set y := _^-1; cring.
case: htop => [hkz|h]; last exact: final_1d_strict (st (he h)) (fun i => hb2 nt i hnt).
apply: final_1d_unit ok _ => i hi; rewrite expr2 -RtoC_mul Re_div_real; last by nra.
apply: Rmult_lt_0_compat; first exact: hkz.
by apply: Rinv_0_lt_compat; nra.
Qed.
End OneD.

Lemma layers_of_thick n (convs : seq (conv3 n)) ts ls : layers_of convs ts = Some ls ->
  forall l, List.In l ls -> List.In (thick l) ts.
Proof.
elim: ts convs ls => [|t ts IH] [|[[ex ey] ez] cs] ls //=; try by case=> <-.
case e: (layers_of cs ts) => [ls'|] // [<-] l /= [<-|h]; first by left.
by right; exact: (IH _ _ e).
Qed.
Lemma layers_of_conv n (convs : seq (conv3 n)) ts ls : layers_of convs ts = Some ls ->
  forall c, List.In c (take (size ts) convs) -> exists2 l, List.In l ls & (epx l, epy l, epzi l) = c.
Proof.
elim: ts convs ls => [|t ts IH] [|[[ex ey] ez] cs] ls //=; try by case=> <-.
case e: (layers_of cs ts) => [ls'|] // [<-] c /= [<-|h]; first by eexists; [left; reflexivity|].
by have [l hl <-] := IH _ _ e _ h; exists l => //; right.
Qed.

Section Top.
Variable pinv : forall n, 'M[C]_n -> 'M[C]_n.
Variable eig : forall n, 'M[C]_n -> 'rV[C]_n * 'M[C]_n.
Hypothesis heig : eigen_oracle eig.

Lemma k0_pos w : (0 < w)%coqR -> (0 < k0_of w)%coqR.
Proof. by move=> h; rewrite /k0_of; apply: Rdiv_lt_0_compat => //; have := PI_RGT_0; lra. Qed.

Lemma absorb_solve_1d s w (convs : seq (conv3 (ff_x s))) (nt nb : R) :
  physical s -> n_top s = RtoC nt -> n_bot s = RtoC nb -> (0 < nb)%coqR -> pol s = 0%coqR \/ pol s = 1%coqR ->
  (0 < w)%coqR -> (forall t, List.In t (thickness s) -> (0 < t)%coqR) -> (size (thickness s) <= size convs)%N ->
  (forall c, List.In c (used s convs) ->
     clear_1d eig (pol s) (kx_vector s w) c \/ dark_1d eig (pol s) (kx_vector s w) c) ->
  all_orders_propagate (ff_x s) nt (kx_vector s w) \/
    (exists2 c, List.In c (used s convs) & dark_1d eig (pol s) (kx_vector s w) c) ->
  exists r T1 infos, solve_1d pinv eig false s w convs = Some (r, T1, infos).
Proof.
move=> [[nt' h0 h1] [th h2 h3] hp _ _] ent enb hnb hpol hw hts hsz hl htop; rewrite /solve_1d.
have {}h0 : (0 < nt)%coqR by move: h0; rewrite ent in h1; case: h1 => ->.
have [f hf] := phi_real hp; have [kxE _] := kx_phys w ent h3 h2 hf.
have rk : real_vec (ff_x s) (kx_vector s w) by move=> i _; rewrite kxE conjR.
have [ls e] := layers_of_some hsz; rewrite e ent enb.
have hk := k0_pos hw; have heig' := eigen_eig_ok heig.
have dark l : List.In l ls -> dark_1d eig (pol s) (kx_vector s w) (epx l, epy l, epzi l) ->
    eating 1%:M (modes_1d pinv eig (pol s) (kx_vector s w) (k0_of w) l).
  by move=> hi hd; apply: (eat_1d pinv heig' hpol hk _ rk hd); apply: hts; exact: (layers_of_thick e hi).
apply: fine_1d => //.
- move=> l hi; case: (hl _ (layers_of_in e hi)) => [[[hx hy hz] hm ht]|hd]; last by right; exact: dark.
  left; have ll : lossless l by split; apply: hermitian_herm.
  suff [W [V [q [em gm]]]] : exists W V q, transfer_1d_2 pinv eig false (pol s) (kx_vector s w) (epx l) (epy l) (epzi l) = Some (W, V, q) /\ good_modes 1%:M W V q.
    by exists W, V, q, (k0_of w), (thick l); rewrite /modes_1d em.
  move: hm; rewrite /helmholtz; case: Req_EM_T => pe.
    rewrite te_operatorE /= pe => hm.
    exact: (good_te pinv heig' rk ll hm).
  have pe1 : pol s = 1%coqR by case: hpol.
  rewrite tm_operatorE /= pe1 => hm; have [uE /positive_definiteE pE] := ht pe1.
  exact: (good_tm pinv heig' rk ll uE pE hm).
- case: htop => [hall|[c hc hd]].
    by left=> i li; have [x e1 /kz_pos] := hall (Ordinal li); rewrite /kz_1d /= in e1 *; rewrite e1.
  right; have [l hi ec] := layers_of_conv e hc; exists l => //; apply: dark => //; by rewrite ec.
Qed.
End Top.
