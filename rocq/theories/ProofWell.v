(** Well-posedness: for lossless stacks whose layer modes all propagate, lit from a medium where all retained orders
    propagate, none of the inversions of the solver can fail. *)
From Coq Require Import Reals Lra Psatz.
From mathcomp Require Import all_ssreflect ssralg matrix mxalgebra.
From Coquelicot Require Import Complex.
From Verif Require Import Cplx Mx Spec ModelTM SpecSolve ProofFlux ProofEnergy1D ProofEnergy2D ProofFilm ProofStack ProofCompose.

Set Implicit Arguments.
Unset Strict Implicit.
Unset Printing Implicit Defensive.
Local Open Scope ring_scope.
Import GRing.Theory.

Lemma unit_inj n (A : 'M[C]_n) : (forall v : 'cV[C]_n, A *m v = 0 -> v = 0) -> A \in unitmx.
Proof.
move=> h; rewrite unitmxE unitfE; apply/eqP => d.
have/eqP/det0P [v v0 e] : \det A^T = 0 by rewrite det_tr.
case/eqP: v0; rewrite -[v]trmxK (h v^T) ?trmx0 //.
by rewrite -[A]trmxK -trmx_mul e trmx0.
Qed.

Section Power.
Variable m : nat.
Variable S : 'M[C]_m.
Hypothesis hS : adj S = S.

Definition pw (f g : 'cV[C]_m) : R := Im ((adj f *m S *m g) ord0 ord0).

Lemma pw_flux (F G : 'M[C]_m) (v : 'cV[C]_m) :
  (adj v *m flux S F G *m v) ord0 ord0 = 2%:R * ci * RtoC (pw (F *m v) (G *m v)).
Proof.
rewrite flux_vec hS /pw mxE [X in _ + X]mxE.
have -> : (adj (G *m v) *m S *m (F *m v)) ord0 ord0 = conj ((adj (F *m v) *m S *m (G *m v)) ord0 ord0).
  by rewrite -adjE !adjM hS !adjK !mulmxA.
by set z := (_ *m _) _ _; have -> : (2%:R : C) = 1 + 1 by []; rewrite /ci; cext.
Qed.

Lemma pwNr f g : pw f (- g) = (- pw f g)%coqR.
Proof. by rewrite /pw mulmxN mxE ImN. Qed.

(** State of the loop: power never flows upwards, and distinct coefficient vectors give distinct tangential fields. *)
Definition ok_state (F G : 'M[C]_m) : Prop :=
  (forall v : 'cV[C]_m, (0 <= pw (F *m v) (G *m v))%coqR) /\
  (forall v : 'cV[C]_m, F *m v = 0 -> G *m v = 0 -> v = 0).

Definition good_modes (W V : 'M[C]_m) (q : 'rV[C]_m) : Prop :=
  [/\ W \in unitmx, V \in unitmx,
      herm (adj W *m S *m V *m diag_mx q), herm (adj (diag_mx q) *m (adj W *m S *m V)) &
      forall b : 'cV[C]_m, b <> 0 -> (0 < pw (W *m b) (V *m b))%coqR].

Lemma well_step pinv (W V : 'M[C]_m) q k0 d F G T :
  good_modes W V q -> ok_state F G ->
  exists F' G' T' Ai B, layer_update pinv false W V (Xmat k0 q d) F G T = Some (F', G', T', Ai, B) /\ ok_state F' G'.
Proof.
move=> [uW uV m1 m2 hp] [h1 h2].
have uA : modeA W V F G \in unitmx.
  apply: unit_inj => v hv.
  have eF : F *m v = W *m (modeB W V F G *m v).
    by rewrite {1}(modeAB_F V F G uW) -mulmxA mulmxDl hv add0r.
  have eG : G *m v = - (V *m (modeB W V F G *m v)).
    by rewrite {1}(modeAB_G W F G uV) -mulmxA mulmxBl hv sub0r mulmxN.
  have b0 : modeB W V F G *m v = 0.
    apply/eqP; case: eqP => // /hp p; have := h1 v; rewrite eF eG pwNr; lra.
  by apply: h2; rewrite ?eF ?eG b0 mulmx0 ?oppr0.
have hu : exists F' G' T' Ai B, layer_update pinv false W V (Xmat k0 q d) F G T = Some (F', G', T', Ai, B).
  by rewrite /layer_update !meeinv_unit //; do 5 eexists.
case: hu => F' [G' [T' [Ai [B hu]]]]; exists F', G', T', Ai, B; split=> //.
have [[_ _ _ eA eB] [eF eG _]] := layer_update_some hu.
split=> v.
- have e := flux_step k0 d m1 m2 uW uV uA eA eB; rewrite -eF -eG in e.
  have := pw_flux F' G' v; rewrite e -mulmxA.
  have -> : adj v *m (adj (Ai *m Xmat k0 q d) *m flux S F G *m (Ai *m Xmat k0 q d) *m v) =
     adj (Ai *m Xmat k0 q d *m v) *m flux S F G *m (Ai *m Xmat k0 q d *m v) by rewrite !adjM !mulmxA.
  rewrite pw_flux => /(mulfI two_i_neq0)/RtoC_inj <-; exact: h1.
- rewrite eF eG; set Y := _ *m B *m Ai *m _ => e1 e2.
  have e3 : (1%:M + Y) *m v = 0 by rewrite -(mulKmx uW ((1%:M + Y) *m v)) (mulmxA W) e1 mulmx0.
  have e4 : (1%:M - Y) *m v = 0 by rewrite -(mulKmx uV ((1%:M - Y) *m v)) (mulmxA V) e2 mulmx0.
  have : (1%:M + Y) *m v + (1%:M - Y) *m v = 0 by rewrite e3 e4 addr0.
  rewrite -mulmxDl addrACA subrr addr0 mulmxDl mul1mx => e.
  by rewrite -[v]halfK -scalerDr e scaler0.
Qed.

Lemma well_gstack pinv (ls : seq (option ('M[C]_m * 'M[C]_m * 'M[C]_m))) F G T :
  (forall l, List.In l ls -> exists W V q k0 d, l = Some (W, V, Xmat k0 q d) /\ good_modes W V q) ->
  ok_state F G ->
  exists F' G' T', gstack pinv ls (F, G, T) = Some (F', G', T') /\ ok_state F' G'.
Proof.
rewrite /gstack; elim: ls => [|l ls IH] h ok /=; first by exists F, G, T.
have [|F1 [G1 [T1 [-> ok1]]]] := IH _ ok; first by move=> l' i; apply: h; right.
have [W [V [q [k0 [d [-> gm]]]]]] := h l (or_introl erefl).
have [F2 [G2 [T2 [Ai [B [hu ok2]]]]]] := well_step pinv k0 d T1 gm ok1.
by exists F2, G2, T2; rewrite /gstep hu.
Qed.

End Power.

(** ** 1D *)
Section OneD.
Variable pinv : forall n, 'M[C]_n -> 'M[C]_n.
Variable eig : forall n, 'M[C]_n -> 'rV[C]_n * 'M[C]_n.

Lemma pw1_diag n (f : 'cV[C]_n) (w : nat -> C) :
  pw 1%:M f ((ci *: diagf n w) *m f) = \big[Rplus/0%coqR]_(i < n) (nrm2 (f i ord0) * Re (w i))%coqR.
Proof.
rewrite /pw mulmx1 dot_sum.
have -> : \sum_(i < n) conj (f i ord0) * (ci *: diagf n w *m f) i ord0 =
  \sum_(i < n) ci * (RtoC (nrm2 (f i ord0)) * w i).
  apply: eq_bigr => i _; rewrite (col_entry 0) -mul_conj.
  by set z := f _ _; cring.
rewrite -big_distrr /= ImM /ci /Ci /Re /Im /= Rmult_0_l Rplus_0_l Rmult_1_l -/(Re _) Re_sum.
by apply: eq_bigr => i _; rewrite ReZ.
Qed.

Lemma sumR_ge0 n (f : 'I_n -> R) : (forall i, 0 <= f i)%coqR -> (0 <= \big[Rplus/0%coqR]_(i < n) f i)%coqR.
Proof. by move=> h; elim/big_ind: _ => [|x y hx hy|i _]; [lra | lra | exact: h]. Qed.

Lemma sumR_eq0 n (f : 'I_n -> R) : (forall i, 0 <= f i)%coqR -> (\big[Rplus/0%coqR]_(i < n) f i <= 0)%coqR ->
  forall i, f i = 0%coqR.
Proof.
elim: n f => [|n IH] f h; first by move=> _ [].
rewrite big_ord_recl => hs.
have h1 : (0 <= \big[Rplus/0%coqR]_(i < n) f (lift ord0 i))%coqR by apply: sumR_ge0.
have h0 := h ord0; set z := \big[_/_]_(i < n) _ in hs h1.
move=> i; case: (unliftP ord0 i) => [j ->|->]; last by lra.
by apply: (IH (fun i => f (lift ord0 i))) => //; rewrite -/z; lra.
Qed.

Lemma final_1d_unit n (F G : 'M[C]_n) (kz : nat -> C) :
  ok_state 1%:M F G -> (forall i, (i < n)%N -> (0 < Re (kz i))%coqR) ->
  G + (ci *: diagf n kz) *m F \in unitmx.
Proof.
move=> [h1 h2] hk; apply: unit_inj => v; rewrite mulmxDl -mulmxA => /eqP; rewrite addr_eq0 => /eqP eG.
have := h1 v; rewrite eG pwNr pw1_diag; set z := \big[_/_]_(i < n) _ => hs.
have f0 : F *m v = 0.
  apply/colP => i; rewrite [RHS]mxE; apply: nrm2_eq0.
  have e : (nrm2 ((F *m v) i ord0) * Re (kz i) = 0)%coqR.
    apply: (sumR_eq0 (f := fun i : 'I_n => (nrm2 ((F *m v) i ord0) * Re (kz i))%coqR)); last by rewrite -/z; lra.
    by move=> j; apply: Rmult_le_pos; [exact: nrm2_ge0 | apply: Rlt_le; exact: hk].
  by have := hk i (ltn_ord i); case: (Rmult_integral _ _ e) => // ->; lra.
by apply: h2 => //; rewrite eG f0 mulmx0 oppr0.
Qed.

Lemma start_1d_ok n (w : nat -> C) : (forall i, (i < n)%N -> (0 <= Re (w i))%coqR) ->
  ok_state 1%:M 1%:M (ci *: diagf n w).
Proof.
move=> h; split=> v; last by rewrite mul1mx.
rewrite mul1mx pw1_diag; apply: sumR_ge0 => i.
by apply: Rmult_le_pos; [exact: nrm2_ge0 | exact: h].
Qed.

(** Solver level: the modes of every layer are good. *)
Lemma well_1d pol n kx k0 th (nt nb : R) (ls : seq (layer n)) :
  pol = 0%coqR \/ pol = 1%coqR -> (0 < nt)%coqR -> (0 < nb)%coqR ->
  (forall i, (i < n)%N -> (0 < Re (kz_1d (RtoC nt) kx i))%coqR) ->
  (forall l, List.In l ls -> exists W V q,
      transfer_1d_2 pinv eig false pol kx (epx l) (epy l) (epzi l) = Some (W, V, q) /\ good_modes 1%:M W V q) ->
  exists r T1 infos, rcwa_1d pinv eig false pol kx k0 th (RtoC nt) (RtoC nb) ls = Some (r, T1, infos).
Proof.
move=> hpol hnt hnb hkz hl.
have hS : adj (1%:M : 'M[C]_n) = 1%:M by rewrite adj1.
have hm l : List.In l (map (modes_1d pinv eig pol kx k0) ls) ->
   exists W V q k0 d, l = Some (W, V, Xmat k0 q d) /\ good_modes 1%:M W V q.
  elim: ls hl => [|x ls IH] hl //= [<-|]; last by apply: IH => y hy; apply: hl; right.
  have [W [V [q [e gm]]]] := hl x (or_introl erefl).
  by exists W, V, q, k0, (thick x); rewrite /modes_1d e.
have hb i : (i < n)%N -> (0 <= Re (kz_1d (RtoC nb) kx i))%coqR.
  by move=> _; rewrite /kz_1d Re_conj; exact: csqrt_Re_ge0.
suff : exists r, reported_1d (rcwa_1d pinv eig false pol kx k0 th (RtoC nt) (RtoC nb) ls) = Some r.
  case: (rcwa_1d _ _ _ _ _ _ _ _ _ _) => [[[r T1] is']|] /= [] // r' _.
  by exists r, T1, is'.
rewrite reported_rcwa_1d /transfer_1d_1.
case: hpol => epol; rewrite epol in hm *.
  rewrite reqb_refl.
  have [F [G [T [-> ok]]]] := well_gstack hS pinv 1%:M hm (start_1d_ok hb).
  rewrite /= /fin_1d /transfer_1d_4 reqb_refl /= meeinv_unit; first by eexists.
  exact: final_1d_unit ok hkz.
rewrite reqb10 reqb_refl.
have hb2 i : (i < n)%N -> (0 <= Re (kz_1d (RtoC nb) kx i / RtoC nb ^+ 2)%R)%coqR.
  move=> hi; rewrite expr2 -RtoC_mul Re_div_real; last by nra.
  apply: Rmult_le_pos; first exact: hb.
  by apply: Rlt_le; apply: Rinv_0_lt_compat; nra.
have [F [G [T [-> ok]]]] := well_gstack hS pinv 1%:M hm (start_1d_ok hb2).
rewrite /= /fin_1d /transfer_1d_4 reqb10 reqb_refl /= meeinv_unit; first by eexists.
have -> : (ci / RtoC nt ^+ 2) *: diagf n (kz_1d (RtoC nt) kx) = ci *: diagf n (fun i => kz_1d (RtoC nt) kx i / RtoC nt ^+ 2).
  rewrite !diagfZ; apply: diagf_eq => i _; set y := _^-1; cring.
apply: final_1d_unit ok _ => i hi; rewrite expr2 -RtoC_mul Re_div_real; last by nra.
apply: Rmult_lt_0_compat; first exact: hkz.
by apply: Rinv_0_lt_compat; nra.
Qed.

End OneD.

(** ** Propagating modes of a Hermitian problem are good *)
Section Propagating.
Variable n : nat.
Definition pos_def (N : 'M[C]_n) : Prop := forall v : 'cV[C]_n, v <> 0 -> (0 < Re ((adj v *m N *m v) ord0 ord0))%coqR.

Lemma prop_modes (N : 'M[C]_n) (s : 'I_n -> R) (q : 'rV[C]_n) (b : 'cV[C]_n) :
  herm N -> pos_def N -> (forall j, 0 < s j)%coqR -> (forall j, q ord0 j = ci * RtoC (s j * s j)%coqR) ->
  herm (N *m diag_mx q *m diag_mx q) ->
  b <> 0 -> (0 < Im ((adj b *m (N *m diag_mx q) *m b) ord0 ord0))%coqR.
Proof.
move=> hN pN s0 eq hL b0.
have qq j : q ord0 j * q ord0 j = - RtoC (s j * s j * (s j * s j)).
  rewrite eq [RtoC (_ * (_ * _))]RtoC_mul; set x := RtoC _.
  by rewrite mulrACA ci2 mulN1r.
have key i j : N i j = 0 \/ s i = s j.
  have e := congr1 (fun A : 'M_n => A i j) hL; rewrite adjE !mul_mx_diag !mxE -!mulrA !qq in e.
  have eN : conj (N j i) = N i j by rewrite -adjE hN.
  rewrite conjM conjN conjR eN in e.
  case: (Req_dec (s i) (s j)) => [->|ne]; [by right|left].
  move/eqP: e; rewrite !mulrN eqr_opp -subr_eq0 -mulrBr mulf_eq0 => /orP[/eqP //|].
  rewrite -RtoC_sub => /eqP /RtoC_inj h; exfalso; apply: ne.
  have := s0 i; have := s0 j; move: h; move: (s i) (s j) => x y h hx hy.
  have : ((x - y) * ((x + y) * (x * x + y * y)) = 0)%coqR by lra.
  case/Rmult_integral; first by lra.
  by case/Rmult_integral; nra.
pose D := diag_mx (\row_j RtoC (s j)) : 'M[C]_n.
have eD : N *m diag_mx q = ci *: (adj D *m N *m D).
  apply/matrixP => i j; rewrite mul_mx_diag mxE /D adj_diag mul_mx_diag mul_diag_mx !mxE eq conjR.
  case: (key i j) => ->; first by rewrite mul0r mulr0 mul0r mulr0.
  rewrite RtoC_mul; cring.
have -> : adj b *m (N *m diag_mx q) *m b = ci *: (adj (D *m b) *m N *m (D *m b)).
  by rewrite eD -scalemxAr -scalemxAl adjM !mulmxA.
rewrite mxE ImM /ci /Ci {1}/Re {1}/Im /= Rmult_0_l Rplus_0_l Rmult_1_l.
apply: pN => h; apply: b0; apply/colP => i; have := congr1 (fun A : 'cV_n => A i ord0) h.
rewrite mul_diag_mx !mxE => /eqP; rewrite mulf_eq0 => /orP[/eqP/RtoC_inj e|/eqP //].
by have := s0 i; lra.
Qed.
End Propagating.

Lemma pos_def_cong n (N W : 'M[C]_n) : pos_def N -> W \in unitmx -> pos_def (adj W *m N *m W).
Proof.
move=> hN uW v v0.
have -> : adj v *m (adj W *m N *m W) *m v = adj (W *m v) *m N *m (W *m v) by rewrite adjM !mulmxA.
by apply: hN => h; apply: v0; rewrite -(mulKmx uW v) h mulmx0.
Qed.

Lemma pos_def1 n : pos_def (1%:M : 'M[C]_n).
Proof.
move=> v v0; rewrite mulmx1 dot_sum Re_sum.
case: (Rle_lt_dec (\big[Rplus/0%coqR]_(i < n) Re (conj (v i ord0) * v i ord0)) 0) => // h; exfalso; apply: v0.
have e i : Re (conj (v i ord0) * v i ord0) = nrm2 (v i ord0) by rewrite mulrC mul_conj.
apply/colP => i; rewrite [RHS]mxE; apply: nrm2_eq0; rewrite -e.
by apply: (sumR_eq0 (f := fun i => Re (conj (v i ord0) * v i ord0))) => // j; rewrite e; exact: nrm2_ge0.
Qed.

Lemma pos_def_inv n (N : 'M[C]_n) : herm N -> pos_def N -> N \in unitmx -> pos_def (invmx N) /\ herm (invmx N).
Proof.
move=> hN pN uN.
have h : herm (invmx N).
  rewrite /herm; symmetry; apply: inv_eq; apply: adj_inj; by rewrite adjM adjK hN mulVmx // adj1.
split=> // v v0.
have -> : adj v *m invmx N *m v = adj (invmx N *m v) *m N *m (invmx N *m v).
  by rewrite adjM h -!mulmxA mulKVmx.
by apply: pN => e; apply: v0; rewrite -(mulKVmx uN v) e mulmx0.
Qed.

Lemma sqrtv_prop n (lam : 'rV[C]_n) (x : 'I_n -> R) : (forall j, 0 < x j)%coqR -> (forall j, lam ord0 j = RtoC (- x j)) ->
  forall j, sqrtv lam ord0 j = ci * RtoC (sqrt (sqrt (x j)) * sqrt (sqrt (x j)))%coqR.
Proof.
move=> x0 e j; rewrite mxE e csqrt_neg; last by have := x0 j; lra.
by rewrite Ropp_involutive sqrt_sqrt //; exact: sqrt_pos.
Qed.

Lemma diag_prop_unit n (q : 'rV[C]_n) (s : 'I_n -> R) : (forall j, 0 < s j)%coqR ->
  (forall j, q ord0 j = ci * RtoC (s j * s j)%coqR) -> diag_mx q \in unitmx.
Proof.
move=> s0 e; rewrite unitmxE det_diag unitfE; apply/prodf_neq0 => j _; rewrite e mulf_neq0 //.
  by apply/eqP => h; have := ci2; rewrite h mul0r => /eqP; rewrite eq_sym oppr_eq0 oner_eq0.
by apply: RtoC_neq0; have := s0 j; nra.
Qed.

Section GoodModes.
Variable pinv : forall n, 'M[C]_n -> 'M[C]_n.
Variable eig : forall n, 'M[C]_n -> 'rV[C]_n * 'M[C]_n.
Hypothesis heig : eig_ok eig.

(** The eigenproblem was solved by a basis of propagating modes. *)
Definition propagating n (A : 'M[C]_n) : Prop :=
  (eig A).2 \in unitmx /\ forall j, exists2 x : R, (0 < x)%coqR & (eig A).1 ord0 j = RtoC (- x).

Lemma propagating_s n (A : 'M[C]_n) : propagating A -> exists2 s : 'I_n -> R, (forall j, 0 < s j)%coqR &
  forall j, sqrtv (eig A).1 ord0 j = ci * RtoC (s j * s j)%coqR.
Proof.
move=> [_ h].
pose x j := (- Re ((eig A).1 ord0 j))%coqR.
have x0 j : (0 < x j)%coqR by have [y y0 e] := h j; rewrite /x e Re_RtoC; lra.
have ex j : (eig A).1 ord0 j = RtoC (- x j).
  by have [y y0 e] := h j; rewrite /x e Re_RtoC Ropp_involutive.
exists (fun j => sqrt (sqrt (x j))); first by move=> j; do 2 apply: sqrt_lt_R0.
exact: sqrtv_prop.
Qed.

Lemma good_te n kx (l : layer n) : real_vec n kx -> lossless l ->
  propagating (diagf n kx *m diagf n kx - epy l) ->
  exists W V q, transfer_1d_2 pinv eig false 0 kx (epx l) (epy l) (epzi l) = Some (W, V, q) /\ good_modes 1%:M W V q.
Proof.
move=> rk hl pr.
have [W [V [q e]]] : exists W V q, transfer_1d_2 pinv eig false 0 kx (epx l) (epy l) (epzi l) = Some (W, V, q).
  by rewrite /transfer_1d_2 reqb_refl; case: (eig _) => lam U; do 3 eexists.
exists W, V, q; split=> //.
have [m1 m2] := modal_1d heig rk hl e.
move: e; rewrite /transfer_1d_2 reqb_refl.
have [s s0 hs] := propagating_s pr; have [uW _] := pr; have := heig (diagf n kx *m diagf n kx - epy l).
move: uW hs; case: (eig _) => lam U /= uW hs hU [eW eV eq]; subst W V q.
have uQ := diag_prop_unit s0 hs.
split=> //; first by rewrite unitmx_mul uW.
move=> b b0; rewrite /pw mulmx1 adjM.
have -> : adj b *m adj U *m (U *m diag_mx (sqrtv lam) *m b) = adj b *m (adj U *m 1%:M *m U *m diag_mx (sqrtv lam)) *m b.
  by rewrite mulmx1 !mulmxA.
apply: (prop_modes (s := s)) => //.
- by apply: herm_cong; exact: herm1.
- by apply: pos_def_cong uW; exact: pos_def1.
- by move: m1; rewrite !mulmx1 !mulmxA.
Qed.

Lemma good_tm n kx (l : layer n) : real_vec n kx -> lossless l -> epx l \in unitmx -> pos_def (epx l) ->
  propagating (epx l *m (diagf n kx *m epzi l *m diagf n kx - 1%:M)) ->
  exists W V q, transfer_1d_2 pinv eig false 1 kx (epx l) (epy l) (epzi l) = Some (W, V, q) /\ good_modes 1%:M W V q.
Proof.
move=> rk hl uE pE pr.
have [W [V [q e]]] : exists W V q, transfer_1d_2 pinv eig false 1 kx (epx l) (epy l) (epzi l) = Some (W, V, q).
  by rewrite /transfer_1d_2 reqb10 reqb_refl; case: (eig _) => lam U; rewrite meeinv_unit //; do 3 eexists.
exists W, V, q; split=> //.
have [m1 m2] := modal_1d heig rk hl e.
have [hx _ _] := hl.
have [pEi hEi] := pos_def_inv hx pE uE.
move: e; rewrite /transfer_1d_2 reqb10 reqb_refl.
have [s s0 hs] := propagating_s pr; have [uW _] := pr.
move: uW hs; case: (eig _) => lam U /= uW hs; rewrite meeinv_unit // => -[eW eV eq]; subst W V q.
have uQ := diag_prop_unit s0 hs.
split=> //; first by rewrite !unitmx_mul uW unitmx_inv uE.
move=> b b0; rewrite /pw mulmx1 adjM.
have -> : adj b *m adj U *m (invmx (epx l) *m U *m diag_mx (sqrtv lam) *m b) =
   adj b *m (adj U *m invmx (epx l) *m U *m diag_mx (sqrtv lam)) *m b.
  by rewrite !mulmxA.
apply: (prop_modes (s := s)) => //.
- exact: herm_cong.
- exact: pos_def_cong.
- by move: m1; rewrite !mulmx1 !mulmxA.
Qed.

(** ** s/p solvers *)
Section Sp.
Variable n : nat.
Variables (kxt kyt c s : nat -> C).
Let Kx := diagf n kxt.
Let Ky := diagf n kyt.
Hypothesis hcs : rot_ok n c s.
Hypothesis rkx : real_vec n kxt.
Hypothesis rky : real_vec n kyt.
Let S := - Ssp n.

Lemma adj_S : adj S = S. Proof. by rewrite /S adjN adj_Ssp. Qed.

Definition down (l : layer n) : 'M[C]_(n + n) := - (Jxy n *m invmx (OmL Kx Ky (epzi l))).

Lemma unit_J : Jxy n \in unitmx.
Proof.
have e : Jxy n *m (- Jxy n) = 1%:M.
  rewrite mulmxN /Jxy mulmx_block !(mulmx0, mul0mx, mulmx1, mul1mx, addr0, add0r, mulmxN).
  by rewrite opp_block_mx opprK oppr0 -scalar_mx_block.
by have [] := mulmx1_unit e.
Qed.

Lemma good_sp (l : layer n) (W V : 'M[C]_(n + n)) q (r : 'I_(n + n) -> R) :
  lossless l -> OmL Kx Ky (epzi l) \in unitmx -> pos_def (down l) ->
  OmL Kx Ky (epzi l) *m V = W *m diag_mx q -> OmR Kx Ky (epx l) (epy l) *m W = V *m diag_mx q ->
  W \in unitmx -> (forall j, 0 < r j)%coqR -> (forall j, q ord0 j = ci * RtoC (r j * r j)%coqR) ->
  good_modes S (RotE n c s *m W) (RotH n c s *m V) q.
Proof.
move=> [hx hy hz] uL pd eL eR uW r0 eq.
have [m1 m2] := modal_flux (herm_diag rkx) (herm_diag rky) hx hy hz eL eR.
have eJ := rot_J hcs.
have uQ := diag_prop_unit r0 eq.
have uRE : RotE n c s \in unitmx by have [] := mulmx1_unit (rot_E_K hcs).
have uRH : RotH n c s \in unitmx.
  by have := unit_J; rewrite -eJ => /unitmx_split[].
have eV : V = invmx (OmL Kx Ky (epzi l)) *m W *m diag_mx q by rewrite -mulmxA -eL mulKmx.
have uV : V \in unitmx by rewrite eV !unitmx_mul unitmx_inv uL uW.
have eM : adj (RotE n c s *m W) *m S *m (RotH n c s *m V) = - (adj W *m Jxy n *m V).
  by rewrite /S mulmxN mulNmx adjM -eJ !mulmxA.
split; rewrite ?unitmx_mul ?uRE ?uRH //.
- by rewrite eM mulNmx; apply: hermN.
- by rewrite eM mulmxN; apply: hermN.
move=> b b0; rewrite /pw.
have -> : adj (RotE n c s *m W *m b) *m S *m (RotH n c s *m V *m b) =
   adj b *m (adj (RotE n c s *m W) *m S *m (RotH n c s *m V)) *m b.
  by rewrite ![adj (_ *m b)]adjM !mulmxA.
rewrite eM {1}eV.
have hd : herm (down l).
  have := OmLJ_herm (herm_diag rkx) (herm_diag rky) hz; rewrite -/Kx -/Ky => h0.
  apply: hermN.
  have -> : Jxy n *m invmx (OmL Kx Ky (epzi l)) =
     adj (invmx (OmL Kx Ky (epzi l))) *m (adj (OmL Kx Ky (epzi l)) *m Jxy n) *m invmx (OmL Kx Ky (epzi l)).
    rewrite !mulmxA -adjM mulmxV // adj1 mul1mx //.
  exact: herm_cong.
have -> : - (adj W *m Jxy n *m (invmx (OmL Kx Ky (epzi l)) *m W *m diag_mx q)) =
   adj W *m down l *m W *m diag_mx q.
  by rewrite /down mulmxN !mulNmx !mulmxA.
apply: (prop_modes (s := r)) => //.
- exact: herm_cong.
- exact: pos_def_cong.
- have -> : adj W *m down l *m W *m diag_mx q *m diag_mx q = - (adj W *m Jxy n *m V *m diag_mx q).
    by rewrite eV /down mulmxN !mulNmx !mulmxA.
  exact: hermN.
Qed.

Lemma pw_sp (fs fp gs gp : 'cV[C]_n) :
  pw S (col_mx fs fp) (col_mx gs gp) = (pw 1%:M fs gs - pw 1%:M fp gp)%coqR.
Proof.
rewrite /pw /S adj_col /Ssp opp_block_mx oppr0 opprK mul_row_block mul_row_col !(mulmx0, mulmx1, addr0, add0r, mulmxN).
by rewrite mulNmx mxE [X in _ + X]mxE ImD ImN.
Qed.

Lemma pw_swap (f g : 'cV[C]_n) : pw 1%:M f g = (- pw 1%:M g f)%coqR.
Proof.
rewrite /pw !mulmx1.
have -> : (adj f *m g) ord0 ord0 = conj ((adj g *m f) ord0 ord0) by rewrite -adjE adjM adjK.
by rewrite Im_conj.
Qed.

Lemma start_sp_ok (nb : R) (kzb : nat -> C) : (0 < nb)%coqR -> (forall i, (i < n)%N -> (0 <= Re (kzb i))%coqR) ->
  ok_state S (block_mx (1%:M : 'M[C]_n) 0 0 ((ci / RtoC nb ^+ 2) *: diagf n kzb))
             (block_mx (ci *: diagf n kzb) 0 0 (1%:M : 'M[C]_n)).
Proof.
move=> hnb h; split=> v; rewrite -[v]vsubmxK !mul_block_col !(mul1mx, mul0mx, addr0, add0r).
- rewrite pw_sp pw1_diag.
  have -> : (ci / RtoC nb ^+ 2) *: diagf n kzb = ci *: diagf n (fun i => kzb i / RtoC nb ^+ 2).
    rewrite !diagfZ; apply: diagf_eq => i _; set y := _^-1; cring.
  rewrite [pw _ _ (dsubmx v)]pw_swap pw1_diag.
  have h1 : (0 <= \big[Rplus/0%coqR]_(i < n) (nrm2 (usubmx v i ord0) * Re (kzb i)))%coqR.
    by apply: sumR_ge0 => i; apply: Rmult_le_pos; [exact: nrm2_ge0|exact: h].
  have h2 : (0 <= \big[Rplus/0%coqR]_(i < n) (nrm2 (dsubmx v i ord0) * Re (kzb i / RtoC nb ^+ 2)%R))%coqR.
    apply: sumR_ge0 => i; apply: Rmult_le_pos; first exact: nrm2_ge0.
    rewrite expr2 -RtoC_mul Re_div_real; last by nra.
    apply: Rmult_le_pos; first exact: h.
    by apply: Rlt_le; apply: Rinv_0_lt_compat; nra.
  set z1 := \big[_/_]_(i < n) _ in h1 *; set z2 := \big[_/_]_(i < n) _ in h2 *; lra.
- rewrite -[0 as X in _ = X](col_mx0) => /eq_col_mx[e1 _].
  by rewrite -[0 in X in X -> _](col_mx0) => /eq_col_mx[_ e2]; rewrite e1 e2 col_mx0.
Qed.

Lemma final_sp_unit (F G : 'M[C]_(n + n)) (nt : R) (kz : nat -> C) : (0 < nt)%coqR ->
  ok_state S F G -> (forall i, (i < n)%N -> (0 < Re (kz i))%coqR) ->
  final_A F G kz (RtoC nt) \in unitmx.
Proof.
move=> hnt [h1 h2] hk; apply: unit_inj => RT.
rewrite -(vsubmxK RT) -(vsubmxK (usubmx RT)).
set Rs := usubmx (usubmx RT); set Rp := dsubmx (usubmx RT); set T1 := dsubmx RT.
rewrite /final_A mul_block_col !mul_block_col !(mul1mx, mul0mx, addr0, add0r) !mulNmx.
rewrite -{1}col_mx0 => /eq_col_mx[/eqP e1 /eqP e2].
move: e1 e2; rewrite !subr_eq0 => /eqP/esym e1 /eqP/esym e2.
have p1 := h1 T1; rewrite e1 e2 pw_sp in p1.
have e3 : (- ci) *: diagf n kz *m Rs = - ((ci *: diagf n kz) *m Rs) by rewrite scaleNr mulNmx.
have e4 : (- ci / RtoC nt ^+ 2) *: diagf n kz *m Rp = - ((ci *: diagf n (fun i => kz i / RtoC nt ^+ 2)) *m Rp).
  rewrite -mulNmx !diagfZ diagfN; congr (_ *m _); apply: diagf_eq => i _; set y := _^-1; cring.
rewrite e3 e4 pwNr pw1_diag [pw _ _ Rp]pw_swap pwNr pw1_diag in p1.
have n1 : forall i : 'I_n, (0 <= nrm2 (Rs i ord0) * Re (kz i))%coqR.
  by move=> i; apply: Rmult_le_pos; [exact: nrm2_ge0 | apply: Rlt_le; exact: hk].
have k2 : forall i : 'I_n, (0 < Re (kz i / RtoC nt ^+ 2)%R)%coqR.
  move=> i; rewrite expr2 -RtoC_mul Re_div_real; last by nra.
  by apply: Rmult_lt_0_compat; [exact: hk | apply: Rinv_0_lt_compat; nra].
have n2 : forall i : 'I_n, (0 <= nrm2 (Rp i ord0) * Re (kz i / RtoC nt ^+ 2)%R)%coqR.
  by move=> i; apply: Rmult_le_pos; [exact: nrm2_ge0 | apply: Rlt_le; exact: k2].
have s1 := sumR_ge0 n1; have s2 := sumR_ge0 n2.
set z1 := \big[_/_]_(i < n) _ in s1 p1; set z2 := \big[_/_]_(i < n) _ in s2 p1.
have Rs0 : Rs = 0.
  apply/colP => i; rewrite [RHS]mxE; apply: nrm2_eq0.
  have e : (nrm2 (Rs i ord0) * Re (kz i) = 0)%coqR by apply: (sumR_eq0 n1); rewrite -/z1; lra.
  by have := hk i (ltn_ord i); case: (Rmult_integral _ _ e) => // ->; lra.
have Rp0 : Rp = 0.
  apply/colP => i; rewrite [RHS]mxE; apply: nrm2_eq0.
  have e : (nrm2 (Rp i ord0) * Re (kz i / RtoC nt ^+ 2)%R = 0)%coqR by apply: (sumR_eq0 n2); rewrite -/z2; lra.
  by have := k2 i; case: (Rmult_integral _ _ e) => // ->; lra.
have T0 : T1 = 0 by apply: h2; rewrite ?e1 ?e2 Rs0 Rp0 ?mulmx0 col_mx0.
by rewrite Rs0 Rp0 T0 !col_mx0.
Qed.

End Sp.
End GoodModes.

(** ** Solver-level well-posedness, 2D and conical *)
Section SpTop.
Variable pinv : forall n, 'M[C]_n -> 'M[C]_n.
Variable eig : forall n, 'M[C]_n -> 'rV[C]_n * 'M[C]_n.
Hypothesis heig : eig_ok eig.
Variable n : nat.
Variables (kxt kyt : nat -> C).
Let Kx := diagf n kxt.
Let Ky := diagf n kyt.
Hypothesis rkx : real_vec n kxt.
Hypothesis rky : real_vec n kyt.

Definition Om2 (l : layer n) : 'M[C]_(n + n) := block_mx
  (Ky *m Ky + (Kx *m epzi l *m Kx - 1%:M) *m epx l) (Kx *m (epzi l *m Ky *m epy l - Ky))
  (Ky *m (epzi l *m Kx *m epx l - Kx)) (Kx *m Kx + (Ky *m epzi l *m Ky - 1%:M) *m epy l).

Lemma good_2d c s (l : layer n) : rot_ok n c s -> lossless l -> OmL Kx Ky (epzi l) \in unitmx ->
  pos_def (down kxt kyt l) -> propagating eig (Om2 l) -> forall k0,
  exists W V q k0' d, modes_2d pinv eig kxt kyt c s k0 l = Some (W, V, Xmat k0' q d) /\ good_modes (- Ssp n) W V q.
Proof.
move=> hcs hl uL pd pr k0.
have [s' s0 hs] := propagating_s pr.
have uQ := diag_prop_unit s0 hs.
have [W [V [q e]]] : exists W V q, transfer_2d_2 pinv eig false kxt kyt (epx l) (epy l) (epzi l) = Some (W, V, q).
  rewrite /transfer_2d_2 -/Kx -/Ky -/(Om2 l); move: uQ; case: (eig _) => lam U /= uQ.
  by rewrite meeinv_unit //; do 3 eexists.
have [eL eR] := modal_2d heig e.
exists (RotE n c s *m W), (RotH n c s *m V), q, k0, (thick l).
rewrite /modes_2d e big_2d_rot /= Xmat_row; split=> //.
have [uW hq] : W \in unitmx /\ q = sqrtv (eig (Om2 l)).1.
  move: e; rewrite /transfer_2d_2 -/Kx -/Ky -/(Om2 l); have [] := pr; move: uQ; case: (eig _) => lam U /= uQ uU _.
  by rewrite meeinv_unit // => -[<- _ <-].
apply: (@good_sp n kxt kyt c s hcs rkx rky l W V q s') => // j; by rewrite hq.
Qed.

Lemma block_unit (A B D : 'M[C]_n) : A \in unitmx -> B \in unitmx -> block_mx 0 A B D \in unitmx.
Proof.
move=> uA uB; apply: unit_inj => v; rewrite -[v]vsubmxK mul_block_col mul0mx add0r -{1}col_mx0 => /eq_col_mx[e1 e2].
have y0 : dsubmx v = 0 by rewrite -(mulKmx uA (dsubmx v)) e1 mulmx0.
rewrite y0 mulmx0 addr0 in e2.
by rewrite y0 -(mulKmx uB (usubmx v)) e2 mulmx0 col_mx0.
Qed.

Lemma good_conical ky0 c s (l : layer n) : rot_ok n c s -> lossless l -> y_uniform l ->
  (forall i, (i < n)%N -> kyt i = ky0) ->
  Kx *m Kx - epy l \in unitmx -> Kx *m epzi l *m Kx - 1%:M \in unitmx ->
  OmL Kx Ky (epzi l) \in unitmx -> pos_def (down kxt kyt l) ->
  propagating eig (Ky *m Ky + (Kx *m Kx - epy l)) ->
  propagating eig (Ky *m Ky + (Kx *m epzi l *m Kx - 1%:M) *m epx l) -> forall k0,
  exists W V q k0' d, modes_conical pinv eig kxt kyt c s k0 l = Some (W, V, Xmat k0' q d) /\ good_modes (- Ssp n) W V q.
Proof.
move=> hcs hl hEE hky uA uB uL pd pr1 pr2 k0.
have eKy : Ky = ky0%:M by apply/matrixP => i j; rewrite !mxE hky.
have [s1 s10 hs1] := propagating_s pr1; have [s2 s20 hs2] := propagating_s pr2.
have uQ1 := diag_prop_unit s10 hs1; have uQ2 := diag_prop_unit s20 hs2.
rewrite /modes_conical /transfer_1d_conical_2 -/Kx -/Ky.
set A := Kx *m Kx - epy l in uA pr1 hs1 uQ1 *; set B := Kx *m epzi l *m Kx - 1%:M in uB pr2 hs2 uQ2 *.
have := heig (Ky *m Ky + A); have [] := pr1; move: hs1 uQ1; case: (eig _) => l1 W1 hs1 uQ1 uW1 _ h1; rewrite /= in hs1 uQ1 uW1 h1.
have := heig (Ky *m Ky + B *m epx l); have [] := pr2; move: hs2 uQ2; case: (eig _) => l2 W2 hs2 uQ2 uW2 _ h2; rewrite /= in hs2 uQ2 uW2 h2.
rewrite !meeinv_unit //.
rewrite -sqrtv_sqr eKy in h1; rewrite -sqrtv_sqr eKy in h2.
rewrite conical_is_2d.
set cW := block_mx 0 W2 _ _; set cV := block_mx W1 0 _ _.
exists (RotE n c s *m cW), (RotH n c s *m cV), (row_mx (sqrtv l1) (sqrtv l2)), k0, (thick l).
rewrite big_2d_rot Xmat_row; split=> //.
pose r (j : 'I_(n + n)) : R := match split j with inl i => s1 i | inr i => s2 i end.
apply: (@good_sp n kxt kyt c s hcs rkx rky l cW cV _ r) => //.
- rewrite /cW /cV -/Ky eKy; exact: con_L uA uB hEE h1.
- rewrite /cW /cV -/Ky eKy; exact: con_R uA uB hEE h2.
- by apply: block_unit => //; rewrite !unitmx_mul unitmx_inv uA uW1.
- by move=> j; rewrite /r; case: splitP.
- by move=> j; rewrite /r mxE; case: splitP.
Qed.

Lemma well_2d k0 ps th (nt nb : R) (ls : seq (layer n)) :
  (0 < nt)%coqR -> (0 < nb)%coqR -> varphi_ok n kxt kyt ->
  (forall i, (i < n)%N -> (0 < Re (kz_2d (RtoC nt) kxt kyt i))%coqR) ->
  (forall l, List.In l ls -> [/\ lossless l, OmL Kx Ky (epzi l) \in unitmx,
     pos_def (down kxt kyt l) & propagating eig (Om2 l)]) ->
  exists r infos, rcwa_2d pinv eig false kxt kyt k0 ps th (RtoC nt) (RtoC nb) ls = Some (r, infos).
Proof.
move=> hnt hnb hv hkz hl.
suff : exists r, reported_sp (rcwa_2d pinv eig false kxt kyt k0 ps th (RtoC nt) (RtoC nb) ls) = Some r.
  case: (rcwa_2d _ _ _ _ _ _ _ _ _ _ _) => [[r is']|] /= [] // r' _.
  by exists r, is'.
rewrite reported_rcwa_2d /transfer_sp_1 hv.
have hcs := varphi_rot rkx rky.
have hm l : List.In l (map (modes_2d pinv eig kxt kyt (fun i => cos_varphi (kxt i) (kyt i)) (fun i => sin_varphi (kxt i) (kyt i)) k0) ls) ->
   exists W V q k0 d, l = Some (W, V, Xmat k0 q d) /\ good_modes (- Ssp n) W V q.
  elim: ls hl => [|x ls IH] hl //= [<-|]; last by apply: IH => y hy; apply: hl; right.
  have [h1 h2 h3 h4] := hl x (or_introl erefl); exact: (good_2d hcs h1 h2 h3 h4 k0).
have hb i : (i < n)%N -> (0 <= Re (kz_2d (RtoC nb) kxt kyt i))%coqR.
  by move=> _; rewrite /kz_2d Re_conj; exact: csqrt_Re_ge0.
have [F [G [T [-> ok]]]] := well_gstack (adj_S n) pinv 1%:M hm (start_sp_ok hnb hb).
have uF := final_sp_unit hnt ok hkz.
by rewrite /= /fin_sp /transfer_sp_4 meeinv_unit //=; eexists.
Qed.

Lemma well_conical ky0 k0 ps th (nt nb : R) (ls : seq (layer n)) :
  (0 < nt)%coqR -> (0 < nb)%coqR -> varphi_ok n kxt kyt ->
  (forall i, (i < n)%N -> kyt i = ky0) ->
  (forall i, (i < n)%N -> (0 < Re (kz_2d (RtoC nt) kxt kyt i))%coqR) ->
  (forall l, List.In l ls -> [/\ lossless l, y_uniform l, OmL Kx Ky (epzi l) \in unitmx & pos_def (down kxt kyt l)]
    /\ [/\ Kx *m Kx - epy l \in unitmx, Kx *m epzi l *m Kx - 1%:M \in unitmx,
     propagating eig (Ky *m Ky + (Kx *m Kx - epy l)) &
     propagating eig (Ky *m Ky + (Kx *m epzi l *m Kx - 1%:M) *m epx l)]) ->
  exists r infos, rcwa_conical pinv eig false kxt kyt k0 ps th (RtoC nt) (RtoC nb) ls = Some (r, infos).
Proof.
move=> hnt hnb hv hky hkz hl.
suff : exists r, reported_sp (rcwa_conical pinv eig false kxt kyt k0 ps th (RtoC nt) (RtoC nb) ls) = Some r.
  case: (rcwa_conical _ _ _ _ _ _ _ _ _ _ _) => [[r is']|] /= [] // r' _.
  by exists r, is'.
rewrite reported_rcwa_conical /transfer_sp_1 hv.
have hcs := varphi_rot rkx rky.
have hm l : List.In l (map (modes_conical pinv eig kxt kyt (fun i => cos_varphi (kxt i) (kyt i)) (fun i => sin_varphi (kxt i) (kyt i)) k0) ls) ->
   exists W V q k0 d, l = Some (W, V, Xmat k0 q d) /\ good_modes (- Ssp n) W V q.
  elim: ls hl => [|x ls IH] hl //= [<-|]; last by apply: IH => y hy; apply: hl; right.
  have [[h1 h2 h3 h4] [h5 h6 h7 h8]] := hl x (or_introl erefl).
  exact: (good_conical hcs h1 h2 hky h5 h6 h3 h4 h7 h8 k0).
have hb i : (i < n)%N -> (0 <= Re (kz_2d (RtoC nb) kxt kyt i))%coqR.
  by move=> _; rewrite /kz_2d Re_conj; exact: csqrt_Re_ge0.
have [F [G [T [-> ok]]]] := well_gstack (adj_S n) pinv 1%:M hm (start_sp_ok hnb hb).
have uF := final_sp_unit hnt ok hkz.
by rewrite /= /fin_sp /transfer_sp_4 meeinv_unit //=; eexists.
Qed.

End SpTop.
