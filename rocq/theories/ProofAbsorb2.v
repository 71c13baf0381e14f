(** Stacks with absorbing layers: the loops of the solver and the final systems. *)
From Coq Require Import Reals Lra Psatz.
From mathcomp Require Import all_ssreflect ssralg matrix mxalgebra.
From Coquelicot Require Import Complex.
From Verif Require Import Cplx Mx Spec ModelTM SpecSolve ProofFlux ProofEnergy1D ProofEnergy2D ProofFilm ProofStack ProofCompose
  ProofWell.

Set Implicit Arguments.
Unset Strict Implicit.
Unset Printing Implicit Defensive.
Local Open Scope ring_scope.
Import GRing.Theory.

Section Loop.
Variable m : nat.
Variable S : 'M[C]_m.
Hypothesis hS : adj S = S.

(** Power flows strictly downwards. *)
Definition strict_state (F G : 'M[C]_m) : Prop := forall v : 'cV[C]_m, v <> 0 -> (0 < pw S (F *m v) (G *m v))%coqR.

Lemma pw0 : pw S (0 : 'cV[C]_m) 0 = 0%coqR.
Proof. by rewrite /pw mulmx0 mxE. Qed.
Lemma strict_ok F G : strict_state F G -> ok_state S F G.
Proof.
move=> h; split=> v.
- by case: (eqVneq v 0) => [->|/eqP /h]; [rewrite !mulmx0 pw0; lra|lra].
- by move=> e1 e2; apply/eqP; case: eqP => // /h; rewrite e1 e2 pw0; lra.
Qed.

Definition eats (W V X : 'M[C]_m) : Prop :=
  [/\ W \in unitmx, V \in unitmx, forall b : 'cV[C]_m, b <> 0 -> (0 < pw S (W *m b) (V *m b))%coqR
    & forall a b : 'cV[C]_m, a <> 0 \/ b <> 0 ->
      (pw S (W *m (X *m a + b)) (V *m (X *m a - b)) < pw S (W *m (a + X *m b)) (V *m (a - X *m b)))%coqR].

Lemma modeA_unit (W V F G : 'M[C]_m) : W \in unitmx -> V \in unitmx ->
  (forall b : 'cV[C]_m, b <> 0 -> (0 < pw S (W *m b) (V *m b))%coqR) -> ok_state S F G -> modeA W V F G \in unitmx.
Proof.
move=> uW uV hp [h1 h2]; apply: unit_inj => v hv.
have eF : F *m v = W *m (modeB W V F G *m v).
  by rewrite {1}(modeAB_F V F G uW) -mulmxA mulmxDl hv add0r.
have eG : G *m v = - (V *m (modeB W V F G *m v)).
  by rewrite {1}(modeAB_G W F G uV) -mulmxA mulmxBl hv sub0r mulmxN.
have b0 : modeB W V F G *m v = 0.
  apply/eqP; case: eqP => // /hp p; have := h1 v; rewrite eF eG pwNr; lra.
by apply: h2; rewrite ?eF ?eG b0 mulmx0 ?oppr0.
Qed.

Lemma eat_step pinv (W V X F G T : 'M[C]_m) : eats W V X -> ok_state S F G ->
  exists F' G' T' Ai B, layer_update pinv false W V X F G T = Some (F', G', T', Ai, B) /\ strict_state F' G'.
Proof.
move=> [uW uV hp hd] ok; have uA := modeA_unit uW uV hp ok.
have hu : exists F' G' T' Ai B, layer_update pinv false W V X F G T = Some (F', G', T', Ai, B).
  by rewrite /layer_update !meeinv_unit //; do 5 eexists.
case: hu => F' [G' [T' [Ai [B hu]]]]; exists F', G', T', Ai, B; split=> //.
have [[_ _ _ eA eB] [eF eG _]] := layer_update_some hu => v v0.
set w := Ai *m (X *m v); set b := B *m w.
have eAw : modeA W V F G *m w = X *m v by rewrite /w eA mulKVmx.
have e1 : F *m w = W *m (X *m v + b) by rewrite {1}(modeAB_F V F G uW) -mulmxA mulmxDl eAw -eB.
have e2 : G *m w = V *m (X *m v - b) by rewrite {1}(modeAB_G W F G uV) -mulmxA mulmxBl eAw -eB.
have e3 : F' *m v = W *m (v + X *m b) by rewrite eF -mulmxA mulmxDl mul1mx /b /w !mulmxA.
have e4 : G' *m v = V *m (v - X *m b) by rewrite eG -mulmxA mulmxBl mul1mx /b /w !mulmxA.
have := hd v b (or_introl v0); rewrite -e1 -e2 -e3 -e4; have [h _] := ok; have := h w; lra.
Qed.

Lemma Xmat_unit k0 (q : 'rV[C]_m) d : Xmat k0 q d \in unitmx.
Proof.
rewrite /Xmat unitmxE det_diag unitfE; apply/prodf_neq0 => j _; rewrite mxE; exact: cexp_neq0.
Qed.

Lemma good_strict pinv (W V : 'M[C]_m) q k0 d F G T : good_modes S W V q -> strict_state F G ->
  exists F' G' T' Ai B, layer_update pinv false W V (Xmat k0 q d) F G T = Some (F', G', T', Ai, B) /\ strict_state F' G'.
Proof.
move=> gm st; have ok := strict_ok st; have [F' [G' [T' [Ai [B [hu _]]]]]] := well_step hS pinv k0 d T gm ok.
exists F', G', T', Ai, B; split=> //.
have [[uW uV uA eA eB] [eF eG _]] := layer_update_some hu => v v0; have [_ _ m1 m2 _] := gm.
have e := flux_step k0 d m1 m2 uW uV uA eA eB; rewrite -eF -eG in e.
have := pw_flux hS F' G' v; rewrite e -mulmxA.
have -> : adj v *m (adj (Ai *m Xmat k0 q d) *m flux S F G *m (Ai *m Xmat k0 q d) *m v) =
   adj (Ai *m Xmat k0 q d *m v) *m flux S F G *m (Ai *m Xmat k0 q d *m v) by rewrite !adjM !mulmxA.
rewrite (pw_flux hS) => /(mulfI two_i_neq0)/RtoC_inj <-; apply: st => h0; apply: v0.
have uX := Xmat_unit k0 q d; have uAi : Ai \in unitmx by rewrite eA unitmx_inv.
rewrite -mulmxA in h0.
by rewrite -(mulKmx uX v) -(mulKmx uAi (Xmat k0 q d *m v)) h0 !mulmx0.
Qed.

Definition eating (l : option ('M[C]_m * 'M[C]_m * 'M[C]_m)) : Prop := exists W V X, l = Some (W, V, X) /\ eats W V X.
Definition fine (l : option ('M[C]_m * 'M[C]_m * 'M[C]_m)) : Prop :=
  (exists W V q k0 d, l = Some (W, V, Xmat k0 q d) /\ good_modes S W V q) \/ eating l.

Lemma fine_gstack pinv (ls : seq (option ('M[C]_m * 'M[C]_m * 'M[C]_m))) F G T :
  (forall l, List.In l ls -> fine l) -> ok_state S F G ->
  exists F' G' T', [/\ gstack pinv ls (F, G, T) = Some (F', G', T'), ok_state S F' G'
    & (exists2 l, List.In l ls & eating l) -> strict_state F' G'].
Proof.
rewrite /gstack; elim: ls => [|l ls IH] h ok /=; first by exists F, G, T; split=> // -[].
have [|F1 [G1 [T1 [-> ok1 st1]]]] := IH _ ok; first by move=> l' i; apply: h; right.
case: (h l (or_introl erefl)); last first.
  move=> [W [V [X [-> hl]]]].
  have [F2 [G2 [T2 [Ai [B [hu st2]]]]]] := eat_step pinv T1 hl ok1.
  by exists F2, G2, T2; rewrite /gstep hu; split=> //; exact: strict_ok.
move=> [W [V [q [k0 [d [el gm]]]]]].
have [F2 [G2 [T2 [Ai [B [hu ok2]]]]]] := well_step hS pinv k0 d T1 gm ok1.
exists F2, G2, T2; rewrite el /gstep hu; split=> // -[l' [<-|il] hl'].
- have [W' [V' [X' [e' h']]]] := hl'; move: e' h'; rewrite ?el => -[<- <- <-] h'.
  have [F3 [G3 [T3 [Ai3 [B3 [hu3 st3]]]]]] := eat_step pinv T1 h' ok1.
  by move: hu; rewrite hu3 => -[<- <- _ _ _].
- have st := st1 (ex_intro2 _ _ l' il hl').
  have [F3 [G3 [T3 [Ai3 [B3 [hu3 st3]]]]]] := good_strict pinv k0 d T1 gm st.
  by move: hu; rewrite hu3 => -[<- <- _ _ _].
Qed.
End Loop.

(** ** The final systems *)
Lemma final_1d_strict n (F G : 'M[C]_n) (kz : nat -> C) :
  strict_state 1%:M F G -> (forall i, (i < n)%N -> (0 <= Re (kz i))%coqR) -> G + (ci *: diagf n kz) *m F \in unitmx.
Proof.
move=> st hk; apply: unit_inj => v; rewrite mulmxDl -mulmxA => /eqP; rewrite addr_eq0 => /eqP eG.
apply/eqP; case: eqP => // /st; rewrite eG pwNr pw1_diag.
have : (0 <= \big[Rplus/0%coqR]_(i < n) (nrm2 ((F *m v) i ord0) * Re (kz i)))%coqR.
  by apply: sumR_ge0 => i; apply: Rmult_le_pos; [exact: nrm2_ge0|exact: hk].
by set z := \big[_/_]_(i < n) _; lra.
Qed.

Lemma final_sp_strict n (F G : 'M[C]_(n + n)) (nt : R) (kz : nat -> C) : (0 < nt)%coqR ->
  strict_state (- Ssp n) F G -> (forall i, (i < n)%N -> (0 <= Re (kz i))%coqR) -> final_A F G kz (RtoC nt) \in unitmx.
Proof.
move=> hnt st hk; apply: unit_inj => RT.
rewrite -(vsubmxK RT) -(vsubmxK (usubmx RT)).
set Rs := usubmx (usubmx RT); set Rp := dsubmx (usubmx RT); set T1 := dsubmx RT.
rewrite /final_A mul_block_col !mul_block_col !(mul1mx, mul0mx, addr0, add0r) !mulNmx.
rewrite -{1}col_mx0 => /eq_col_mx[/eqP e1 /eqP e2].
move: e1 e2; rewrite !subr_eq0 => /eqP/esym e1 /eqP/esym e2.
have e3 : (- ci) *: diagf n kz *m Rs = - ((ci *: diagf n kz) *m Rs) by rewrite scaleNr mulNmx.
have e4 : (- ci / RtoC nt ^+ 2) *: diagf n kz *m Rp = - ((ci *: diagf n (fun i => kz i / RtoC nt ^+ 2)) *m Rp).
  rewrite -mulNmx !diagfZ diagfN; congr (_ *m _); apply: diagf_eq => i _; set y := _^-1; cring.
have T0 : T1 = 0.
  apply/eqP; case: eqP => // /st; rewrite e1 e2 pw_sp e3 e4 pwNr pw1_diag [pw _ _ Rp]pw_swap pwNr pw1_diag.
  have n1 : forall i : 'I_n, (0 <= nrm2 (Rs i ord0) * Re (kz i))%coqR.
    by move=> i; apply: Rmult_le_pos; [exact: nrm2_ge0 | exact: hk].
  have n2 : forall i : 'I_n, (0 <= nrm2 (Rp i ord0) * Re (kz i / RtoC nt ^+ 2)%R)%coqR.
    move=> i; apply: Rmult_le_pos; first exact: nrm2_ge0.
    rewrite expr2 -RtoC_mul Re_div_real; last by nra.
    by apply: Rmult_le_pos; [exact: hk | apply: Rlt_le; apply: Rinv_0_lt_compat; nra].
  have s1 := sumR_ge0 n1; have s2 := sumR_ge0 n2.
  by set z1 := \big[_/_]_(i < n) _ in s1 *; set z2 := \big[_/_]_(i < n) _ in s2 *; lra.
rewrite T0 !mulmx0 in e1 e2.
move: e1 e2; rewrite -{1}[0 in X in X -> _]col_mx0 => /eq_col_mx[<- _].
by rewrite -{1}[0 in X in X -> _]col_mx0 => /eq_col_mx[_ <-]; rewrite T0 !col_mx0.
Qed.
