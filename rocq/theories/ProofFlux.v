(** Power-flux lemma for one layer update, independent of which solver produced the modal matrices. *)
From Coq Require Import Reals Lra Psatz.
From mathcomp Require Import all_ssreflect ssralg matrix mxalgebra.
From Coquelicot Require Import Complex.
From Verif Require Import Cplx Mx ModelTM.

Set Implicit Arguments.
Unset Strict Implicit.
Unset Printing Implicit Defensive.
Local Open Scope ring_scope.
Import GRing.Theory.

Global Arguments meeinv : simpl never.
Global Arguments layer_update : simpl never.

Definition herm n (A : 'M[C]_n) := adj A = A.

Lemma half_half : half + half = 1.
Proof. rewrite /half -RtoC_add; congr RtoC; field. Qed.
Lemma halfK m n (A : 'M[C]_(m, n)) : half *: A + half *: A = A.
Proof. by rewrite -scalerDl half_half scale1r. Qed.
Lemma half_neq0 : half != 0.
Proof. by apply: RtoC_neq0; lra. Qed.

(** Successful runs of [layer_update] with exact inversion. *)
Section Update.
Variable pinv : forall n, 'M[C]_n -> 'M[C]_n.
Variable m : nat.
Implicit Types W V X F G T : 'M[C]_m.

Definition modeA W V F G : 'M[C]_m := half *: (invmx W *m F + invmx V *m G).
Definition modeB W V F G : 'M[C]_m := half *: (invmx W *m F - invmx V *m G).

Lemma meeinv_some n (A B : 'M[C]_n) :
  meeinv pinv false A = Some B -> A \in unitmx /\ B = invmx A.
Proof. by rewrite /meeinv; case: ifP => // u [<-]. Qed.

Lemma meeinv_unit n (A : 'M[C]_n) : A \in unitmx -> meeinv pinv false A = Some (invmx A).
Proof. by rewrite /meeinv => ->. Qed.

Lemma layer_update_some W V X F G T F' G' T' Ai B :
  layer_update pinv false W V X F G T = Some (F', G', T', Ai, B) ->
  [/\ W \in unitmx, V \in unitmx, modeA W V F G \in unitmx,
      Ai = invmx (modeA W V F G) & B = modeB W V F G]
  /\ [/\ F' = W *m (1%:M + X *m B *m Ai *m X), G' = V *m (1%:M - X *m B *m Ai *m X)
       & T' = T *m Ai *m X].
Proof.
rewrite /layer_update.
case hW: (meeinv _ _ W) => [Wi|] //; have [uW ->] := meeinv_some hW.
case hV: (meeinv _ _ V) => [Vi|] //; have [uV ->] := meeinv_some hV.
case hA: (meeinv _ _ _) => [Ai'|] //; have [uA ->] := meeinv_some hA.
by case=> <- <- <- <- <-.
Qed.

Lemma modeAB_F W V F G : W \in unitmx -> F = W *m (modeA W V F G + modeB W V F G).
Proof.
move=> u; rewrite /modeA /modeB -scalerDr addrACA subrr addr0 scalerDr halfK mulKVmx //.
Qed.

Lemma modeAB_G W V F G : V \in unitmx -> G = V *m (modeA W V F G - modeB W V F G).
Proof.
move=> u; rewrite /modeA /modeB -scalerBr opprB addrC addrA subrK scalerDr halfK mulKVmx //.
Qed.

(** [F A^-1 X = W (X + B A^-1 X)] and [G A^-1 X = V (X - B A^-1 X)]. *)
Lemma update_F W V X F G Ai :
  W \in unitmx -> modeA W V F G \in unitmx -> Ai = invmx (modeA W V F G) ->
  F *m (Ai *m X) = W *m (X + modeB W V F G *m Ai *m X).
Proof.
move=> uW uA ->; rewrite {1}(modeAB_F V F G uW) -mulmxA mulmxDl; congr (_ *m (_ + _)).
- by rewrite mulmxA mulmxV // mul1mx.
- by rewrite mulmxA.
Qed.

Lemma update_G W V X F G Ai :
  V \in unitmx -> modeA W V F G \in unitmx -> Ai = invmx (modeA W V F G) ->
  G *m (Ai *m X) = V *m (X - modeB W V F G *m Ai *m X).
Proof.
move=> uV uA ->; rewrite {1}(modeAB_G W F G uV) -mulmxA mulmxBl; congr (_ *m (_ - _)).
- by rewrite mulmxA mulmxV // mul1mx.
- by rewrite mulmxA.
Qed.

End Update.

(** ** The flux form *)
Definition flux m (S F G : 'M[C]_m) : 'M[C]_m := adj F *m S *m G - adj G *m adj S *m F.

Section FluxStep.
Variable m : nat.
Variables (S W V : 'M[C]_m) (q : 'rV[C]_m).
Variables (k0 d : R).
Let M := adj W *m S *m V.
Let Q := diag_mx q.
Hypothesis hMQ : herm (M *m Q).
Hypothesis hQM : herm (adj Q *m M).

Let X := Xmat k0 q d.
Let D := M - adj M.
Let P := M + adj M.

Lemma flux_entry i j :
  (M i j - conj (M j i)) * (q ord0 j + conj (q ord0 i)) = 0 /\
  (M i j + conj (M j i)) * (q ord0 j - conj (q ord0 i)) = 0.
Proof.
have e1 : M i j * q ord0 j = conj (M j i) * conj (q ord0 i).
  have := congr1 (fun A : 'M_m => A j i) hMQ.
  rewrite adjE /Q !mul_mx_diag !mxE => h.
  by rewrite -conjM -h conjK.
have e2 : conj (q ord0 i) * M i j = q ord0 j * conj (M j i).
  have := congr1 (fun A : 'M_m => A i j) hQM.
  rewrite adjE /Q adj_diag !mul_diag_mx !mxE conjM conjK => h.
  by rewrite -h.
split.
- rewrite mulrDr !mulrBl e1 [M i j * conj _]mulrC e2; cring.
- rewrite mulrBr !mulrDl e1 [M i j * conj _]mulrC e2; cring.
Qed.

Lemma Xe j : X j j = cexp (- RtoC k0 * q ord0 j * RtoC d).
Proof. by rewrite !mxE eqxx mulr1n. Qed.

Lemma conjXe j : conj (X j j) = cexp (- RtoC k0 * conj (q ord0 j) * RtoC d).
Proof. by rewrite Xe -cexp_conj !conjM conjN !conjR. Qed.

Lemma flux_D : adj X *m D *m X = D.
Proof.
apply/matrixP => i j; have [] := flux_entry i j; rewrite /D.
generalize M => N h _.
rewrite /X /Xmat adj_diag mul_mx_diag mul_diag_mx !mxE.
rewrite -cexp_conj mulrAC -cexpD !conjM conjN !conjR.
have -> : (- RtoC k0 * conj (q ord0 i) * RtoC d + - RtoC k0 * q ord0 j * RtoC d) =
   - RtoC k0 * RtoC d * (q ord0 j + conj (q ord0 i)) by cring.
have/eqP := h; rewrite mulf_eq0 => /orP[] /eqP e.
- by rewrite e mulr0.
- by rewrite e mulr0 cexp0 mul1r.
Qed.

Lemma flux_P : P *m X = adj X *m P.
Proof.
apply/matrixP => i j; have [] := flux_entry i j; rewrite /P.
generalize M => N _ h.
rewrite /X /Xmat adj_diag mul_mx_diag mul_diag_mx !mxE.
rewrite -cexp_conj !conjM conjN !conjR mulrC.
have/eqP := h; rewrite mulf_eq0 => /orP[] /eqP e.
- by rewrite e !mulr0.
- by rewrite (subr0_eq e).
Qed.

Lemma flux_expand (Y1 Y2 : 'M[C]_m) :
  flux S (W *m (Y1 + Y2)) (V *m (Y1 - Y2)) =
  adj Y1 *m D *m Y1 - adj Y1 *m P *m Y2 + adj Y2 *m P *m Y1 - adj Y2 *m D *m Y2.
Proof.
have e1 : forall A B : 'M[C]_m, adj (W *m A) *m S *m (V *m B) = adj A *m M *m B.
  by move=> A B; rewrite adjM /M !mulmxA.
have e2 : forall A B : 'M[C]_m, adj (V *m A) *m adj S *m (W *m B) = adj A *m adj M *m B.
  by move=> A B; rewrite /M !adjM adjK !mulmxA.
rewrite /flux e1 e2 adjD adjB /D /P.
move: (adj M) => N.
rewrite !(mulmxDl, mulmxBl, mulmxDr, mulmxBr, mulmxN, mulNmx) !opprD !opprK.
apply/matrixP => i j; rewrite !mxE.
set s1 := \sum_(k < m) _; set s2 := \sum_(k < m) _; set s3 := \sum_(k < m) _; set s4 := \sum_(k < m) _.
set s5 := \sum_(k < m) _; set s6 := \sum_(k < m) _; set s7 := \sum_(k < m) _; set s8 := \sum_(k < m) _.
cring.
Qed.

Theorem flux_step (F G Ai B : 'M[C]_m) :
  W \in unitmx -> V \in unitmx -> modeA W V F G \in unitmx ->
  Ai = invmx (modeA W V F G) -> B = modeB W V F G ->
  flux S (W *m (1%:M + X *m B *m Ai *m X)) (V *m (1%:M - X *m B *m Ai *m X)) =
  adj (Ai *m X) *m flux S F G *m (Ai *m X).
Proof.
move=> uW uV uA eAi eB.
set Z := B *m Ai *m X.
have eY : X *m B *m Ai *m X = X *m Z by rewrite /Z !mulmxA.
have -> : adj (Ai *m X) *m flux S F G *m (Ai *m X) = flux S (F *m (Ai *m X)) (G *m (Ai *m X)).
  by rewrite /flux mulmxBr mulmxBl adjM [adj (F *m _)]adjM [adj (G *m _)]adjM -adjM !mulmxA.
rewrite (update_F X uW uA eAi) (update_G X uV uA eAi) -eB -/Z eY !flux_expand.
rewrite adj1 adjM !mul1mx !mulmx1.
have -> : adj Z *m adj X *m D *m (X *m Z) = adj Z *m D *m Z.
  by rewrite -{2}flux_D !mulmxA.
rewrite -{1}flux_D; congr (_ - _ + _ - _).
- by rewrite mulmxA flux_P.
- by rewrite -mulmxA -flux_P mulmxA.
Qed.

End FluxStep.
