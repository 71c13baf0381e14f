(** Properties about reciprocity of transmission: the device lit from the substrate side along the zeroth transmitted order. *)
From Coq Require Import Reals ZArith Lra.
From mathcomp Require Import all_ssreflect ssralg matrix.
From Coquelicot Require Import Complex.
From Verif Require Import Cplx Mx Spec SpecState SpecSym SpecRecipT ModelTM ModelField ModelState SpecLayer ProofObjEx ProofRecipT2 ProofSymEx ProofRecipEx
  ExampleKit PropertiesState PropertiesSym.

Set Implicit Arguments.
Unset Strict Implicit.
Unset Printing Implicit Defensive.
Local Open Scope ring_scope.
Import GRing.Theory.

(** ** C100: reciprocity of the zeroth transmitted order, for absorbing and asymmetric stacks too *)
Theorem C100_transmission_classical pinv eig : eigen_oracle eig -> forall th' o th o1 o2 r r',
  physical_obj o -> thick_enough o -> one_thickness_per_layer o -> o_use_pinv o = false -> promised o 0 ->
  leaves_along (-1) o th' -> o_theta o = Some th ->
  conv_solve pinv eig o = (o1, Solved r) -> conv_solve pinv eig (sent_back th' o) = (o2, Solved r') ->
  reports (fun n => same_through (n := n) (o_ntop o) th (o_nbot o) th') r r'.
Proof. exact (@thru_classical_obj pinv eig). Qed.
Print Assumptions C100_transmission_classical.

Theorem C100_transmission_sp pinv eig : eigen_oracle eig -> forall th' ps po o th o1 o2 r r',
  physical_obj o -> thick_enough o -> one_thickness_per_layer o -> o_use_pinv o = false -> ~ promised o 0 ->
  leaves_along 1 o th' -> o_theta o = Some th ->
  conv_solve pinv eig o = (o1, Solved r) -> conv_solve pinv eig (sent_back_sp th' ps po o) = (o2, Solved r') ->
  reciprocal_through_reports (o_ntop o) th (o_nbot o) th' (o_psi o) ps r r'.
Proof. exact (@thru_sp_obj pinv eig). Qed.
Print Assumptions C100_transmission_sp.

(** Superstrate of low index [nt], substrate of index 2, light at [th_ex] above and at asin (nt / 6) below. *)
Lemma below_angle nt : (0 < nt <= 1)%coqR -> (0 < asin (nt / 6) < PI / 2)%coqR /\ sin (asin (nt / 6)) = (nt / 6)%coqR.
Proof.
move=> hn; have e : sin (asin (nt / 6)) = (nt / 6)%coqR by apply: sin_asin; lra.
split=> //; have [h1 h2] := asin_bound (nt / 6); have p0 := PI_RGT_0; split.
  case: (Rlt_dec 0 (asin (nt / 6))) => // h.
  have : (0 <= sin (- asin (nt / 6)))%coqR by apply: sin_ge_0; lra.
  by rewrite sin_neg e; lra.
case: (Rlt_dec (asin (nt / 6)) (PI / 2)) => // h.
have h3 : asin (nt / 6) = (PI / 2)%coqR by lra.
by move: e; rewrite h3 sin_PI2; lra.
Qed.

(** Two different line patterns on top of each other. *)
Definition line_ex2 (i j : nat) : C := line_ex i (2 - j).
Example C100_classical_ex pv : exists o th' th o1 o2 r r', [/\
  [/\ physical_obj o, thick_enough o, one_thickness_per_layer o, o_use_pinv o = false & promised o 0],
  [/\ leaves_along (-1) o th', o_theta o = Some th, o_cell o = CRaster 1 3 [:: line_ex; line_ex2] & o_ntop o <> o_nbot o]
  & conv_solve pv eig_ex o = (o1, Solved r) /\ conv_solve pv eig_ex (sent_back th' o) = (o2, Solved r')].
Proof.
have [m m0 h] := bench_classical pv (ltn0Sn 2) (line_pos id) (line_pos (fun j => (2 - j)%N)).
pose nt := Rmin 1 m; have nt0 : (0 < nt)%coqR by apply: Rmin_pos; lra.
have n1 : (nt <= 1)%coqR := Rmin_l _ _; have nm : (nt <= m)%coqR := Rmin_r _ _; clearbody nt.
have [hb sb] := below_angle (Logic.conj nt0 n1); have tb := th_ex_bound; have p0 := PI_RGT_0.
have k0 : (nt * / 3 * (nt * / 3) < m)%coqR.
  have : (nt * nt <= nt * 1)%coqR by apply: Rmult_le_compat_l; lra.
  by lra.
set t' := (- asin (nt / 6))%coqR.
have st : sin t' = (- (nt / 6))%coqR by rewrite /t' sin_neg sb.
have [o1 [r e1]] := h nt 2%coqR th_ex 0 line_ex line_ex2 3%coqR 1%coqR nt0 ltac:(lra) ltac:(lra)
  ltac:(rewrite sin_th_ex; lra) (or_introl erefl) (or_intror erefl).
have [o2 [r' e2]] := h 2%coqR nt t' 0 line_ex2 line_ex 1%coqR 3%coqR ltac:(lra) nt0 ltac:(rewrite /t'; lra)
  ltac:(rewrite st; lra) (or_intror erefl) (or_introl erefl).
exists (bench 1 3 [:: line_ex; line_ex2] [:: 3; 1]%coqR nt 2 th_ex None 0 0), (RtoC t'), (RtoC th_ex), o1, o2, r, r'; split.
- split.
  + split=> //=; first by exists nt.
    * by move=> t [<-]; exists th_ex.
    * exact: real0.
    * by move=> ps [<-] p /= [<-|[<-|//]]; lra.
  + by move=> ts [<-] t /= [<-|[<-|//]]; lra.
  + by move=> ts [<-].
  + by [].
  + by apply: (@P1d _ 3 [:: line_ex; line_ex2]) => //; [left|exists 0%N].
- split=> //=; last by move=> [] e; lra.
  split; first by exists 2%coqR => //; lra.
    by exists t' => //; rewrite /t'; lra.
  by move=> th [<-]; rewrite mulN1r !csin_real -!RtoC_mul -RtoC_opp; congr RtoC; rewrite st sin_th_ex; field.
- by split; [exact e1|exact e2].
Qed.

(** Two corner patterns of 2 by 2 pixels on top of each other. *)
Definition corner_ex2 (i j : nat) : C := corner_ex (1 - i) j.
Example C100_sp_ex pv ps po : exists o th' th o1 o2 r r', [/\
  [/\ physical_obj o, thick_enough o, one_thickness_per_layer o, o_use_pinv o = false & ~ promised o 0],
  [/\ leaves_along 1 o th', o_theta o = Some th, o_cell o = CRaster 2 2 [:: corner_ex; corner_ex2] & o_ntop o <> o_nbot o]
  & conv_solve pv eig_ex o = (o1, Solved r) /\ conv_solve pv eig_ex (sent_back_sp th' ps po o) = (o2, Solved r')].
Proof.
have [m m0 h] := bench_sp pv (ltnSn 1) (ltn0Sn 1) (corner_pos id id) (corner_pos (fun i => (1 - i)%N) id).
pose nt := Rmin 1 m; have nt0 : (0 < nt)%coqR by apply: Rmin_pos; lra.
have n1 : (nt <= 1)%coqR := Rmin_l _ _; have nm : (nt <= m)%coqR := Rmin_r _ _; clearbody nt.
have [hb sb] := below_angle (Logic.conj nt0 n1); have tb := th_ex_bound; have p0 := PI_RGT_0.
have tp : (0 < th_ex)%coqR.
  by case: (Req_dec th_ex 0) => e; [have := sin_th_ex; rewrite e sin_0; lra|lra].
have k0 : (nt * / 3 * (nt * / 3) < m)%coqR.
  have : (nt * nt <= nt * 1)%coqR by apply: Rmult_le_compat_l; lra.
  by lra.
have [o1 [r e1]] := h nt 2%coqR th_ex 0%coqR 0 0 corner_ex corner_ex2 3%coqR 1%coqR nt0 ltac:(lra) ltac:(lra)
  ltac:(rewrite sin_th_ex; lra) (or_introl erefl) (or_introl erefl) (or_intror erefl).
have [o2 [r' e2]] := h 2%coqR nt (asin (nt / 6)) PI ps po corner_ex2 corner_ex 1%coqR 3%coqR ltac:(lra) nt0 hb
  ltac:(rewrite sb; lra) (or_intror erefl) (or_intror erefl) (or_introl erefl).
have ep : RtoC PI + RtoC 0 = RtoC PI by rewrite addr0.
exists (bench 2 2 [:: corner_ex; corner_ex2] [:: 3; 1]%coqR nt 2 th_ex (Some (RtoC 0)) 0 0), (RtoC (asin (nt / 6))), (RtoC th_ex), o1, o2, r, r'; split.
- split.
  + split=> //=; first by exists nt.
    * by move=> t [<-]; exists th_ex.
    * by move=> p [<-]; exists 0%coqR.
    * exact: real0.
    * by move=> qs [<-] p /= [<-|[<-|//]]; lra.
  + by move=> ts [<-] t /= [<-|[<-|//]]; lra.
  + by move=> ts [<-].
  + by [].
  + by move=> hp; inversion hp.
- split=> //=; last by move=> [] e; lra.
  split; first by exists 2%coqR => //; lra.
    by exists (asin (nt / 6)) => //; lra.
  by move=> th [<-]; rewrite mul1r !csin_real -!RtoC_mul; congr RtoC; rewrite sb sin_th_ex; field.
- split; first exact e1.
  have -> : sent_back_sp (RtoC (asin (nt / 6))) ps po (bench 2 2 [:: corner_ex; corner_ex2] [:: 3; 1]%coqR nt 2 th_ex (Some (RtoC 0)) 0 0)
      = bench 2 2 [:: corner_ex2; corner_ex] [:: 1; 3]%coqR 2 nt (asin (nt / 6)) (Some (RtoC PI)) ps po.
    by rewrite /sent_back_sp /from_below /= ep.
  exact e2.
Qed.
