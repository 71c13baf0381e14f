(** Two runs on the same layers agree: the boundary-value problem determines amplitudes and fields. *)
From Coq Require Import Reals Lra Psatz FunctionalExtensionality.
From mathcomp Require Import all_ssreflect ssralg matrix mxalgebra.
From Coquelicot Require Import Complex Hierarchy Continuity Derive.
From Verif Require Import Cplx Mx ModelTM ModelField Spec SpecSolve SpecField SpecAgree ProofFlux ProofEnergy1D ProofEnergy2D
  ProofSetup ProofEff ProofEnd ProofSubstrate ProofWellSolve ProofCompose ProofField ProofBVP ProofBVP2 ProofFieldSolve.

Set Implicit Arguments.
Unset Strict Implicit.
Unset Printing Implicit Defensive.
Local Open Scope ring_scope.
Import GRing.Theory.

(** ** Uniqueness of the field in one layer *)
Section Ode.
Variable m : nat.
Variable k0 : R.

Lemma Xmat_unit (q : 'rV[C]_m) d : Xmat k0 q d \in unitmx.
Proof.
have h : Xmat k0 q d *m Xmat k0 q (- d)%coqR = 1%:M by rewrite XmatD Rplus_opp_r Xmat0.
by case: (mulmx1_unit h).
Qed.

Lemma cderiv_sub f g z l k : cderiv f z l -> cderiv g z k -> cderiv (fun t => f t - g t) z (l - k).
Proof. by case=> h1 h2 [h3 h4]; split; [exact: is_derive_minus h1 h3|exact: is_derive_minus h2 h4]. Qed.
Lemma ccont_sub f g z : ccont f z -> ccont g z -> ccont (fun t => f t - g t) z.
Proof.
by case=> h1 h2 [h3 h4]; split; apply: (@continuous_minus R_UniformSpace R_AbsRing R_NormedModule).
Qed.

Lemma solves_sub (l : medium m) u v u' v' : solves k0 l u v -> solves k0 l u' v' ->
  solves k0 l (fun z => u z - u' z) (fun z => v z - v' z).
Proof.
case=> h1 h2 [h3 h4]; split=> z hz.
  have [a b] := h1 z hz; have [a' b'] := h3 z hz; split=> i.
    apply: (@cderiv_ext (fun t => u t i ord0 - u' t i ord0)) => [t|]; first by rewrite !mxE.
    by apply: cderiv_eq (cderiv_sub (a i) (a' i)); rewrite mulmxBr scalerBr !mxE.
  apply: (@cderiv_ext (fun t => v t i ord0 - v' t i ord0)) => [t|]; first by rewrite !mxE.
  by apply: cderiv_eq (cderiv_sub (b i) (b' i)); rewrite mulmxBr scalerBr !mxE.
have [a b] := h2 z hz; have [a' b'] := h4 z hz; split=> i.
  by apply: (@ccont_ext (fun t => u t i ord0 - u' t i ord0)) => [t|]; [rewrite !mxE|exact: ccont_sub (a i) (a' i)].
by apply: (@ccont_ext (fun t => v t i ord0 - v' t i ord0)) => [t|]; [rewrite !mxE|exact: ccont_sub (b i) (b' i)].
Qed.

Lemma solves_shorter (l : medium m) u v z : (0 <= z <= m_d l)%coqR -> solves k0 l u v ->
  solves k0 (Medium (m_P l) (m_Q l) z) u v.
Proof. by move=> hz [h1 h2]; split=> t /= ht; [apply: h1; lra|apply: h2; lra]. Qed.

Lemma solution_zero (l : medium m) W V q u v : W \in unitmx -> V \in unitmx -> diagonalised l W V q ->
  solves k0 l u v -> u 0%coqR = 0 -> v 0%coqR = 0 ->
  forall z, (0 <= z <= m_d l)%coqR -> u z = 0 /\ v z = 0.
Proof.
move=> uW uV hd hs u0 v0 z hz.
have hs' := solves_shorter hz hs; have d0 : (0 <= m_d (Medium (m_P l) (m_Q l) z))%coqR by case: hz.
have [] := @solution_modes m k0 (Medium (m_P l) (m_Q l) z) W V q u v uW uV hd d0 hs'.
rewrite /= u0 v0 !(mulmx0, oppr0, addr0, scaler0) => ea eb eu ev.
have eb' : half *: (invmx W *m u z + invmx V *m v z) = 0.
  by rewrite -[LHS](mulKmx (Xmat_unit q z)) -eb mulmx0.
by split; [rewrite eu|rewrite ev]; rewrite ea eb' ?addr0 ?subr0 mulmx0.
Qed.

Lemma solution_det (l : medium m) W V q u v u' v' : W \in unitmx -> V \in unitmx -> diagonalised l W V q ->
  solves k0 l u v -> solves k0 l u' v' -> (u 0%coqR, v 0%coqR) = (u' 0%coqR, v' 0%coqR) ->
  forall z, (0 <= z <= m_d l)%coqR -> u z = u' z /\ v z = v' z.
Proof.
move=> uW uV hd h h' [e1 e2] z hz.
have [||a b] := solution_zero uW uV hd (solves_sub h h') _ _ hz; rewrite ?e1 ?e2 ?subrr //.
by split; apply/eqP; rewrite -subr_eq0; apply/eqP.
Qed.

(** ** ... in a stack *)
Fixpoint agree (ds : seq R) (fs fs' : seq (profile_of m)) : Prop :=
  match ds, fs, fs' with
  | [::], [::], [::] => True
  | d :: ds', (u, v) :: gs, (u', v') :: gs' =>
      (forall z, (0 <= z <= d)%coqR -> u z = u' z /\ v z = v' z) /\ agree ds' gs gs'
  | _, _, _ => False
  end.

Variable pinv : forall n, 'M[C]_n -> 'M[C]_n.

Lemma chain_agree R1 R2 F0 G0 ms ls F G T : matched ms ls -> chain pinv k0 R1 R2 F0 G0 ls F G T ->
  (forall a, List.In a ms -> (0 <= m_d a)%coqR) ->
  forall top fs fs' b b',
  through (map (@m_d m) ms) top fs b -> all_solve k0 ms fs ->
  through (map (@m_d m) ms) top fs' b' -> all_solve k0 ms fs' -> agree (map (@m_d m) ms) fs fs'.
Proof.
elim: ms ls F G T => [|a ms IH] [|l ls] F G T //=.
  by move=> _ _ _ top [|[u v] fs] [|[u' v'] fs'].
case=> ed hdg hm [F1 [G1 [T1 [hc hup]]]] hd top [|[u v] fs] [|[u' v'] fs'] b b' //= [e1 t1] [s1 ss1] [e2 t2] [s2 ss2].
have [[uW uV _ _ _] _] := layer_update_some hup.
have uW' : gW l \in unitmx by move: uW; rewrite unitmx_mul => /andP[].
have uV' : gV l \in unitmx by move: uV; rewrite unitmx_mul => /andP[].
have e12 : (u 0%coqR, v 0%coqR) = (u' 0%coqR, v' 0%coqR) by rewrite e1 e2.
have h := solution_det uW' uV' hdg s1 s2 e12; split=> //.
have hd0 : (0 <= m_d a)%coqR by apply: hd; left.
have [ea eb] : u (m_d a) = u' (m_d a) /\ v (m_d a) = v' (m_d a) by apply: h; lra.
refine (IH ls F1 G1 T1 hm hc _ (u (m_d a), v (m_d a)) fs fs' b b' t1 ss1 _ ss2) => [x hx|]; first by apply: hd; right.
by rewrite ea eb.
Qed.

Lemma agree_size ds fs fs' : agree ds fs fs' -> size fs = size ds /\ size fs' = size ds.
Proof. by elim: ds fs fs' => [|d ds IH] [|[u v] fs] [|[u' v'] fs'] //= [_ /IH [-> ->]]. Qed.

Lemma agree_nth ds fs fs' k d p p' : agree ds fs fs' -> List.nth_error ds k = Some d ->
  List.nth_error fs k = Some p -> List.nth_error fs' k = Some p' ->
  forall z, (0 <= z <= d)%coqR -> p.1 z = p'.1 z /\ p.2 z = p'.2 z.
Proof.
elim: ds fs fs' k => [|d0 ds IH] [|[u v] fs] [|[u' v'] fs'] [|k] //= [h1 h2].
  by case=> <- [<-] [<-].
exact: IH.
Qed.

End Ode.

Lemma z_point_in res_z d iz : (0 <= d)%coqR -> (iz < res_z)%N -> (0 <= z_point res_z d iz <= d)%coqR.
Proof.
move=> d0 h; rewrite /z_point /linspace; case: leqP => h1.
  by rewrite /Rdiv !Rmult_0_l; lra.
case: res_z h h1 => [|[|r]] // h _; rewrite (S_INR r.+1).
have p : (0 < INR r.+1)%coqR by apply: lt_0_INR; lia.
have q : (0 <= INR iz <= INR r.+1)%coqR by split; [exact: pos_INR|apply: le_INR; move/ltP: h; lia].
move: (INR r.+1) (INR iz) p q => x y p q.
have -> : (y * ((x + 1) / (x + 1 - 1)) / (x + 1) * d = (y / x) * d)%coqR by field; lra.
have h0 : (0 <= y / x <= 1)%coqR.
  split; first by apply: Rmult_le_pos; [lra|apply: Rlt_le; apply: Rinv_0_lt_compat].
  by apply: (Rmult_le_reg_r x) => //; rewrite /Rdiv Rmult_assoc Rinv_l; lra.
by move: h0; set t := (y / x)%coqR => h0; nra.
Qed.
