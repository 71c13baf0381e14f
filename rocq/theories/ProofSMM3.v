From Coq Require Import Reals Lra Psatz.
From mathcomp Require Import all_ssreflect ssralg matrix mxalgebra.
From Coquelicot Require Import Complex.
From Verif Require Import Cplx Mx Spec SpecSolve SpecField ModelTM ModelSMM SpecSMM ProofSMM ProofSMM2 ProofEff ProofEnergy1D ProofSetup ProofNormal ProofField ProofBVP.

Set Implicit Arguments.
Unset Strict Implicit.
Unset Printing Implicit Defensive.
Local Open Scope ring_scope.
Import GRing.Theory.

Lemma Cmod_sq z : (Cmod z * (Cmod z * 1) = nrm2 z)%coqR.
Proof.
rewrite -[LHS]/((Cmod z ^ 2)%coqR).

rewrite /Cmod pow2_sqrt /nrm2 /Re /Im; first by ring.
by apply: Rplus_le_le_0_compat; apply: pow2_ge_0.
Qed.

(** Away from grazing, a lossless medium has admittance i kz, divided by the permittivity in TM. *)
Lemma homog_vE tm (nn : R) kx i (k : R) : kx i = RtoC k -> nn <> 0%coqR -> (k * k <> nn * nn)%coqR ->
  homog_kz tm (RtoC nn) kx i = (if tm then kz_of (RtoC nn) (kx i) 0 * RtoC nn ^+ 2 else kz_of (RtoC nn) (kx i) 0) /\
  homog_v tm (RtoC nn) kx i = ci * weigh tm (RtoC nn) (kz_of (RtoC nn) (kx i) 0).
Proof.
move=> ek hn hk; rewrite /homog_v /homog_kz /kz_of expr0n subr0 ek.
have eQ : RtoC nn ^+ 2 - RtoC k ^+ 2 = RtoC (nn * nn - k * k) by rewrite !expr2 -!RtoC_mul -RtoC_sub.
rewrite eQ; set Q := RtoC (_ - _); set z := conj (csqrt Q).
have Q0 : Q != 0 by apply/eqP => /(congr1 fst) /= e; apply: hk; change ((nn * nn - k * k)%coqR = 0%coqR) in e; lra.
have ez : z * z = Q by rewrite /z -conjM csqrt_sqr /Q conjR.
have z0 : z != 0 by apply: contraNneq Q0 => e; rewrite -ez e mul0r.
have n0 : RtoC nn != 0 by apply/eqP => /(congr1 fst).
rewrite /orp (negbTE z0) (negbTE Q0); split; first by case: tm.
have i0 : ci != 0 by apply/eqP => /(congr1 snd) /= e; change (1%coqR = 0%coqR) in e; lra.
have ii : - ci^-1 = ci :> C.
  by apply: (mulfI i0); rewrite mulrN mulfV // ci2.
have aux : Q / (- ci * z) = ci * z.
  by rewrite -ez invfM invrN ii mulrCA mulfK.
case: tm => /=; last exact: aux.
by rewrite [in LHS]mulrA (invfM (- ci * z)) [in LHS]mulrA aux mulrA.
Qed.

Section Agree.
Variable pinv : forall n, 'M[C]_n -> 'M[C]_n.
Variable eig : forall n, 'M[C]_n -> 'rV[C]_n * 'M[C]_n.

Lemma reqb_tm pol : reqb pol 0 || reqb pol 1 -> ~~ reqb pol 0 = is_tm pol.
Proof.
rewrite /reqb /is_tm; case: Req_EM_T => [e0|h] /=; first by case: Req_EM_T => // e; exfalso; lra.
by case: Req_EM_T.
Qed.

Lemma amplitudes pol n kx k0 (nt nb th : R) (ls : seq (layer n)) r T1 infos Vg S :
  (0 < nt)%coqR -> (0 <= th < PI / 2)%coqR -> kx (n %/ 2)%N = RtoC (nt * sin th) ->
  rcwa_1d pinv eig false pol kx k0 (RtoC th) (RtoC nt) (RtoC nb) ls = Some (r, T1, infos) ->
  let Y nn := diagf n (fun i => ci * weigh (is_tm pol) (RtoC nn) (kz_of (RtoC nn) (kx i) 0)) in
  device k0 1%:M Vg (Y nt) (Y nb) (map (@slab_of n) (rev infos)) = Some S ->
  co_R (is_tm pol) r = S11 S *m delta_i0 n /\ co_T (is_tm pol) r = S21 S *m delta_i0 n.
Proof.
move=> hnt hth hc hr Y hS; have [F [G [T [hs h4]]]] := rcwa_1d_parts hr.
have [u e1 eR eT] := ends_1d h4.
have hth' := stack_through hs T1; rewrite mul1mx -/(Y nb) in hth'.
have inc : (ci * weigh (is_tm pol) (RtoC nt) (RtoC nt * ccos (RtoC th))) *: delta_i0 n = Y nt *m delta_i0 n.
  apply/colP => i; rewrite mxE /Y /diagf diag_mulE !mxE; case: ifP => [/eqP ei|_]; last by rewrite !mulr0.
  rewrite ei hc /kz_of expr0n subr0 (kz_center hnt hth) //; congr (_ * weigh _ _ _ * _); by rewrite ccos_real -RtoC_mul.
rewrite inc -/(Y nt) in e1.
have eG : G *m T1 = Y nt *m (delta_i0 n - (F *m T1 - delta_i0 n)).
  move: e1; rewrite mulmxDl -mulmxA => e1; apply: (@addIr _ (Y nt *m (F *m T1))); rewrite e1 -mulmxDr -mulmxDr; congr (_ *m _); mxab.
have hb : between k0 (Y nt) (Y nb) (map (@slab_of n) (rev infos)) (delta_i0 n) (F *m T1 - delta_i0 n) (T *m T1) 0.
  rewrite /between -eG addr0 subr0; have -> : delta_i0 n + (F *m T1 - delta_i0 n) = F *m T1 by rewrite addrC subrK.
  exact: hth'.
have [e2 e3] := (device_direct hS _ _ _ _).2 hb.
by rewrite eR eT e2 e3 !mulmx0 !addr0.
Qed.

Lemma smm_is_tmm pol n kx k0 (nt nb th : R) (ls : seq (layer n)) r T1 infos Rv Tv a b :
  (0 < nt)%coqR -> (0 < nb)%coqR -> (0 <= th < PI / 2)%coqR -> kx (n %/ 2)%N = RtoC (nt * sin th) ->
  (forall i, (i < n)%N -> exists2 k : R, kx i = RtoC k & (k * k <> nt * nt)%coqR /\ (k * k <> nb * nb)%coqR) ->
  rcwa_1d pinv eig false pol kx k0 (RtoC th) (RtoC nt) (RtoC nb) ls = Some (r, T1, infos) ->
  smm_1d pol kx k0 (RtoC th) (RtoC nt) (RtoC nb) (map (@slab_of n) (rev infos)) = Some (Rv, Tv, a, b) ->
  [/\ co_R (is_tm pol) r = Rv, co_T (is_tm pol) r = Tv, de_ri r =1 a & de_ti r =1 b].
Proof.
move=> hnt hnb hth hc hk hr; rewrite /smm_1d.
have hp : reqb pol 0 || reqb pol 1.
  by move: hr; rewrite /rcwa_1d /transfer_1d_1; case: (reqb pol 0) => //; case: (reqb pol 1).
rewrite (reqb_tm hp).
have hY nn : nn = nt \/ nn = nb -> diagf n (homog_v (is_tm pol) (RtoC nn) kx) =
    diagf n (fun i => ci * weigh (is_tm pol) (RtoC nn) (kz_of (RtoC nn) (kx i) 0)).
  move=> hnn; apply: diagf_eq => i hi; have [k ek [h1 h2]] := hk i hi.
  by apply: (proj2 (homog_vE _ ek _ _)); case: hnn => ->; lra.
rewrite (hY nt) ?(hY nb); [|by right|by left].
case hS: device => [S|] //; have [eR eT] := amplitudes hnt hth hc hr hS.
have c0 : (0 < cos th)%coqR by apply: cos_gt_0; lra.
have kc0 : (0 < nt * cos th)%coqR by apply: Rmult_lt_0_compat.
have hz (i : 'I_n) nn : nn = nt \/ nn = nb -> homog_kz (is_tm pol) (RtoC nn) kx i =
    (if is_tm pol then kz_1d (RtoC nn) kx i * RtoC nn ^+ 2 else kz_1d (RtoC nn) kx i).
  move=> hnn; have [k ek [h1 h2]] := hk i (ltn_ord i); rewrite kz_1dE.
  by apply: (proj1 (homog_vE _ ek _ _)); case: hnn => ->; lra.
have eReT : Re (RtoC nt * ccos (RtoC th)) = (nt * cos th)%coqR by rewrite ccos_real -RtoC_mul Re_RtoC.
rewrite eReT -eR -eT {hS}.
have [F [G [T [hs h4]]]] := rcwa_1d_parts hr.
move: hp h4 hz; rewrite /transfer_1d_4; case: ifP => [/reqbP -> _|_ /=].
  rewrite is_tm0 /=; case: (meeinv _ _ _) => [M|] //; set T1' := M *m _; case=> <- _ /= hz [<- <- <- <-]; split=> // i.
  - by rewrite de_form hz; [|by left]; rewrite ccos_real -RtoC_mul Re_divR ?Cmod_sq; [field; lra|lra].
  - by rewrite de_form hz; [|by right]; rewrite ccos_real -RtoC_mul Re_divR ?Cmod_sq; [field; lra|lra].
case: ifP => [/reqbP -> _|_ //]; rewrite is_tm1.
case: (meeinv _ _ _) => [M|] //; set T1' := M *m _; case=> <- _ /= hz [<- <- <- <-]; split=> // i.
- rewrite de_form hz; [|by left]; rewrite ccos_real -RtoC_mul Re_divR ?Cmod_sq; last lra.
  rewrite Re_div_sq; last lra.
  rewrite Re_RtoC expr2 -RtoC_mul mulrC ReZ; field; lra.
- rewrite de_form hz; [|by right]; rewrite ccos_real Cmod_sq.
  have -> : RtoC (cos th) / RtoC nt = RtoC (cos th / nt) by rewrite RtoC_div //; lra.
  have cn0 : (cos th / nt)%coqR <> 0%coqR by have := Rdiv_lt_0_compat _ _ c0 hnt; lra.
  rewrite Re_divR // Re_div_sq; last lra.
  have -> : RtoC nb ^+ 4 = RtoC (nb * nb * (nb * nb)) by rewrite (exprM _ 2 2) !expr2 -!RtoC_mul.
  have nb4 : (nb * nb * (nb * nb))%coqR <> 0%coqR by have := Rmult_lt_0_compat _ _ hnb hnb; nra.
  have -> : Re (kz_1d (RtoC nb) kx i * RtoC nb ^+ 2) = (nb * nb * Re (kz_1d (RtoC nb) kx i))%coqR.
    by rewrite expr2 -RtoC_mul mulrC ReZ.
  rewrite expr2 -RtoC_mul -RtoC_mul Re_divR // Re_RtoC.
  field; do !split; lra.
Qed.

Lemma solve_smm_is_tmm s w (convs : seq (conv3 (ff_x s))) r T1 infos Rv Tv a b (nb : R) :
  physical s -> phi s = None -> n_bot s = RtoC nb -> (0 < nb)%coqR ->
  (forall i, (i < ff_x s)%N -> kx_vector s w i ^+ 2 <> n_top s ^+ 2 /\ kx_vector s w i ^+ 2 <> n_bot s ^+ 2) ->
  solve_1d pinv eig false s w convs = Some (r, T1, infos) ->
  smm_1d (pol s) (kx_vector s w) (k0_of w) (theta s) (n_top s) (n_bot s) (map (@slab_of (ff_x s)) (rev infos)) = Some (Rv, Tv, a, b) ->
  [/\ co_R (is_tm (pol s)) r = Rv, co_T (is_tm (pol s)) r = Tv, de_ri r =1 a & de_ti r =1 b].
Proof.
move=> [[nt hnt e1] [th hth e2]
 _ _ _] hphi e3 hnb hk; rewrite /solve_1d.
case E: layers_of => [ls|] //; rewrite e1 e2 e3 => hr hs.
have hpv : phi_val s = RtoC 0 by rewrite /phi_val hphi.
have [kxE _] := kx_phys w e1 e2 hth hpv.
apply: (smm_is_tmm hnt hnb hth _ _ hr hs).
- by rewrite (kx_mid w e1 e2 hth hphi) // /ff_x half_ff.
- move=> i hi; have [h1 h2] := hk i hi; rewrite kxE in h1 h2; rewrite kxE; eexists; first by reflexivity.
  rewrite e1 in h1; rewrite e3 in h2; split=> e; [apply: h1|apply: h2]; by rewrite !expr2 -!RtoC_mul e.
Qed.
End Agree.
