(** Non-negativity of the efficiencies and vanishing of evanescent orders. *)
From Coq Require Import Reals Lra Psatz.
From mathcomp Require Import all_ssreflect ssralg matrix mxalgebra.
From Coquelicot Require Import Complex.
From Verif Require Import Cplx Mx Spec ModelTM SpecSolve ProofFlux ProofEnergy1D ProofEnergy2D ProofSetup.

Set Implicit Arguments.
Unset Strict Implicit.
Unset Printing Implicit Defensive.
Local Open Scope ring_scope.
Import GRing.Theory.

Lemma de_form z w : Re (z * conj z * RtoC w) = (nrm2 z * w)%coqR.
Proof. by rewrite mul_conj -RtoC_mul. Qed.

Lemma Re_divR z (r : R) : r <> 0%coqR -> Re (z / RtoC r) = (Re z / r)%coqR.
Proof. by move=> h; rewrite -RtoC_inv // mulrC ReZ Rmult_comm. Qed.

Lemma RmulDAC x y z : (x * (y / z) = x * / z * y)%coqR.
Proof. by rewrite /Rdiv; ring. Qed.

Lemma Re_csqrt_conj z : (0 <= Re (conj (csqrt z)))%coqR.
Proof. by rewrite Re_conj; apply: csqrt_Re_ge0. Qed.

Lemma evan_zero (x : R) : (x < 0)%coqR -> Re (conj (csqrt (RtoC x))) = 0%coqR.
Proof. by move=> h; rewrite (csqrt_neg h) Re_conj mulrC ReZ /ci /Ci /Re /=; ring. Qed.

Section Eff.
Variable pinv : forall n, 'M[C]_n -> 'M[C]_n.
Variable eig : forall n, 'M[C]_n -> 'rV[C]_n * 'M[C]_n.
Variable up : bool.

(** Shape of the efficiencies of a 1D result. *)
Lemma eff_1d pol n (F G T : 'M[C]_n) kzt kzb (th nt : R) nb r T1 :
  (0 < nt)%coqR -> (0 <= th < PI / 2)%coqR ->
  transfer_1d_4 pinv up pol F G T kzt kzb (RtoC th) (RtoC nt) nb = Some (r, T1) ->
  exists a b : 'I_n -> R, (forall i, (0 <= a i)%coqR) /\ (forall i, (0 <= b i)%coqR) /\
  (forall i, de_ri r i = (a i * Re (kzt i))%coqR) /\
  (pol = 0%coqR /\ de_ri_s r =1 de_ri r /\ de_ti_s r =1 de_ti r /\
     de_ri_p r =1 (fun=> 0%coqR) /\ de_ti_p r =1 (fun=> 0%coqR) /\
     (forall i, de_ti r i = (b i * Re (kzb i))%coqR)
   \/ pol = 1%coqR /\ de_ri_p r =1 de_ri r /\ de_ti_p r =1 de_ti r /\
     de_ri_s r =1 (fun=> 0%coqR) /\ de_ti_s r =1 (fun=> 0%coqR) /\
     (forall i, de_ti r i = (b i * Re (kzb i / nb ^+ 2)%R)%coqR)).
Proof.
move=> h1 h2.
have c0 : (0 < cos th)%coqR by apply: cos_gt_0; lra.
have kc0 : (0 < nt * cos th)%coqR by apply: Rmult_lt_0_compat.
have ikc : (0 < / (nt * cos th))%coqR by apply: Rinv_0_lt_compat.
have ic : (0 < / (cos th / nt))%coqR by apply: Rinv_0_lt_compat; apply: Rdiv_lt_0_compat.
rewrite /transfer_1d_4 ccos_real.
have -> : RtoC (cos th) / RtoC nt = RtoC (cos th / nt) by rewrite RtoC_div //; lra.
have cn0 : (cos th / nt)%coqR <> 0%coqR.
  by have := Rdiv_lt_0_compat _ _ c0 h1; lra.
rewrite -!RtoC_mul.
case: ifP => [/reqbP ->|_].
  case: (meeinv _ _ _) => [M|] //.
  set T1' := M *m _; case=> <- _ /=.
  set Rv := F *m T1' - _; set Tv := T *m T1'.
  exists (fun i => nrm2 (Rv i ord0) * / (nt * cos th))%coqR, (fun i => nrm2 (Tv i ord0) * / (nt * cos th))%coqR.
  split; [|split; [|split]].
  - by move=> i; apply: Rmult_le_pos; [apply: nrm2_ge0 | lra].
  - by move=> i; apply: Rmult_le_pos; [apply: nrm2_ge0 | lra].
  - by move=> i; rewrite de_form Re_divR ?RmulDAC //; lra.
  - left; do !split => //.
    by move=> i; rewrite de_form Re_divR ?RmulDAC //; lra.
case: ifP => [/reqbP ->|_] //.
case: (meeinv _ _ _) => [M|] //.
set T1' := M *m _; case=> <- _ /=.
set Rv := F *m T1' - _; set Tv := T *m T1'.
exists (fun i => nrm2 (Rv i ord0) * / (nt * cos th))%coqR, (fun i => nrm2 (Tv i ord0) * / (cos th / nt))%coqR.
split; [|split; [|split]].
- by move=> i; apply: Rmult_le_pos; [apply: nrm2_ge0 | lra].
- by move=> i; apply: Rmult_le_pos; [apply: nrm2_ge0 | lra].
- by move=> i; rewrite de_form Re_divR ?RmulDAC //; lra.
- right; do !split => //.
  by move=> i; rewrite de_form Re_divR ?RmulDAC //; lra.
Qed.

(** Shape of the efficiencies of a 2D / conical result. *)
Lemma eff_sp n RT (T : 'M[C]_(n + n)) kzt kzb (th nt : R) nb :
  (0 < nt)%coqR -> (0 <= th < PI / 2)%coqR ->
  let r := (extract_sp RT T kzt kzb (RtoC th) (RtoC nt) nb).1 in
  exists a b c d : 'I_n -> R,
  (forall i, [/\ (0 <= a i)%coqR, (0 <= b i)%coqR, (0 <= c i)%coqR & (0 <= d i)%coqR]) /\
  (forall i, [/\ de_ri_s r i = (a i * Re (kzt i))%coqR, de_ri_p r i = (b i * Re (kzt i))%coqR,
                 de_ti_s r i = (c i * Re (kzb i))%coqR & de_ti_p r i = (d i * Re (kzb i / nb ^+ 2)%R)%coqR]) /\
  (forall i, de_ri r i = (de_ri_s r i + de_ri_p r i)%coqR /\ de_ti r i = (de_ti_s r i + de_ti_p r i)%coqR).
Proof.
move=> h1 h2.
have c0 : (0 < cos th)%coqR by apply: cos_gt_0; lra.
have kc0 : (0 < nt * cos th)%coqR by apply: Rmult_lt_0_compat.
have ikc : (0 < / (nt * cos th))%coqR by apply: Rinv_0_lt_compat.
have n2 : (0 < nt * nt)%coqR by apply: Rmult_lt_0_compat.
have in2 : (0 < / (nt * nt))%coqR by apply: Rinv_0_lt_compat.
rewrite /extract_sp ccos_real expr2 -!RtoC_mul /=.
set Rs := usubmx (usubmx RT); set Rp := dsubmx (usubmx RT); set Ts := usubmx (T *m _); set Tp := dsubmx (T *m _).
exists (fun i => nrm2 (Rs i ord0) * / (nt * cos th))%coqR,
       (fun i => nrm2 (Rp i ord0) * (/ (nt * nt) * / (nt * cos th)))%coqR,
       (fun i => nrm2 (Ts i ord0) * / (nt * cos th))%coqR,
       (fun i => nrm2 (Tp i ord0) * / (nt * cos th))%coqR.
split; [|split => //].
- move=> i; split; apply: Rmult_le_pos; try exact: nrm2_ge0; try lra.
  by apply: Rmult_le_pos; lra.
- move=> i; split; rewrite de_form !Re_divR ?RmulDAC //; try lra.
Qed.

Lemma nonneg_1d pol n (F G T : 'M[C]_n) (kzt kzb : nat -> C) (th nt : R) nb r T1 :
  (0 < nt)%coqR -> (0 <= th < PI / 2)%coqR ->
  (forall i : 'I_n, 0 <= Re (kzt i))%coqR -> (forall i : 'I_n, 0 <= Re (kzb i))%coqR ->
  (pol = 1%coqR -> forall i : 'I_n, 0 <= Re (kzb i / nb ^+ 2)%R)%coqR ->
  transfer_1d_4 pinv up pol F G T kzt kzb (RtoC th) (RtoC nt) nb = Some (r, T1) ->
  nonneg_eff r.
Proof.
move=> h1 h2 p1 p2 p3 /(eff_1d h1 h2) [a [b [ha [hb [e1 []]]]]]
  [hp [e2 [e3 [e4 [e5 e6]]]]] i.
  by rewrite e2 e3 e4 e5 e6 e1; do !split; try lra; apply: Rmult_le_pos.
by rewrite e2 e3 e4 e5 e6 e1; do !split; try lra; apply: Rmult_le_pos => //; apply: p3.
Qed.

Lemma nonneg_sp n RT (T : 'M[C]_(n + n)) (kzt kzb : nat -> C) (th nt : R) nb :
  (0 < nt)%coqR -> (0 <= th < PI / 2)%coqR ->
  (forall i : 'I_n, 0 <= Re (kzt i))%coqR -> (forall i : 'I_n, 0 <= Re (kzb i))%coqR ->
  (forall i : 'I_n, 0 <= Re (kzb i / nb ^+ 2)%R)%coqR ->
  nonneg_eff (extract_sp RT T kzt kzb (RtoC th) (RtoC nt) nb).1.
Proof.
move=> h1 h2 p1 p2 p3; have [a [b [c [d [h [e e']]]]]] := eff_sp RT T kzt kzb nb h1 h2.
move=> i; have [ha hb hc hd] := h i; have [-> ->] := e' i; have [-> -> -> ->] := e i.
have := (Rmult_le_pos _ _ ha (p1 i), Rmult_le_pos _ _ hb (p1 i), Rmult_le_pos _ _ hc (p2 i), Rmult_le_pos _ _ hd (p3 i)).
by move=> [[[q1 q2] q3] q4]; do !split => //; apply: Rplus_le_le_0_compat.
Qed.

End Eff.

(** Totals of non-negative numbers bound each of them. *)
Lemma total_ge0 n (f : 'I_n -> R) : (forall i, 0 <= f i)%coqR -> (0 <= total f)%coqR.
Proof. move=> h; rewrite /total; elim/big_rec: _ => [|i x _ hx]; first exact: Rle_refl; by have := h i; lra. Qed.

Lemma total_ge n (f : 'I_n -> R) i : (forall i, 0 <= f i)%coqR -> (f i <= total f)%coqR.
Proof.
elim: n f i => [|n IH] f i h; first by case: i.
rewrite /total big_ord_recl; case: (unliftP ord0 i) => [j ->|->].
  by have := IH (fun j => f (lift ord0 j)) j (fun j => h _); rewrite /total; have := h ord0; lra.
have := total_ge0 (f := fun j => f (lift ord0 j)) (fun j => h _); rewrite /total.
set z := \big[_/_]_(j < n) _ => hz; have := h ord0; lra.
Qed.

Lemma unit_eff n (r : diffraction n) : power_conserved r -> nonneg_eff r -> eff_in_unit r.
Proof.
rewrite /power_conserved => e h i.
have h1 j : (0 <= de_ri r j)%coqR by have [[]] := h j.
have h2 j : (0 <= de_ti r j)%coqR by have [_ []] := h j.
have := (total_ge i h1, total_ge i h2, total_ge0 h1, total_ge0 h2, h1 i, h2 i).
by move=> [[[[[]]]]]; lra.
Qed.

Section EffSolve.
Variable pinv : forall n, 'M[C]_n -> 'M[C]_n.
Variable eig : forall n, 'M[C]_n -> 'rV[C]_n * 'M[C]_n.

Lemma Re_kz1_ge0 nn kx i : (0 <= Re (kz_1d nn kx i))%coqR.
Proof. exact: Re_csqrt_conj. Qed.
Lemma Re_kz2_ge0 nn kx ky i : (0 <= Re (kz_2d nn kx ky i))%coqR.
Proof. exact: Re_csqrt_conj. Qed.

Lemma Re_div_sq z (b : R) : b <> 0%coqR -> Re (z / RtoC b ^+ 2) = (Re z / (b * b))%coqR.
Proof. by move=> h; rewrite expr2 -RtoC_mul Re_divR //; nra. Qed.

Lemma Re_div_sq_ge0 z (b : R) : (0 < b)%coqR -> (0 <= Re z)%coqR -> (0 <= Re (z / RtoC b ^+ 2)%R)%coqR.
Proof.
move=> hb hz; rewrite Re_div_sq; last lra.
apply: Rmult_le_pos => //; apply: Rlt_le; apply: Rinv_0_lt_compat; exact: Rmult_lt_0_compat.
Qed.

Lemma rcwa_1d_inv up pol n kx k0 theta nt nb (ls : seq (layer n)) r T1 infos :
  rcwa_1d pinv eig up pol kx k0 theta nt nb ls = Some (r, T1, infos) ->
  exists F G T, transfer_1d_4 pinv up pol F G T (kz_1d nt kx) (kz_1d nb kx) theta nt nb = Some (r, T1).
Proof.
rewrite /rcwa_1d /transfer_1d_1; case: ifP => [/reqbP ->|_].
  case: (stack_with _ _ _) => [[[[F G] T] is']|] //.
  case e: (transfer_1d_4 _ _ _ _ _ _ _ _ _ _ _) => [[r' t']|] // [<- <- _]; by exists F, G, T.
case: ifP => [/reqbP ->|_] //.
case: (stack_with _ _ _) => [[[[F G] T] is']|] //.
case e: (transfer_1d_4 _ _ _ _ _ _ _ _ _ _ _) => [[r' t']|] // [<- <- _]; by exists F, G, T.
Qed.

(** Every 2D / conical result is three extractions. *)
Definition extracted n (r : diffraction n) kzt kzb th nt nb : Prop :=
  exists RT T, r = (extract_sp RT T kzt kzb th nt nb).1.

Lemma sp4_inv up n (F G T : 'M[C]_(n + n)) kt kb psi th nt nb r :
  transfer_sp_4 pinv up F G T kt kb psi th nt nb = Some r ->
  [/\ extracted (res r) kt kb th nt nb, extracted (res_te_inc r) kt kb th nt nb
    & extracted (res_tm_inc r) kt kb th nt nb].
Proof.
rewrite /transfer_sp_4; case: (meeinv _ _ _) => [Ai|] // [<-] /=.
by split; rewrite /extracted; eexists; eexists; reflexivity.
Qed.

Lemma rcwa_2d_inv up n kxt kyt k0 psi th nt nb (ls : seq (layer n)) r infos :
  rcwa_2d pinv eig up kxt kyt k0 psi th nt nb ls = Some (r, infos) ->
  let kt := kz_2d nt kxt kyt in let kb := kz_2d nb kxt kyt in
  [/\ extracted (res r) kt kb th nt nb, extracted (res_te_inc r) kt kb th nt nb
    & extracted (res_tm_inc r) kt kb th nt nb].
Proof.
rewrite /rcwa_2d /transfer_sp_1; case: ifP => // _.
case: (stack_with _ _ _) => [[[[F G] T] is']|] //.
by case h4: (transfer_sp_4 _ _ _ _ _ _ _ _ _ _ _) => [r4|] // [<- _]; apply: sp4_inv h4.
Qed.

Lemma rcwa_conical_inv up n kxt kyt k0 psi th nt nb (ls : seq (layer n)) r infos :
  rcwa_conical pinv eig up kxt kyt k0 psi th nt nb ls = Some (r, infos) ->
  let kt := kz_2d nt kxt kyt in let kb := kz_2d nb kxt kyt in
  [/\ extracted (res r) kt kb th nt nb, extracted (res_te_inc r) kt kb th nt nb
    & extracted (res_tm_inc r) kt kb th nt nb].
Proof.
rewrite /rcwa_conical /transfer_sp_1; case: ifP => // _.
case: (stack_with _ _ _) => [[[[F G] T] is']|] //.
by case h4: (transfer_sp_4 _ _ _ _ _ _ _ _ _ _ _) => [r4|] // [<- _]; apply: sp4_inv h4.
Qed.

(** Non-negativity and evanescence for any extraction. *)
Lemma extracted_facts n (r : diffraction n) kxt kyt (th nt b : R) :
  (0 < nt)%coqR -> (0 <= th < PI / 2)%coqR -> (0 < b)%coqR ->
  extracted r (kz_2d (RtoC nt) kxt kyt) (kz_2d (RtoC b) kxt kyt) (RtoC th) (RtoC nt) (RtoC b) ->
  nonneg_eff r /\
  (forall (i : 'I_n) (x y : R), kxt i = RtoC x -> kyt i = RtoC y ->
     (nt * nt < x * x + y * y)%coqR -> no_reflected_power r i) /\
  (forall (i : 'I_n) (x y : R), kxt i = RtoC x -> kyt i = RtoC y ->
     (b * b < x * x + y * y)%coqR -> no_transmitted_power r i).
Proof.
move=> h1 h2 h3 [RT [T ->]]; split.
  apply: nonneg_sp => // i; try exact: Re_kz2_ge0.
  by apply: Re_div_sq_ge0 => //; apply: Re_kz2_ge0.
have [a [b' [c [d [h [e e']]]]]] := eff_sp RT T (kz_2d (RtoC nt) kxt kyt) (kz_2d (RtoC b) kxt kyt) (RtoC b) h1 h2.
have kz0 m (i : 'I_n) (x y : R) : kxt i = RtoC x -> kyt i = RtoC y -> (m * m < x * x + y * y)%coqR ->
   Re (kz_2d (RtoC m) kxt kyt i) = 0%coqR.
  move=> e1 e2 lt; rewrite /kz_2d e1 e2 !expr2 -!RtoC_mul -!RtoC_sub; apply: evan_zero; lra.
split=> i x y e1 e2 lt; have k0 := kz0 _ _ _ _ e1 e2 lt; have [E1 E2] := e' i; have [E3 E4 E5 E6] := e i.
  by split; rewrite ?E1 ?E3 ?E4 k0; ring.
by split; rewrite ?E2 ?E5 ?E6 ?Re_div_sq ?k0 /Rdiv; try lra.
Qed.

Lemma c03_1d up s w (convs : seq (conv3 (ff_x s))) (nt th b : R) r T1 infos :
  n_top s = RtoC nt -> (0 < nt)%coqR -> theta s = RtoC th -> (0 <= th < PI / 2)%coqR -> phi s = None ->
  n_bot s = RtoC b -> (0 < b)%coqR ->
  solve_1d pinv eig up s w convs = Some (r, T1, infos) ->
  nonneg_eff r /\
  (forall i : 'I_(ff_x s),
     (nt < Rabs (tangential nt th 1 w (period_x s) (INR i - INR (fto_x s))))%coqR -> no_reflected_power r i) /\
  (forall i : 'I_(ff_x s),
     (b < Rabs (tangential nt th 1 w (period_x s) (INR i - INR (fto_x s))))%coqR -> no_transmitted_power r i).
Proof.
move=> h1 h0 h3 h2 hphi hb b0; rewrite /solve_1d; case e: (layers_of _ _) => [ls|] //.
have hp : phi_val s = RtoC 0 by rewrite /phi_val hphi.
have [kxE _] := kx_phys w h1 h3 h2 hp.
rewrite h1 h3 hb => /rcwa_1d_inv [F [G [T e4]]].
have kzb2 i : (0 <= Re (kz_1d (RtoC b) (kx_vector s w) i / RtoC b ^+ 2)%R)%coqR.
  by apply: Re_div_sq_ge0 => //; apply: Re_kz1_ge0.
split; first by apply: (nonneg_1d h0 h2 _ _ _ e4) => // i; apply: Re_kz1_ge0.
have kz0 m (i : 'I_(ff_x s)) : (0 < m)%coqR ->
    (m < Rabs (tangential nt th 1 w (period_x s) (INR i - INR (fto_x s))))%coqR ->
    Re (kz_1d (RtoC m) (kx_vector s w) i) = 0%coqR.
  move=> m0 lt; rewrite /kz_1d kxE cos_0 -/(tangential _ _ _ _ _ _) !expr2 -!RtoC_mul -RtoC_sub.
  apply: evan_zero; rewrite /order.
  set x := tangential _ _ _ _ _ _ in lt *.
  have -> : (x * x = Rabs x * Rabs x)%coqR by rewrite -[LHS]/(Rsqr x) -[RHS]/(Rsqr (Rabs x)) -Rsqr_abs.
  by have := Rmult_le_0_lt_compat _ _ _ _ (Rlt_le _ _ m0) (Rlt_le _ _ m0) lt lt; lra.
have [a [b' [ha [hb' [e1 []]]]]] := eff_1d h0 h2 e4.
  move=> [_ [e2 [e3 [e5 [e6 e7]]]]]; split=> i lt; have z := kz0 _ _ _ lt.
    by split; rewrite ?e2 ?e5 // e1 z //; ring.
  by split; rewrite ?e3 ?e6 // e7 z //; ring.
move=> [_ [e2 [e3 [e5 [e6 e7]]]]]; split=> i lt; have z := kz0 _ _ _ lt.
  by split; rewrite ?e2 ?e5 // e1 z //; ring.
by split; rewrite ?e3 ?e6 // e7 Re_div_sq ?z /Rdiv //; lra.
Qed.

Lemma c03_sp s w (nt th f b : R) (r : sp_result (ff_y s * ff_x s)) :
  n_top s = RtoC nt -> (0 < nt)%coqR -> theta s = RtoC th -> (0 <= th < PI / 2)%coqR -> phi_val s = RtoC f ->
  n_bot s = RtoC b -> (0 < b)%coqR ->
  (let kt := kz_2d (n_top s) (kx_tiled s w) (ky_tiled s w) in let kb := kz_2d (n_bot s) (kx_tiled s w) (ky_tiled s w) in
  [/\ extracted (res r) kt kb (theta s) (n_top s) (n_bot s), extracted (res_te_inc r) kt kb (theta s) (n_top s) (n_bot s)
    & extracted (res_tm_inc r) kt kb (theta s) (n_top s) (n_bot s)]) ->
  facts3 (fun d => nonneg_eff d /\
    forall i : 'I_(ff_y s * ff_x s),
      let x := tangential nt th (cos f) w (period_x s) (INR (i %% ff_x s) - INR (fto_x s)) in
      let y := tangential nt th (sin f) w (period_y s) (INR (i %/ ff_x s) - INR (fto_y s)) in
      ((nt * nt < x * x + y * y)%coqR -> no_reflected_power d i) /\
      ((b * b < x * x + y * y)%coqR -> no_transmitted_power d i)) r.
Proof.
move=> h1 h0 h3 h2 hf hb b0; have [kxE kyE] := kx_phys w h1 h3 h2 hf.
rewrite h1 h3 hb; move=> [E1 E2 E3].
have go (d : diffraction (ff_y s * ff_x s)) : extracted d (kz_2d (RtoC nt) (kx_tiled s w) (ky_tiled s w))
   (kz_2d (RtoC b) (kx_tiled s w) (ky_tiled s w)) (RtoC th) (RtoC nt) (RtoC b) -> nonneg_eff d /\
    forall i : 'I_(ff_y s * ff_x s),
      let x := tangential nt th (cos f) w (period_x s) (INR (i %% ff_x s) - INR (fto_x s)) in
      let y := tangential nt th (sin f) w (period_y s) (INR (i %/ ff_x s) - INR (fto_y s)) in
      ((nt * nt < x * x + y * y)%coqR -> no_reflected_power d i) /\
      ((b * b < x * x + y * y)%coqR -> no_transmitted_power d i).
  move=> /(extracted_facts h0 h2 b0) [H1 [H2 H3]]; split => // i x y.
  have ex : kx_tiled s w i = RtoC x by rewrite /kx_tiled /tile_x kxE.
  have ey : ky_tiled s w i = RtoC y by rewrite /ky_tiled /tile_y kyE.
  by split; [apply: H2 ex ey | apply: H3 ex ey].
by split; apply: go.
Qed.

End EffSolve.
