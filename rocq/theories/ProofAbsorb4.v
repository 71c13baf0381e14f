(** Solver-level well-posedness of stacks with absorbing layers: conical mount and 2D gratings. *)
From Coq Require Import Reals Lra Psatz.
From mathcomp Require Import all_ssreflect ssralg matrix mxalgebra.
From Coquelicot Require Import Complex.
From Verif Require Import Cplx Mx Spec ModelTM SpecSolve SpecField SpecVec SpecPassive SpecAbsorb ProofFlux ProofEnergy1D ProofEnergy2D
  ProofFilm ProofStack ProofCompose ProofSetup ProofWell ProofWellSolve ProofField ProofBVP ProofBVP2 ProofPassive
  ProofAbsorb ProofAbsorb2 ProofAbsorb3.

Set Implicit Arguments.
Unset Strict Implicit.
Unset Printing Implicit Defensive.
Local Open Scope ring_scope.
Import GRing.Theory.

Lemma modal_unit_q m (P Q W : 'M[C]_m) (lam : 'rV[C]_m) : P \in unitmx -> Q \in unitmx -> W \in unitmx ->
  P *m Q *m W = W *m diag_mx lam -> diag_mx (sqrtv lam) \in unitmx.
Proof.
move=> uP uQ uW e.
have : W *m diag_mx lam \in unitmx by rewrite -e !unitmx_mul uP uQ uW.
case/unitmx_split => _; rewrite -sqrtv_sqr; case/unitmx_split => //.
Qed.

Section Sp.
Variable pinv : forall n, 'M[C]_n -> 'M[C]_n.
Variable eig : forall n, 'M[C]_n -> 'rV[C]_n * 'M[C]_n.
Hypothesis heig : eig_ok eig.
Variable n : nat.
Variables (kx ky : nat -> C).
Hypothesis rkx : real_vec n kx.
Hypothesis rky : real_vec n ky.

Lemma pw_rot c s (u v : 'cV[C]_(n + n)) : rot_ok n c s -> pw (- Ssp n) (RotE n c s *m u) (RotH n c s *m v) = pw (- Jxy n) u v.
Proof. by move=> hcs; rewrite /pw adjM !mulmxN !mulNmx -(rot_J hcs) !mulmxA. Qed.

Lemma eats_rot c s (W V X : 'M[C]_(n + n)) : rot_ok n c s -> eats (- Jxy n) W V X ->
  eats (- Ssp n) (RotE n c s *m W) (RotH n c s *m V) X.
Proof.
move=> hcs [uW uV hp hd].
have uRE : RotE n c s \in unitmx by have [] := mulmx1_unit (rot_E_K hcs).
have uRH : RotH n c s \in unitmx.
  by have := unit_J n; rewrite -(rot_J hcs) => /unitmx_split[].
split; rewrite ?unitmx_mul ?uRE ?uRH //.
- by move=> b b0; rewrite -!mulmxA pw_rot //; exact: hp.
- by move=> a b hab; rewrite -!mulmxA !pw_rot //; exact: hd.
Qed.

Lemma eats_sp (cc : conv3 n) d k0 W V q : (0 < k0)%coqR -> (0 < d)%coqR -> absorbing_convs cc ->
  diagonalised (medium_sp kx ky cc d) W V q -> W \in unitmx -> (forall j, (0 <= Re (q ord0 j))%coqR) ->
  eats (- Jxy n) W V (Xmat k0 q d).
Proof.
move=> hk hd hc [eP eQ] uW hq; have ha := absorber_sp d hk rkx rky hc.
have [uV _] := mode_units ha eQ uW.
split=> //.
- by move=> b b0; exact: (down_power hk ha eP eQ uW hq b0).
- by move=> a b hab; exact: (layer_drop hk ha eP eQ uW hd hab).
Qed.

Lemma units_sp (cc : conv3 n) : absorbing_convs cc -> e_from_h kx ky cc \in unitmx /\ h_from_e kx ky cc \in unitmx.
Proof. by move=> hc; have [] := absorber_sp 1 Rlt_0_1 rkx rky hc. Qed.

Lemma eat_2d c s (l : layer n) k0 : (0 < k0)%coqR -> (0 < thick l)%coqR -> rot_ok n c s ->
  dark_2d eig kx ky (epx l, epy l, epzi l) -> eating (- Ssp n) (modes_2d pinv eig kx ky c s k0 l).
Proof.
move=> hk hd hcs [hc hb].
have [uP uQ] := units_sp hc.
have [W [V [q [e uW hq]]]] : exists W V q, [/\ transfer_2d_2 pinv eig false kx ky (epx l) (epy l) (epzi l) = Some (W, V, q),
    W \in unitmx & forall j, (0 <= Re (q ord0 j))%coqR].
  move: hb; rewrite /basis maxwell_E => hb; rewrite /transfer_2d_2 -/(Om2 kx ky l).
  have := heig (Om2 kx ky l); move: hb; case: (eig _) => lam U /= uU; rewrite -maxwell_E => eU.
  have uD := modal_unit_q uP uQ uU eU; rewrite meeinv_unit //.
  by do 3 eexists; split; [reflexivity|exact: uU|move=> j; exact: sqrtv_Re].
have hdg := diagonal_2d heig e.
exists (RotE n c s *m W), (RotH n c s *m V), (Xmat k0 q (thick l)).
rewrite /modes_2d e big_2d_rot /= Xmat_row; split=> //.
by apply: eats_rot => //; exact: (eats_sp hk hd hc hdg uW hq).
Qed.

Lemma eat_conical ky0 c s (l : layer n) k0 : (0 < k0)%coqR -> (0 < thick l)%coqR -> rot_ok n c s ->
  (forall i, (i < n)%N -> ky i = ky0) ->
  dark_conical eig kx ky (epx l, epy l, epzi l) -> eating (- Ssp n) (modes_conical pinv eig kx ky c s k0 l).
Proof.
move=> hk hd hcs hky [hc hline /= hb1 hb2].
have hEE : y_uniform l := hline.
have uB : diagf n kx *m epzi l *m diagf n kx - 1%:M \in unitmx by apply: TM_B_unit => // v v0; have [] := hc v v0.
have uA : diagf n kx *m diagf n kx - epy l \in unitmx.
  have [_ uQ _ _] := absorber_1d false 1 Rlt_0_1 rkx hc.
  by rewrite /medium_1d /m_Q te_operatorE in uQ.
have [W [V [q [e uW hq]]]] : exists W V q, [/\ transfer_1d_conical_2 pinv eig false kx ky (epx l) (epy l) (epzi l) = Some (W, V, q),
    block_mx 0 (rsubmx W) (ulsubmx V) (ursubmx V) \in unitmx & forall j, (0 <= Re (q ord0 j))%coqR].
  rewrite /basis !dkE in hb1 hb2; rewrite tkE in hb2.
  rewrite /transfer_1d_conical_2.
  have uE1 : diagf n ky *m diagf n ky + (diagf n kx *m diagf n kx - epy l) \in unitmx.
    apply: unit_inj => v ev; apply: (absorbing_inj hc); right; left.
    have sq (k : nat -> C) : real_vec n k -> Im (dot v (diagf n k *m diagf n k *m v)) = 0%coqR.
      move=> rk; rewrite -dotE -mulmxA -{1}(herm_diag rk) mulmxA -adjM dotE; exact: Im_dot_self.
    have := congr1 (fun x => Im (dot v x)) ev; rewrite mulmxDl mulmxBl !dotDr dotNr dot0r !ImD ImN !sq // -quadE /Im /=; lra.
  have := heig (diagf n ky *m diagf n ky + (diagf n kx *m diagf n kx - epy l)); move: hb1; case: (eig _) => l1 W1 /= uW1 h1.
  move: hb2; case: (eig _) => l2 W2 /= uW2.
  rewrite !meeinv_unit //.
  do 3 eexists; split; [reflexivity| |].
    rewrite row_mxKr block_mxKul block_mxKur; apply: block_unit => //.
    rewrite !unitmx_mul unitmx_inv uA uW1 /=.
    have : W1 *m diag_mx l1 \in unitmx by rewrite -h1 unitmx_mul uE1.
    by case/unitmx_split => _; rewrite -sqrtv_sqr; case/unitmx_split.
  by move=> j; rewrite mxE; case: splitP => i _; exact: sqrtv_Re.
have hdg := diagonal_conical heig hky hEE e.
eexists; eexists; exists (Xmat k0 q (thick l)).
rewrite /modes_conical e conical_rot /= Xmat_row; split=> //.
by apply: eats_rot => //; exact: (eats_sp hk hd hc hdg uW hq).
Qed.

Lemma fine_sp (modes : layer n -> option ('M[C]_(n + n) * 'M[C]_(n + n) * 'M[C]_(n + n))) (nt nb : R) ls :
  (0 < nt)%coqR -> (0 < nb)%coqR ->
  (forall l, List.In l ls -> fine (- Ssp n) (modes l)) ->
  (forall i, (i < n)%N -> (0 < Re (kz_2d (RtoC nt) kx ky i))%coqR) \/ (exists2 l, List.In l ls & eating (- Ssp n) (modes l)) ->
  exists F G T, gstack pinv (map modes ls)
     (block_mx (1%:M : 'M[C]_n) 0 0 ((ci / RtoC nb ^+ 2) *: diagf n (kz_2d (RtoC nb) kx ky)),
      block_mx (ci *: diagf n (kz_2d (RtoC nb) kx ky)) 0 0 (1%:M : 'M[C]_n), 1%:M) = Some (F, G, T) /\
     final_A F G (kz_2d (RtoC nt) kx ky) (RtoC nt) \in unitmx.
Proof.
move=> hnt hnb hl htop.
have hm l : List.In l (map modes ls) -> fine (- Ssp n) l.
  by move=> /List.in_map_iff [x [<- hx]]; exact: hl.
have hb nn i : (i < n)%N -> (0 <= Re (kz_2d (RtoC nn) kx ky i))%coqR.
  by move=> _; rewrite /kz_2d Re_conj; exact: csqrt_Re_ge0.
have [F [G [T [e ok st]]]] := fine_gstack (adj_S n) pinv 1%:M hm (start_sp_ok hnb (hb nb)).
exists F, G, T; split=> //; case: htop => [hkz|[l hi h]]; first exact: final_sp_unit hnt ok hkz.
apply: final_sp_strict hnt (st _) (hb nt).
by exists (modes l) => //; exact: (List.in_map _ _ _ hi).
Qed.
End Sp.

Lemma oblique_ok n kx ky : oblique_orders n kx ky -> varphi_ok n kx ky.
Proof. by move=> h; apply/forallP => i; case: (h i) => /eqP ->; rewrite ?orbT. Qed.

Section TopSp.
Variable pinv : forall n, 'M[C]_n -> 'M[C]_n.
Variable eig : forall n, 'M[C]_n -> 'rV[C]_n * 'M[C]_n.
Hypothesis heig : eigen_oracle eig.

Lemma absorb_solve_2d s w (convs : seq (conv3 (ff_y s * ff_x s))) (nt nb : R) :
  physical s -> n_top s = RtoC nt -> n_bot s = RtoC nb -> (0 < nb)%coqR ->
  (0 < w)%coqR -> (forall t, List.In t (thickness s) -> (0 < t)%coqR) -> (size (thickness s) <= size convs)%N ->
  oblique_orders (ff_y s * ff_x s) (kx_tiled s w) (ky_tiled s w) ->
  (forall c, List.In c (used s convs) ->
     clear_2d eig (kx_tiled s w) (ky_tiled s w) c \/ dark_2d eig (kx_tiled s w) (ky_tiled s w) c) ->
  all_orders_propagate2 (ff_y s * ff_x s) nt (kx_tiled s w) (ky_tiled s w) \/
    (exists2 c, List.In c (used s convs) & dark_2d eig (kx_tiled s w) (ky_tiled s w) c) ->
  exists r infos, solve_2d pinv eig false s w convs = Some (r, infos).
Proof.
move=> [[nt' h0 h1] [th h2 h3] hp _ _] ent enb hnb hw hts hsz hob hl htop; rewrite /solve_2d.
have {}h0 : (0 < nt)%coqR by move: h0; rewrite ent in h1; case: h1 => ->.
have [f hf] := phi_real hp; have [rx ry _] := tiled_phys w ent h3 h2 hf.
have hv := oblique_ok hob; have hk := k0_pos hw; have heig' := eigen_eig_ok heig.
have [ls e] := layers_of_some hsz; rewrite e ent enb.
set kx := kx_tiled s w in rx hob hl htop hv *; set ky := ky_tiled s w in ry hob hl htop hv *.
have hcs := varphi_rot rx ry.
set c := fun i => cos_varphi (kx i) (ky i) in hcs; set sn := fun i => sin_varphi (kx i) (ky i) in hcs.
have dark l : List.In l ls -> dark_2d eig kx ky (epx l, epy l, epzi l) -> eating (- Ssp _) (modes_2d pinv eig kx ky c sn (k0_of w) l).
  by move=> hi hd; apply: (eat_2d pinv heig' rx ry hk _ hcs hd); apply: hts; exact: (layers_of_thick e hi).
set m := rcwa_2d _ _ _ _ _ _ _ _ _ _ _.
suff : exists r, reported_sp m = Some r.
  by case: m => [[r is']|] /= [] // r' _; exists r, is'.
rewrite /m reported_rcwa_2d /transfer_sp_1 hv.
have [||F [G [T [-> uF]]]] := @fine_sp pinv _ kx ky (modes_2d pinv eig kx ky c sn (k0_of w)) nt nb ls h0 hnb.
- move=> l hi; case: (hl _ (layers_of_in e hi)) => [[[hx hy hz] [u1 /positive_definiteE p1 m1]]|hd]; last by right; exact: dark.
  left; rewrite e_from_hE in u1; rewrite e_from_hE in p1; rewrite maxwell_E in m1.
  have hll : lossless l by split; apply: hermitian_herm.
  exact: (good_2d pinv heig' rx ry hcs hll u1 p1 m1).
- case: htop => [/all2_ok [_ hkz]|[cc hc hd]]; first by left.
  by right; have [l hi ec] := layers_of_conv e hc; exists l => //; apply: dark => //; rewrite ec.
by rewrite /= /fin_sp /transfer_sp_4 meeinv_unit //=; eexists.
Qed.

Lemma absorb_solve_conical s w (convs : seq (conv3 (ff_y s * ff_x s))) (nt nb : R) :
  physical s -> fto_y s = 0%N -> n_top s = RtoC nt -> n_bot s = RtoC nb -> (0 < nb)%coqR ->
  (0 < w)%coqR -> (forall t, List.In t (thickness s) -> (0 < t)%coqR) -> (size (thickness s) <= size convs)%N ->
  oblique_orders (ff_y s * ff_x s) (kx_tiled s w) (ky_tiled s w) ->
  (forall c, List.In c (used s convs) ->
     clear_conical eig (kx_tiled s w) (ky_tiled s w) c \/ dark_conical eig (kx_tiled s w) (ky_tiled s w) c) ->
  all_orders_propagate2 (ff_y s * ff_x s) nt (kx_tiled s w) (ky_tiled s w) \/
    (exists2 c, List.In c (used s convs) & dark_conical eig (kx_tiled s w) (ky_tiled s w) c) ->
  exists r infos, solve_1d_conical pinv eig false s w convs = Some (r, infos).
Proof.
move=> [[nt' h0 h1] [th h2 h3] hp _ _] hfy ent enb hnb hw hts hsz hob hl htop; rewrite /solve_1d_conical hfy eqxx.
have {}h0 : (0 < nt)%coqR by move: h0; rewrite ent in h1; case: h1 => ->.
have [f hf] := phi_real hp; have [rx ry _] := tiled_phys w ent h3 h2 hf.
have hv := oblique_ok hob; have hk := k0_pos hw; have heig' := eigen_eig_ok heig.
have [ls e] := layers_of_some hsz; rewrite e ent enb.
have hky i : (i < ff_y s * ff_x s)%N -> ky_tiled s w i = ky_vector s w 0%N.
  by rewrite /ky_tiled /tile_y {1}/ff_y hfy mul1n => lt; rewrite divn_small.
set kx := kx_tiled s w in rx hob hl htop hv hky *; set ky := ky_tiled s w in ry hob hl htop hv hky *.
have hcs := varphi_rot rx ry.
set c := fun i => cos_varphi (kx i) (ky i) in hcs; set sn := fun i => sin_varphi (kx i) (ky i) in hcs.
have dark l : List.In l ls -> dark_conical eig kx ky (epx l, epy l, epzi l) -> eating (- Ssp _) (modes_conical pinv eig kx ky c sn (k0_of w) l).
  by move=> hi hd; apply: (eat_conical pinv heig' rx ry hk _ hcs hky hd); apply: hts; exact: (layers_of_thick e hi).
set m := rcwa_conical _ _ _ _ _ _ _ _ _ _ _.
suff : exists r, reported_sp m = Some r.
  by case: m => [[r is']|] /= [] // r' _; exists r, is'.
rewrite /m reported_rcwa_conical /transfer_sp_1 hv.
have [||F [G [T [-> uF]]]] := @fine_sp pinv _ kx ky (modes_conical pinv eig kx ky c sn (k0_of w)) nt nb ls h0 hnb.
- move=> l hi; case: (hl _ (layers_of_in e hi)) => [[[hx hy hz] hline [u1 /positive_definiteE p1 [u2 u3] m1 m2]]|hd]; last by right; exact: dark.
  left; rewrite ?e_from_hE !tkE !dkE in u1 p1 u2 u3 m1 m2.
  have hll : lossless l by split; apply: hermitian_herm.
  exact: (good_conical pinv heig' rx ry hcs hll hline hky u2 u3 u1 p1 m1 m2).
- case: htop => [/all2_ok [_ hkz]|[cc hc hd]]; first by left.
  by right; have [l hi ec] := layers_of_conv e hc; exists l => //; apply: dark => //; rewrite ec.
by rewrite /= /fin_sp /transfer_sp_4 meeinv_unit //=; eexists.
Qed.
End TopSp.
