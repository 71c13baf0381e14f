(** The PyTorch solver on its own: superposition, absorbing substrates, counterexamples. *)
From Coq Require Import Reals Lra Psatz FunctionalExtensionality.
From mathcomp Require Import all_ssreflect ssralg matrix mxalgebra.
From Coquelicot Require Import Complex.
From Verif Require Import Cplx Mx Spec ModelTM ModelTorch SpecSolve SpecTorch ProofFlux ProofEnergy1D ProofEnergy2D ProofSetup
  ProofEff ProofFilm ProofPinv ProofFilmSolve ProofSubstrate ProofNormal
  ProofStack ProofCompose ProofWell ProofWellSolve ExampleKit ProofTorch.

Set Implicit Arguments.
Unset Strict Implicit.
Unset Printing Implicit Defensive.
Local Open Scope ring_scope.
Import GRing.Theory.

Section Super.
Variable pinv : forall n, 'M[C]_n -> 'M[C]_n.
Variable eig : forall n, 'M[C]_n -> 'rV[C]_n * 'M[C]_n.
Variable up : bool.

Lemma t_final_B_lin n psi theta nt : t_final_B n psi theta nt =
  csin psi *: t_final_B n (RtoC (PI / 2)) theta nt + ccos psi *: t_final_B n (RtoC 0) theta nt.
Proof. by rewrite t_final_B_te t_final_B_tm t_final_BE scalerN. Qed.

Lemma lin_R (a b : R) (f x y p : C) :
  conj (f * (RtoC a * x + RtoC b * y)) * p = RtoC a * (conj (f * x) * p) + RtoC b * (conj (f * y) * p).
Proof.
by rewrite !conjM !conjD !conjM !conjR; cring.
Qed.

Lemma t_extract_super n fx kx (X Y : 'cV[C]_((n + n) + (n + n))) T kt kb th nt nb (a b : R) :
  torch_superposed (fun i => side (kx (i %% fx)%N) (kx (fx %/ 2)%N)) (RtoC a) (RtoC b)
    (t_extract fx kx (RtoC a *: X + RtoC b *: Y) T kt kb th nt nb).1
    (t_extract_inc fx kx X T kt kb th nt nb).1 (t_extract_inc fx kx Y T kt kb th nt nb).1.
Proof.
move=> i; rewrite /t_extract /t_extract_inc /t_efficiencies /=; split.
- by rewrite !mxE lin_R.
- by rewrite !mxE lin_R !mulNr !conjN !mulNr !mulrN -opprD opprK.
- rewrite linearD !linearZ /= mulmxDr -!scalemxAr linearD !linearZ [LHS]mxE phase_side mul1r mulrC.
  by rewrite [X in conj X]mxE [X in conj (X + _)]mxE [X in conj (_ + X)]mxE.
- rewrite linearD !linearZ /= mulmxDr -!scalemxAr linearD !linearZ [LHS]mxE phase_side mulrC.
  rewrite [X in conj (_ * X)]mxE [X in conj (_ * (X + _))]mxE [X in conj (_ * (_ + X))]mxE.
  rewrite [in RHS]mxE [X in _ = _ * conj (_ + _ * X)]mxE.
  set x := dsubmx _ _ _; set y := dsubmx _ _ _; set s := side _ _.
  rewrite mulNr -mulrN -conjN; congr (_ * conj _); cring.
Qed.

Lemma t_super_4 n fx kx (F G T : 'M[C]_(n + n)) kt kb (p : R) th nt nb :
  let r := t_transfer_sp_4 pinv up fx kx F G T kt kb (RtoC p) th nt nb in
  torch_superposed (fun i => side (kx (i %% fx)%N) (kx (fx %/ 2)%N)) (RtoC (sin p)) (RtoC (cos p))
    (res r) (res_te_inc r) (res_tm_inc r).
Proof.
rewrite /t_transfer_sp_4; set M := t_inv _ _ _.
have h := t_extract_super fx kx (M *m t_final_B n (RtoC (PI / 2)) th nt) (M *m t_final_B n (RtoC 0) th nt) T kt kb th nt nb
  (sin p) (cos p).
rewrite !scalemxAr -mulmxDr -csin_real -ccos_real -t_final_B_lin in h.
rewrite -csin_real -ccos_real.
move: h; case: (t_extract _ _ _ _ _ _ _ _) => r0 t0.
by case: (t_extract_inc _ _ _ _ _ _ _ _) => r1 t1; case: (t_extract_inc _ _ _ _ _ _ _ _) => r2 t2.
Qed.

Lemma t_super_2d s w (convs : seq (conv3 (ff_y s * ff_x s))) (p : R) r infos : physical s -> psi s = RtoC p ->
  t_solve_2d pinv eig up s w convs = Some (r, infos) ->
  torch_superposed (fun i => side (kx_vector s w (i %% ff_x s)%N) (kx_vector s w (fto_x s))) (RtoC (sin p)) (RtoC (cos p))
    (res r) (res_te_inc r) (res_tm_inc r).
Proof.
move=> ph hp; rewrite /t_solve_2d; have [-> _ _ _] := phys_real w ph.
case: (layers_of _ _) => [ls|] //; rewrite /t_rcwa_2d hp.
case: (t_transfer_sp_1 _ _ _ _ _) => [[[[[[[kt kb] c] s'] F] G] T]|] //.
case: (stack_with _ _ _) => [[[[F' G'] T'] is']|] // [<- _].
have := t_super_4 (ff_x s) (kx_vector s w) F' G' T' kt kb p (theta s) (n_top s) (n_bot s).
by rewrite {1 2 3}/ff_x half_ff; exact.
Qed.

Lemma t_super_conical s w (convs : seq (conv3 (ff_y s * ff_x s))) (p : R) r infos : physical s -> psi s = RtoC p ->
  t_solve_1d_conical pinv eig up s w convs = Some (r, infos) ->
  torch_superposed (fun i => side (kx_vector s w (i %% ff_x s)%N) (kx_vector s w (fto_x s))) (RtoC (sin p)) (RtoC (cos p))
    (res r) (res_te_inc r) (res_tm_inc r).
Proof.
move=> ph hp; rewrite /t_solve_1d_conical; have [-> _ _ _] := phys_real w ph.
case: ifP => // _; case: (layers_of _ _) => [ls|] //; rewrite /t_rcwa_conical hp.
case: (t_transfer_sp_1 _ _ _ _ _) => [[[[[[[kt kb] c] s'] F] G] T]|] //.
case: (stack_with _ _ _) => [[[[F' G'] T'] is']|] // [<- _].
have := t_super_4 (ff_x s) (kx_vector s w) F' G' T' kt kb p (theta s) (n_top s) (n_bot s).
by rewrite {1 2 3}/ff_x half_ff; exact.
Qed.
End Super.

(** ** Wave numbers in a passive medium *)
Lemma csqrt_lower z : (Im z < 0)%coqR -> (Im (csqrt z) <= 0)%coqR.
Proof.
move=> hz; rewrite /csqrt; case: Rlt_dec => h; last by case: h.
rewrite /Im /=; by have := sqrt_pos ((sqrt (nrm2 z) - Re z) / 2); lra.
Qed.
Lemma csqrt_upper z : (0 <= Im z)%coqR -> (0 <= Im (csqrt z))%coqR.
Proof.
move=> hz; rewrite /csqrt; case: Rlt_dec => h; first by case: (Rlt_not_le _ _ h hz).
by rewrite /Im /=; apply: sqrt_pos.
Qed.

Lemma Re_mi c : Re (- ci * c) = Im c.
Proof. by case: c => a b; cunf; ring. Qed.
Lemma Im_mi c : Im (- ci * c) = (- Re c)%coqR.
Proof. by case: c => a b; cunf; ring. Qed.

Lemma t_kz_passive nb (x : R) kx i : passive_index nb -> kx i = RtoC x ->
  let z := t_kz_1d nb kx i in
  [/\ z * z = nb ^+ 2 - RtoC (x * x), (0 <= Re z)%coqR & (Im z <= 0)%coqR].
Proof.
move=> [h1 h2] e; rewrite /t_kz_1d e Cmod_real expr2 -RtoC_mul; case: Rlt_dec => h.
  set u := RtoC (x * x) - nb ^+ 2.
  have e1 := csqrt_sqr u; have e2 := csqrt_Re_ge0 u.
  have e3 : (0 <= Im (csqrt u))%coqR.
    by apply: csqrt_upper; rewrite /u expr2 -[_ - _]/(_ + - _) ImD ImN ImM Im_RtoC; nra.
  move: e1 e2 e3; set c := csqrt u => e1 e2 e3; split.
  - by rewrite mulrACA e1 mulrNN ci2 /u; cring.
  - by rewrite /= Re_mi.
  - by rewrite /= Im_mi; lra.
set u := nb ^+ 2 - RtoC (x * x); split; [exact: csqrt_sqr|exact: csqrt_Re_ge0|].
case: (Rle_lt_or_eq_dec _ _ h2) => h3.
  by apply: csqrt_lower; rewrite /u expr2 -[_ - _]/(_ + - _) ImD ImN ImM Im_RtoC; nra.
have hn : nb = RtoC (Re nb) by apply: Cext; rewrite ?Re_RtoC ?Im_RtoC.
have hu : u = RtoC (Re nb * Re nb - x * x) by rewrite /u {1}hn expr2 -RtoC_mul -RtoC_sub.
rewrite /= -/u hu csqrt_nonneg ?Im_RtoC; first lra.
by apply: Rnot_lt_le => h4; apply: h; apply/abs_sq; lra.
Qed.

Lemma tm_weight_passive nb (x : R) (z : C) : passive_index nb -> z * z = nb ^+ 2 - RtoC (x * x) ->
  (0 <= Re z)%coqR -> (Im z <= 0)%coqR -> (0 <= Re (z / nb ^+ 2)%R)%coqR.
Proof.
move=> [h1 h2] e hz1 hz2.
have n0 : nb ^+ 2 != 0.
  rewrite expf_neq0 //; apply/eqP => h; by rewrite h in h1; move: h1; rewrite -[Re 0]/0%coqR; lra.
have -> : z / nb ^+ 2 = RtoC (/ nrm2 (nb ^+ 2)) * (z * conj (nb ^+ 2)).
  have p : nrm2 (nb ^+ 2) <> 0%coqR by have := nrm2_pos n0; lra.
  rewrite RtoC_inv // -mul_conj; move: (nb ^+ 2) n0 => N n0; rewrite invfM.
  transitivity (z * N^-1 * (conj N / conj N)); first by rewrite mulfV ?mulr1 // conj_eq0.
  by set x1 := N^-1; set x2 := (conj N)^-1; cring.
rewrite ReZ; apply: Rmult_le_pos.
  by apply: Rlt_le; apply: Rinv_0_lt_compat; apply: nrm2_pos.
have e1 := congr1 Re e; have e2 := congr1 Im e; move: e1 e2 h1 h2 hz1 hz2; rewrite !expr2; cunf.
case: nb {e n0} => nr ni; case: z => a b /= e1 e2 h1 h2 ha hb.
have q : (a * (nr * nr - ni * ni) + b * (nr * ni + ni * nr) = a * (a * a + b * b + x * x))%coqR.
  have -> : (nr * nr - ni * ni = a * a - b * b + x * x)%coqR by lra.
  have -> : (nr * ni + ni * nr = a * b + b * a)%coqR by lra.
  by ring.
have q2 : (0 <= a * (a * a + b * b + x * x))%coqR by apply: Rmult_le_pos => //; nra.
lra.
Qed.

Section Passive.
Variable pinv : forall n, 'M[C]_n -> 'M[C]_n.
Variable eig : forall n, 'M[C]_n -> 'rV[C]_n * 'M[C]_n.
Hypothesis heig : eigen_oracle eig.

Lemma direct_run s w convs r T1 infos : t_direct_1d pinv eig false s w convs = Some (r, T1, infos) ->
  t_solve_1d pinv eig false s w convs = Some (r, T1, infos).
Proof.
rewrite /t_direct_1d /t_solve_1d /t_rcwa_1d; case: (layers_of _ _) => [ls|] //.
case: (t_transfer_1d_1 _ _ _ _ _) => [[[[[kt kb] F] G] T]|] //.
case e: (stack_with _ _ _) => [[[[F' G'] T'] is']|] //.
rewrite (stack_mono (@s1_t pinv eig _ _ _ _ _) e).
by case: (transfer_1d_4 _ _ _ _ _ _ _ _ _ _ _) => [[r' T1']|].
Qed.

Lemma passive_1d s w (convs : seq (conv3 (ff_x s))) r T1 infos :
  physical s -> phi s = None -> passive_index (n_bot s) ->
  (forall c, List.In c (used s convs) -> lossless_convs c) ->
  t_direct_1d pinv eig false s w convs = Some (r, T1, infos) ->
  power_conserved r /\ nonneg_eff r.
Proof.
move=> ph hphi hb hl; rewrite /t_direct_1d; have [-> _ hk _] := phys_real w ph.
case: ph => [[nt h0 h1] [th h2 h3] _ _ _].
case e: (layers_of _ _) => [ls|] //.
have hp : phi_val s = RtoC 0 by rewrite /phi_val hphi.
have [kxE _] := kx_phys w h1 h3 h2 hp.
rewrite h1 h3.
case e1: (t_transfer_1d_1 _ _ _ _ _) => [[[[[kt kb] F0] G0] T0]|] //.
have [q1 q2 q3 q4 q5] : [/\ kt = t_kz_1d (RtoC nt) (kx_vector s w), F0 = 1%:M, G0 = start_G (pol s) (ff_x s) kb (n_bot s),
    T0 = 1%:M & kb = t_kz_1d (n_bot s) (kx_vector s w)].
  move: e1; rewrite /t_transfer_1d_1 /start_G; case: ifP => _; first by case=> <- <- <- <- <-.
  by case: ifP => // _; case=> <- <- <- <- <-.
case hs: (stack_with _ _ _) => [[[[F G] T] is']|] //.
case h4: (transfer_1d_4 _ _ _ _ _ _ _ _ _ _ _) => [[r' T1']|] //.
have [r2 -> [he _]] := t14_t (kx_vector s w) h4; case=> <- _ _.
have rk : real_vec (ff_x s) (kx_vector s w) by move=> i _; rewrite kxE conjR.
have hc : kx_vector s w (ff_x s %/ 2)%N = RtoC (nt * sin th).
  by rewrite /ff_x half_ff kxE order_mid cos_0; congr RtoC; ring.
have hkz : kt (ff_x s %/ 2)%N = RtoC (nt * cos th).
  by rewrite q1 (t_kz1E nt hc) /kz_1d; apply: kz_center => //; rewrite hc.
rewrite q2 q3 q4 in hs.
have hl' l : List.In l ls -> lossless l.
  by move/(layers_of_in e) => /hl [a b c]; split; apply: hermitian_herm.
have en := energy_core_1d (eigen_eig_ok heig) (isT : (0 < ff_x s)%N) h0 h2 rk hkz hl' hs h4.
have same i : de_ri r2 i = de_ri r' i /\ de_ti r2 i = de_ti r' i by have [[_ _ ->] [_ _ ->]] := he i.
split.
  rewrite /power_conserved /total -en; congr (_ + _)%coqR; apply: eq_bigr => i _; by have [] := same i.
have kb_ok (i : 'I_(ff_x s)) : (0 <= Re (kb i))%coqR /\ (0 <= Re (kb i / n_bot s ^+ 2)%R)%coqR.
  have [x ex] := hk i; have [z1 z2 z3] := t_kz_passive hb ex; rewrite q5; split=> //.
  exact: (tm_weight_passive hb z1).
have kt_ok (i : 'I_(ff_x s)) : (0 <= Re (kt i))%coqR.
  have [x ex] := hk i; rewrite q1 (t_kz1E nt ex) /kz_1d; exact: Re_csqrt_conj.
have nn : nonneg_eff r'.
  by apply: (nonneg_1d h0 h2 kt_ok _ _ h4) => [i|_ i]; have [] := kb_ok i.
move=> i; have [[a1 a2 a3] [a4 a5 a6]] := he i; have [[b1 b2 b3] [b4 b5 b6]] := nn i.
by rewrite a1 a2 a3 a4 a5 a6.
Qed.

(** Over a passive substrate no inversion falls back to pinv when all reflected orders propagate and the modes of every
    layer propagate. *)
Lemma passive_returns s w (convs : seq (conv3 (ff_x s))) (nt : R) :
  physical s -> n_top s = RtoC nt -> passive_index (n_bot s) -> pol s = 0%coqR \/ pol s = 1%coqR ->
  (size (thickness s) <= size convs)%N ->
  all_orders_propagate (ff_x s) nt (kx_vector s w) ->
  (forall c, List.In c (used s convs) ->
     [/\ lossless_convs c, propagating_modes eig (helmholtz (pol s) (kx_vector s w) c)
       & pol s = 1%coqR -> c.1.1 \in unitmx /\ positive_definite c.1.1]) ->
  exists r T1 infos, t_direct_1d pinv eig false s w convs = Some (r, T1, infos).
Proof.
move=> ph ent hb hpol hsz hall hl; rewrite /t_direct_1d; have [-> _ hk _] := phys_real w ph.
case: ph => [[nt' h0 h1] [th h2 h3] hp _ _].
have {}h0 : (0 < nt)%coqR by move: h0; rewrite ent in h1; case: h1 => ->.
have [f hf] := phi_real hp; have [kxE _] := kx_phys w ent h3 h2 hf.
have rk : real_vec (ff_x s) (kx_vector s w) by move=> i _; rewrite kxE conjR.
have [ls e] := layers_of_some hsz; rewrite e ent.
set kx := kx_vector s w in hk kxE rk hall hl *; set n := ff_x s.
have hS : adj (1%:M : 'M[C]_n) = 1%:M by rewrite adj1.
have hg l : List.In l ls -> exists W V q,
      transfer_1d_2 pinv eig false (pol s) kx (epx l) (epy l) (epzi l) = Some (W, V, q) /\ good_modes 1%:M W V q.
  move=> /(layers_of_in e) /hl [[hx hy hz] hm ht].
  have ll : lossless l by split; apply: hermitian_herm.
  move: hm; rewrite /helmholtz; case: Req_EM_T => pe.
    rewrite te_operatorE /= pe => hm.
    exact: (good_te pinv (eigen_eig_ok heig) rk ll hm).
  have pe1 : pol s = 1%coqR by case: hpol.
  rewrite tm_operatorE /= pe1 => hm; have [uE /positive_definiteE pE] := ht pe1.
  exact: (good_tm pinv (eigen_eig_ok heig) rk ll uE pE hm).
have hm l : List.In l (map (modes_1d pinv eig (pol s) kx (k0_of w)) ls) ->
   exists W V q k0 d, l = Some (W, V, Xmat k0 q d) /\ good_modes 1%:M W V q.
  elim: ls hg {e} => [|x ls IH] hg //= [<-|]; last by apply: IH => y hy; apply: hg; right.
  have [W [V [q [e gm]]]] := hg x (or_introl erefl).
  by exists W, V, q, (k0_of w), (thick x); rewrite /modes_1d e.
have hkt i : (i < n)%N -> (0 < Re (t_kz_1d (RtoC nt) kx i))%coqR.
  move=> li; have [x e1 hx] := hall (Ordinal li).
  by rewrite (t_kz1E nt e1) /kz_1d e1; apply: kz_pos.
have kb_ok i : (0 <= Re (t_kz_1d (n_bot s) kx i))%coqR /\ (0 <= Re (t_kz_1d (n_bot s) kx i / n_bot s ^+ 2)%R)%coqR.
  have [x ex] := hk i; have [z1 z2 z3] := t_kz_passive hb ex; split=> //.
  exact: (tm_weight_passive hb z1).
rewrite /t_transfer_1d_1; case: hpol => epol; rewrite epol in hm *.
  rewrite reqb_refl.
  have [F [G [T [eg ok]]]] := well_gstack hS pinv 1%:M hm (start_1d_ok (n := n) (w := t_kz_1d (n_bot s) kx) (fun i _ => (kb_ok i).1)).
  have := stack_1d pinv eig 0 kx (k0_of w) ls 1%:M (ci *: diagf n (t_kz_1d (n_bot s) kx)) 1%:M [::]; rewrite eg.
  case: (stack_with _ _ _) => [[[[F' G'] T'] is']|] //= [-> -> ->].
  have u := final_1d_unit ok hkt.
  rewrite /transfer_1d_4 reqb_refl (meeinv_unit pinv u) /t_transfer_1d_4 reqb_refl.
  by do 3 eexists.
rewrite reqb10 reqb_refl.
have [F [G [T [eg ok]]]] := well_gstack hS pinv 1%:M hm (start_1d_ok (n := n) (w := fun i => t_kz_1d (n_bot s) kx i / n_bot s ^+ 2) (fun i _ => (kb_ok i).2)).
have := stack_1d pinv eig 1 kx (k0_of w) ls 1%:M (ci *: diagf n (fun i => t_kz_1d (n_bot s) kx i / n_bot s ^+ 2)) 1%:M [::]; rewrite eg.
case: (stack_with _ _ _) => [[[[F' G'] T'] is']|] //= [-> -> ->].
have u : G + ((ci / RtoC nt ^+ 2) *: diagf n (t_kz_1d (RtoC nt) kx)) *m F \in unitmx.
  have -> : (ci / RtoC nt ^+ 2) *: diagf n (t_kz_1d (RtoC nt) kx) = ci *: diagf n (fun i => t_kz_1d (RtoC nt) kx i / RtoC nt ^+ 2).
    rewrite !diagfZ; apply: diagf_eq => i _; set y := _^-1; cring.
  apply: final_1d_unit ok _ => i hi; rewrite expr2 -RtoC_mul Re_div_real; last by nra.
  apply: Rmult_lt_0_compat; first exact: hkt.
  by apply: Rinv_0_lt_compat; nra.
rewrite /transfer_1d_4 reqb10 reqb_refl (meeinv_unit pinv u) /t_transfer_1d_4 reqb10 reqb_refl.
by do 3 eexists.
Qed.
End Passive.

(** ** Counterexample: a bare interface seen by the 2D solver *)
Definition glass_air : setup := Setup (RtoC 3) (RtoC 2) (RtoC th_ex) (Some (RtoC 0)) (RtoC 0) 0 0 0 1 1 [::].

Lemma glass_physical : physical glass_air.
Proof.
split=> /=; [by exists 3%coqR; [lra|]|by exists th_ex; [exact: th_ex_bound|]|by move=> p [<-]; exists 0%coqR|lra|lra].
Qed.

Lemma glass_kx w : kx_tiled glass_air w 0%N = RtoC 1 /\ ky_tiled glass_air w 0%N = RtoC 0.
Proof.
have [k1 k2] := kx_phys (s := glass_air) w erefl erefl th_ex_bound (erefl : phi_val glass_air = RtoC 0).
rewrite /kx_tiled /ky_tiled /tile_x /tile_y mod0n div0n k1 k2 /= sin_th_ex cos_0 sin_0 /order /=.
by split; congr RtoC; lra.
Qed.

Lemma p_rows n (kt kb : nat -> C) nt nb ps th (RT : 'cV[C]_((n + n) + (n + n))) :
  final_A (block_mx (1%:M : 'M[C]_n) 0 0 ((ci / nb ^+ 2) *: diagf n kb)) (block_mx (ci *: diagf n kb) 0 0 1%:M) kt nt *m RT
    = final_B n ps th nt ->
  forall i : 'I_n, let Rp := dsubmx (usubmx RT) i ord0 in let T2 := dsubmx (dsubmx RT) i ord0 in
  - ci / nt ^+ 2 * kt i * Rp - ci / nb ^+ 2 * kb i * T2 = ccos ps * ccos th * delta_i0 n i ord0 /\
  Rp - T2 = - ci * nt * ccos ps * delta_i0 n i ord0.
Proof.
rewrite -[RT]vsubmxK -[usubmx RT]vsubmxK -[dsubmx RT]vsubmxK /final_A /final_B.
rewrite !(col_mxKu, col_mxKd); move: (usubmx _) (dsubmx (usubmx _)) (usubmx _) (dsubmx (dsubmx _)) => a b c d.
rewrite !mul_block_col !mulNmx !mul_block_col !mul0mx !add0r !addr0 !mul1mx !opp_col_mx !add_col_mx.
move=> e i; have e1 := congr1 (fun M : 'cV[C]_((n + n) + (n + n)) => dsubmx (usubmx M) i ord0) e.
have e2 := congr1 (fun M : 'cV[C]_((n + n) + (n + n)) => dsubmx (dsubmx M) i ord0) e.
move: e1 e2; rewrite /= !(col_mxKu, col_mxKd) => e1 e2; split.
  move: e1; rewrite mxE (col_entry 0) [X in _ + X = _]mxE (col_entry 0) [X in _ = X]mxE => <-.
  by [].
by move: e2; rewrite mxE [X in _ + X = _]mxE [X in _ = X]mxE.
Qed.

Lemma bare_rows n pinv (kt kb : nat -> C) nt nb ps th T r :
  transfer_sp_4 pinv false (block_mx (1%:M : 'M[C]_n) 0 0 ((ci / nb ^+ 2) *: diagf n kb))
    (block_mx (ci *: diagf n kb) 0 0 1%:M) T kt kb ps th nt nb = Some r ->
  forall i : 'I_n, exists T2,
  - ci / nt ^+ 2 * kt i * R_p (res r) i ord0 - ci / nb ^+ 2 * kb i * T2 = ccos ps * ccos th * delta_i0 n i ord0 /\
  R_p (res r) i ord0 - T2 = - ci * nt * ccos ps * delta_i0 n i ord0.
Proof.
rewrite /transfer_sp_4; case hM: (meeinv _ _ _) => [M|] //; have [uM eM] := meeinv_some hM.
set RT := M *m final_B n ps th nt.
have := @p_rows n kt kb nt nb ps th RT; rewrite {1}/RT eM mulKVmx // => /(_ erefl) e.
by case=> <- i /=; have := e i; set Rp := dsubmx _ _ _; set T2 := dsubmx (dsubmx _) _ _ => h; exists T2.
Qed.

Lemma glass_Rp pinv eig w r infos : solve_2d pinv eig false glass_air w [::] = Some (r, infos) ->
  R_p (res r) ord0 ord0 != 0.
Proof.
rewrite /solve_2d /= /rcwa_2d /transfer_sp_1; case: ifP => // _ /=.
case e: (transfer_sp_4 _ _ _ _ _ _ _ _ _ _ _) => [r'|] // [<- _].
have [T2 []] := bare_rows e ord0; set Rp := R_p _ _ _ => h1 h2; apply/eqP => h; move: h1 h2; rewrite h.
rewrite mulr0 !sub0r ccos_0 !mul1r ccos_real [delta_i0 _ _ _]mxE /= !mulr1 => h1 /eqP.
rewrite eqr_oppLR => /eqP h2.
move: h1; rewrite h2 /kz_2d; have [-> ->] := glass_kx w.
have -> : RtoC 2 ^+ 2 - RtoC 1 ^+ 2 - RtoC 0 ^+ 2 = RtoC 3.
  by rewrite !expr2 -!RtoC_mul -!RtoC_sub; congr RtoC; ring.
rewrite csqrt_nonneg; last lra.
rewrite conjR mulNr opprK expr2 -RtoC_mul -RtoC_inv; last lra.
have -> : - (ci * RtoC (/ (2 * 2)) * RtoC (sqrt 3) * (ci * RtoC 3)) = RtoC (3 / 4 * sqrt 3).
  transitivity (- (ci * ci) * RtoC (/ (2 * 2)) * RtoC (sqrt 3) * RtoC 3); first by cring.
  by rewrite ci2 opprK mul1r -!RtoC_mul; congr RtoC; field.
case=> h3; have c1 := COS_bound th_ex; have q := sqrt_sqrt 3 ltac:(lra); have q0 := sqrt_pos 3.
by rewrite -h3 in c1; nra.
Qed.

Section Refute.
Variable pinv : forall n, 'M[C]_n -> 'M[C]_n.
Variable eig : forall n, 'M[C]_n -> 'rV[C]_n * 'M[C]_n.
Hypothesis heig : eigen_oracle eig.

Lemma glass_returns w : exists r infos, solve_2d pinv eig false glass_air w [::] = Some (r, infos).
Proof.
have [k1 k2] := glass_kx w.
apply: (well_solve_2d pinv heig (s := glass_air) (w := w) (convs := [::]) (nt := 3) (nb := 2) glass_physical erefl erefl) => //.
- lra.
- move=> i; exists 1%coqR, 0%coqR; have -> : (i : nat) = 0%N by case: i => [[|i] h].
  by split=> //; [lra|left; lra].
Qed.

Lemma glass_torch w : exists r infos, t_solve_2d pinv eig false glass_air w [::] = Some (r, infos) /\
  R_p (res r) ord0 ord0 != 0.
Proof.
have [r [infos e]] := glass_returns w.
have e' : solve_2d pinv eig false (with_psi glass_air (RtoC (- 0))) w [::] = Some (r, infos) by rewrite Ropp_0.
have hf : no_flat_mode infos.
  move: e; rewrite /solve_2d /rcwa_2d /=; case: (transfer_sp_1 _ _ _ _ _) => [[[[[[[kt kb] c] s'] F] G] T]|] //=.
  by case: (transfer_sp_4 _ _ _ _ _ _ _ _ _ _ _) => [r'|] // [_ <-].
have hp : false = true -> pinv_oracle pinv by [].
have [r' e1 [_ [h _ _] _]] := torch_2d hp glass_physical erefl erefl erefl e' hf.
exists r', infos; split=> //; have [_ -> _ _] := h ord0.
have nz : (RtoC 3)^-1 != 0 by rewrite invr_eq0; apply: RtoC_neq0; lra.
have gp := glass_Rp e.
rewrite mulf_neq0 //.
  by case: (side_pm (kx_vector glass_air w ((@ord0 0 : nat) %% ff_x glass_air)%N) (kx_vector glass_air w (fto_x glass_air))) => ->; rewrite ?oppr_eq0 oner_neq0.
by rewrite !mulf_neq0 ?conj_eq0 ?ci_neq0.
Qed.

Lemma c09_false w : exists r infos, t_solve_2d pinv eig false glass_air w [::] = Some (r, infos) /\
  ~ superposed (csin (psi glass_air)) (ccos (psi glass_air)) (res r) (res_te_inc r) (res_tm_inc r).
Proof.
have [r [infos [e h]]] := glass_torch w; exists r, infos; split=> // hs.
have [_ h1 _ _] := hs ord0; have [_ h2 _ _] := t_super_2d glass_physical erefl e ord0.
rewrite -[psi glass_air]/(RtoC 0) csin_0 ccos_0 in h1; rewrite sin_0 cos_0 in h2.
rewrite !mul0r !add0r !mul1r in h1 h2; rewrite h1 in h2 h.
move: h h2; set x := R_p _ _ _ => h h2; move/eqP: h; apply.
have e2 : x + x = 0 by rewrite {1}h2 addNr.
by move: e2; rewrite -mulr2n -mulr_natr => /eqP; rewrite mulf_eq0 (negPf Ctwo_neq0) orbF => /eqP.
Qed.

Hypothesis hsp : splits_diagonal eig.

Lemma c46_false nr k w : (1 <= nr)%coqR -> (0 < k)%coqR -> (nr * nr < 3 * (k * k))%coqR ->
  exists r r', [/\ reported_1d (solve_1d pinv eig false (bare nr k 1 [::]) w [::]) = Some r,
     reported_1d (t_solve_1d pinv eig false (bare nr k 1 [::]) w [::]) = Some r'
   & (de_ri r' ord0 <= 1 < de_ri r ord0)%coqR].
Proof.
move=> h1 hk h2; have n0 : (0 < nr)%coqR by lra.
have [r [T1 [infos [e _ l]]]] := bare_tm_bad pinv heig hsp n0 w h1 h2.
have ph : physical (bare nr k 1 [::]).
  split=> //=; [by exists 1%coqR; [lra|]|exists 0%coqR => //; have := PI_RGT_0; lra|lra|lra].
have hb : passive_index (n_bot (bare nr k 1 [::])) by split; rewrite /= /Re /Im /=; lra.
have [r' [T1' [infos' e']]] : exists r T1 infos, t_direct_1d pinv eig false (bare nr k 1 [::]) w [::] = Some (r, T1, infos).
  apply: (passive_returns pinv heig (s := bare nr k 1 [::]) (nt := 1)) => //; first by right.
  by move=> i; exists 0%coqR; [exact: kx_bare|lra].
have hl c : List.In c (used (bare nr k 1 [::]) ([::] : seq (conv3 (ff_x (bare nr k 1 [::]))))) -> lossless_convs c by [].
have [pc nn] := passive_1d heig ph erefl hb hl e'.
exists r, r'; rewrite e (direct_run e'); split=> //; split=> //.
move: pc; rewrite /power_conserved /total !big_ord_recl !big_ord0 /= => pc.
have [_ [_ _ p]] := nn ord0; move: pc p; rewrite -[ord0]/(@ord0 0); set a := de_ri _ _; set b := de_ti _ _ => pc p.
have : (a + 0 + (b + 0) = 1)%coqR by exact: pc.
by lra.
Qed.
End Refute.
