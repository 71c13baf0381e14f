(** Discrete against continuous Fourier series. *)
From Coq Require Import Reals Lra Lia FunctionalExtensionality.
From Coquelicot Require Import Complex RInt Hierarchy Lim_seq Rbar Continuity ElemFct.
From mathcomp Require Import all_ssreflect ssralg ssrint matrix.
From Verif Require Import Cplx Mx Spec SpecFourier ModelTM SpecSolve ModelFourier SpecLayer ProofFourier ProofConv ProofCell ProofLayer.

Set Implicit Arguments.
Unset Strict Implicit.
Unset Printing Implicit Defensive.
Local Open Scope ring_scope.
Import GRing.Theory.

(** Fourier coefficients of a line of n equal pixels, in closed form. *)
Definition wave (m t : R) : C := cexp (- ci * RtoC (2 * PI * m * t)).

Lemma waveD m s t : wave m (s + t) = wave m s * wave m t.
Proof. by rewrite /wave -cexpD -mulrDr -RtoC_add; congr (cexp (_ * RtoC _)); ring. Qed.

Lemma wave_pow m t (j : nat) : wave m (t * INR j) = wave m t ^+ j.
Proof. by rewrite /wave -cexpX -mulrA -RtoC_mul; congr (cexp (_ * RtoC _)); ring. Qed.

Lemma nth_pixels n j : (j < n)%N -> nth 0%coqR (pixels n) j = ((INR j + 1) / INR n)%coqR.
Proof. by move=> h; rewrite (nth_map 0%N) ?size_iota // nth_iota // add0n. Qed.
Lemma nth_pixels_prev n j : (j < n)%N -> nth 0%coqR (0%coqR :: pixels n) j = (INR j / INR n)%coqR.
Proof.
case: j => [|j] h /=; first by rewrite /Rdiv Rmult_0_l.
by rewrite nth_pixels ?(ltnW h) //; congr (_ / _)%coqR; case: j {h} => //=; rewrite Rplus_0_l.
Qed.
Lemma size_pixels n : size (pixels n) = n.
Proof. by rewrite size_map size_iota. Qed.

Lemma line_coef n v m : (0 < n)%N -> intr m ->
  fourier_coef (steps (pixels n) v) 1 m
    (if Req_EM_T m 0 then (\sum_(a < n) v a) / RtoC (INR n)
     else (\sum_(a < n) v a * (wave m (INR a / INR n) - wave m ((INR a + 1) / INR n))) / (ci * RtoC (2 * PI * m))).
Proof.
move=> hn hm; rewrite /fourier_coef; have n0 : (0 < INR n)%coqR by apply: lt_0_INR; apply/leP.
have hcov : covers (pixels n) 1 by rewrite pixelsE //; case: (full_ok hn).
have hl : last 0%coqR (pixels n) = 1%coqR by case: hcov.
have hc : climbing 0 (pixels n) by case: hcov.
have hP := PI_RGT_0.
rewrite (_ : RtoC 1 = 1) // mul1r.
case: Req_EM_T => [m00|m0] /=.
- apply: (cint_ext (f := fun t => steps (pixels n) v t * 1)).
    move=> t _; rewrite m00.
    have -> : (2 * PI * 0 * t / 1 = 0)%coqR by field.
    by rewrite (_ : RtoC 0 = 0) // mulr0 cexp0.
  have := cint_steps primitive_one v hc; rewrite hl.
  congr cintegral; rewrite size_pixels mulr_suml; apply: eq_bigr => j _.
  rewrite nth_pixels // nth_pixels_prev // -RtoC_sub -RtoC_inv; last lra.
  by congr (_ * RtoC _); field; lra.
pose w := (2 * PI * m)%coqR.
have hw : w <> 0%coqR by rewrite /w => /Rmult_integral []; lra.
apply: (cint_ext (f := fun t => steps (pixels n) v t * cexp (- ci * RtoC (w * t)))).
  by move=> t _; congr (_ * cexp (_ * RtoC _)); rewrite /w; field.
have := cint_steps (primitive_exp hw) v hc; rewrite hl.
congr cintegral; rewrite size_pixels mulr_suml; apply: eq_bigr => j _.
rewrite nth_pixels // nth_pixels_prev // -!/(wave _ _) -mulrA; congr (_ * _).
rewrite -mulrBl mulNr invrN mulrN -mulNr opprB.
by [].
Qed.

(** Sum over n blocks of r equal samples. *)
Lemma sum_blocks n r (F : nat -> C) : (0 < r)%N ->
  \sum_(j < n * r) F j = \sum_(a < n) \sum_(t < r) F (a * r + t)%N.
Proof.
move=> hr; elim: n => [|n IH]; first by rewrite mul0n !big_ord0.
by rewrite mulSnr big_split_ord /= IH [RHS]big_ord_recr.
Qed.

Lemma geometric (w : C) (r : nat) : (1 - w) * (\sum_(t < r) w ^+ t) = 1 - w ^+ r.
Proof.
by elim: r => [|r IH]; rewrite ?big_ord0 ?expr0 ?subrr ?mulr0 // big_ord_recr /= mulrDr IH exprS; cring.
Qed.

Lemma sampling_eq (m : R) (N : nat) : m <> 0%coqR -> (Rabs m < INR N)%coqR ->
  wave m (1 / INR N) != 1 /\
  ci * RtoC (2 * PI * m) / (RtoC (INR N) * (1 - wave m (1 / INR N))) = sampling (PI * m / INR N).
Proof.
move=> m0 hm; have ma := Rabs_pos_lt _ m0.
have n0 : (0 < INR N)%coqR by lra.
have hP := PI_RGT_0.
set x := (PI * m / INR N)%coqR.
have x0 : x <> 0%coqR.
  by rewrite /x => /Rmult_integral [/Rmult_integral [] | /Rinv_neq_0_compat]; lra.
have sx : sin x <> 0%coqR.
  have hx : (0 < Rabs x < PI)%coqR.
    pose q := (PI / INR N)%coqR.
    have hq : (0 < q)%coqR by apply: Rmult_lt_0_compat; [lra | apply: Rinv_0_lt_compat].
    have hqn : (q * INR N = PI)%coqR by rewrite /q; field; lra.
    rewrite (_ : x = m * q)%coqR; last by rewrite /x /q; field; lra.
    by rewrite Rabs_mult (Rabs_right q); last lra; split; nra.
  move: hx; rewrite /Rabs; case: Rcase_abs => h hx hs; have := sin_gt_0 x; have := sin_gt_0 (- x); rewrite sin_neg; lra.
have W : wave m (1 / INR N) = (cos (2 * x), - sin (2 * x))%coqR.
  rewrite /wave (_ : 2 * PI * m * (1 / INR N) = 2 * x)%coqR; last by rewrite /x; field; lra.
  have -> : - ci * RtoC (2 * x) = (0, - (2 * x))%coqR by apply: Cext; rewrite /ci /Ci /Re /Im; cbn; ring.
  by rewrite /cexp /Re /Im /= exp_0 cos_neg sin_neg; apply: Cext; rewrite /Re /Im /=; ring.
have D : 1 - wave m (1 / INR N) = (2 * sin x * sin x, 2 * sin x * cos x)%coqR.
  rewrite W; apply: Cext; rewrite /Re /Im; cbn; rewrite ?cos_2a_sin ?sin_2a; ring.
have Dn : 1 - wave m (1 / INR N) != 0.
  rewrite D; apply/eqP => -[h1 h2]; apply: sx; nra.
split; first by move: Dn; rewrite subr_eq0 eq_sym.
have nC : RtoC (INR N) != 0 by apply: RtoC_neq0; lra.
have dn : RtoC (INR N) * (1 - wave m (1 / INR N)) != 0 by rewrite mulf_neq0.
rewrite /sampling; case: Req_EM_T => // _ /=.
apply: (mulIf dn); rewrite mulfVK // D.
have e : (INR N * x = PI * m)%coqR by rewrite /x; field; lra.
have sc := sin2_cos2 x; rewrite /Rsqr in sc.
apply: Cext; rewrite /ci /Ci /Re /Im; cbn.
  by field.
have -> : (2 * PI * m = 2 * (INR N * x))%coqR by rewrite e; ring.
have -> : (x * cos x / sin x * (INR N * (2 * sin x * cos x) + 0 * (2 * sin x * sin x)) +
  x * (INR N * (2 * sin x * sin x) - 0 * (2 * sin x * cos x)) = 2 * (INR N * x) * (sin x * sin x + cos x * cos x))%coqR.
  by field.
by rewrite sc; ring.
Qed.

Lemma dft_line n r v m c : (0 < n)%N -> (0 < r)%N -> intr m -> (Rabs m < INR (n * r))%coqR ->
  fourier_coef (steps (pixels n) v) 1 m c ->
  dft (n * r) (fun j => v (j %/ r)%N) m = sampling (PI * m / INR (n * r)) * c.
Proof.
move=> hn hr hm hN hc.
have n0 : (0 < INR n)%coqR by apply: lt_0_INR; apply/leP.
have r0 : (0 < INR r)%coqR by apply: lt_0_INR; apply/leP.
have -> := fourier_coef_unique Rlt_0_1 (fun _ _ => erefl) hc (line_coef v hn hm).
rewrite /dft (sum_blocks n (fun j => v (j %/ r)%N * cexp (- ci * RtoC (2 * PI * m * INR j / INR (n * r)))) hr).
case: Req_EM_T => [m00|m0] /=.
  subst m; have -> : (PI * 0 / INR (n * r) = 0)%coqR by rewrite /Rdiv; ring.
  rewrite /sampling; case: Req_EM_T => // _ /=; rewrite (_ : RtoC 1 = 1) // mul1r.
  rewrite (eq_bigr (fun a : 'I_n => v a * RtoC (INR r))); last first.
    move=> a _; rewrite (eq_bigr (fun _ => v a)); last first.
      move=> t _; rewrite divnMDl // divn_small // addn0.
      by rewrite /Rdiv Rmult_0_r !Rmult_0_l (_ : RtoC 0 = 0) // mulr0 cexp0 mulr1.
    rewrite sumr_const card_ord -mulr_natr; congr (_ * _).
    by elim: (r) => // k IH; rewrite mulrSr S_INR RtoC_add IH.
  rewrite -mulr_suml -multE mult_INR RtoC_mul invfM mulrACA mulfV ?mulr1 //.
  by apply: RtoC_neq0; lra.
have [w1 <-] := sampling_eq m0 hN.
set W := wave m (1 / INR (n * r)) in w1 *.
have wE (j : nat) : cexp (- ci * RtoC (2 * PI * m * INR j / INR (n * r))) = W ^+ j.
  by rewrite /W -wave_pow /wave; congr (cexp (_ * RtoC _)); rewrite /Rdiv; ring.
have wA (a : nat) : wave m (INR a / INR n) = W ^+ (a * r).
  rewrite /W -wave_pow; congr wave; rewrite -!multE !mult_INR; field; lra.
rewrite (eq_bigr (fun a : 'I_n => v a * W ^+ (a * r) * (1 - W ^+ r) / (1 - W))); last first.
  move=> a _; rewrite -geometric [(1 - W) * _]mulrC mulrA mulfK; last by rewrite subr_eq0 eq_sym.
  rewrite mulr_sumr; apply: eq_bigr => t _.
  by rewrite divnMDl // divn_small // addn0 wE exprD mulrA.
have nk : ci * RtoC (2 * PI * m) != 0.
  have hP := PI_RGT_0.
  apply: mulf_neq0; last by apply: RtoC_neq0 => /Rmult_integral []; lra.
  by apply/eqP => -[]; lra.
set S := \sum_(a < n) v a * (_ - _).
have -> : \sum_(a < n) v a * W ^+ (a * r) * (1 - W ^+ r) / (1 - W) = S / (1 - W).
  rewrite /S mulr_suml; apply: eq_bigr => a _; congr (_ / _).
  have -> : ((INR a + 1) / INR n = INR a.+1 / INR n)%coqR by rewrite S_INR.
  by rewrite !wA mulSn exprD -mulrA mulrBr mulr1 [_ ^+ r * _]mulrC.
set A := ci * RtoC _ in nk *.
rewrite [in RHS]invfM; have {nk} := mulfV nk.
set a := A^-1; set b := (1 - W)^-1; set c' := (RtoC (INR (n * r)))^-1 => h.
rewrite -[LHS]mulr1 -h; cring.
Qed.

(** ** Limits *)

Lemma sampling_lim (m : R) (n : nat) : (0 < n)%N ->
  climit (fun r => sampling (PI * m / INR (n * r.+1))) 1.
Proof.
move=> hn; have n0 : (0 < INR n)%coqR by apply: lt_0_INR; apply/leP.
have hP := PI_RGT_0.
pose x r := (PI * m / INR (n * r.+1))%coqR.
have xl : is_lim_seq x (Finite R0).
  apply: (is_lim_seq_ext (fun r => (PI * m / INR n) * / INR r.+1)%coqR).
    move=> r; rewrite /x -multE mult_INR; field; split; last lra.
    by apply: not_0_INR.
  have e0 : (R0 = (PI * m / INR n) * 0)%coqR by ring.
  rewrite {1}e0; apply: (is_lim_seq_scal_l _ _ (Finite R0)).
  have : is_lim_seq (fun r => INR r.+1) p_infty by exact: (proj1 (is_lim_seq_incr_1 INR p_infty) is_lim_seq_INR).
  by move=> h; apply: (is_lim_seq_inv _ _ h).
case: (Req_EM_T m 0) => m0.
  split; apply: (is_lim_seq_ext (fun _ => _)); try exact: is_lim_seq_const; move=> r;
  by rewrite m0 /Rdiv Rmult_0_r Rmult_0_l /sampling; case: Req_EM_T.
have x0 r : x r <> 0%coqR.
  rewrite /x => /Rmult_integral [/Rmult_integral [] | ]; try lra.
  by apply: Rinv_neq_0_compat; apply: not_0_INR; case: (n) hn.
have E r : sampling (x r) = (x r * cos (x r) / sin (x r), x r)%coqR.
  by rewrite /sampling; case: Req_EM_T => // h; case: (x0 r).
split.
  apply: (is_lim_seq_ext (fun r => cos (x r) / (sin (x r) / x r))%coqR).
    move=> r; rewrite -/(x r) E /Re /=.
    case: (Req_EM_T (sin (x r)) 0) => hs; last by field.
    by rewrite hs /Rdiv Rmult_0_l Rinv_0 !Rmult_0_r.
  have -> : Re 1 = (cos 0 / 1)%coqR by rewrite cos_0 /Re /=; field.
  apply: is_lim_seq_div'; last lra.
    apply: is_lim_seq_continuous => //; exact: continuity_cos.
  have ne : eventually (fun r => Finite (x r) <> Finite R0) by exists 0%N => r _ e; apply: (x0 r); case: e.
  exact: (is_lim_comp_seq (fun y => sin y / y)%coqR x (Finite R0) (Finite R1) is_lim_sinc_0 ne xl).
by apply: (is_lim_seq_ext x) => // r; rewrite -/(x r) E.
Qed.

Lemma climit_scal f l (c : C) : climit f l -> climit (fun r => f r * c) (l * c).
Proof.
move=> [h1 h2]; split.
  rewrite ReM; apply: (is_lim_seq_ext (fun r => Re (f r) * Re c - Im (f r) * Im c)%coqR); first by move=> r; rewrite ReM.
  apply: is_lim_seq_minus'; first exact: (is_lim_seq_scal_r _ (Re c) _ h1).
  exact: (is_lim_seq_scal_r _ (Im c) _ h2).
rewrite ImM; apply: (is_lim_seq_ext (fun r => Re (f r) * Im c + Im (f r) * Re c)%coqR); first by move=> r; rewrite ImM.
apply: is_lim_seq_plus'; first exact: (is_lim_seq_scal_r _ (Im c) _ h1).
exact: (is_lim_seq_scal_r _ (Re c) _ h2).
Qed.

Lemma climit_mul f g l k : climit f l -> climit g k -> climit (fun r => f r * g r) (l * k).
Proof.
move=> [h1 h2] [h3 h4]; split.
  rewrite ReM; apply: (is_lim_seq_ext (fun r => Re (f r) * Re (g r) - Im (f r) * Im (g r))%coqR); first by move=> r; rewrite ReM.
  by apply: is_lim_seq_minus'; apply: is_lim_seq_mult'.
rewrite ImM; apply: (is_lim_seq_ext (fun r => Re (f r) * Im (g r) + Im (f r) * Re (g r))%coqR); first by move=> r; rewrite ImM.
by apply: is_lim_seq_plus'; apply: is_lim_seq_mult'.
Qed.

Lemma climit_unique f l k : climit f l -> climit f k -> l = k.
Proof.
move=> [h1 h2] [h3 h4]; apply: Cext.
  by have := is_lim_seq_unique _ _ h1; rewrite (is_lim_seq_unique _ _ h3) => -[].
by have := is_lim_seq_unique _ _ h2; rewrite (is_lim_seq_unique _ _ h4) => -[].
Qed.

Lemma climit_shift f l k : climit (fun r => f (r + k)%N) l -> climit f l.
Proof. by case=> h1 h2; split; apply/(is_lim_seq_incr_n _ k); rewrite -plusE in h1 h2 *. Qed.

Lemma climit_ext f g c : (forall q, f q = g q) -> climit f c -> climit g c.
Proof. by move=> h [h1 h2]; split; [apply: is_lim_seq_ext h1|apply: is_lim_seq_ext h2] => q; rewrite h. Qed.

Lemma line_limit n v m c : (0 < n)%N -> intr m -> fourier_coef (steps (pixels n) v) 1 m c ->
  climit (fun r => dft (n * r.+1) (fun j => v (j %/ r.+1)%N) m) c.
Proof.
move=> hn hm hc.
have [K [hK K0]] := archimed_cor1 (/ (Rabs m + 1)) (Rinv_0_lt_compat _ (Rle_lt_0_plus_1 _ (Rabs_pos m))).
have {}hK : (Rabs m < INR K)%coqR.
  have ma := Rabs_pos m; have k0 := lt_0_INR _ K0.
  suff : (Rabs m + 1 < INR K)%coqR by lra.
  by rewrite -(Rinv_inv (INR K)) -(Rinv_inv (Rabs m + 1)); apply: Rinv_lt_contravar => //; apply: Rmult_lt_0_compat; apply: Rinv_0_lt_compat; lra.
apply: (@climit_shift _ _ K).
apply: (@climit_ext (fun r => sampling (PI * m / INR (n * (r + K).+1)) * c)).
  move=> r; apply: esym; apply: dft_line => //.
  apply: Rlt_le_trans hK _; apply: le_INR; apply/leP; apply: leq_trans (leq_addl r K) _.
  by apply: leq_trans (leqnSn _) _; rewrite leq_pmull.
rewrite -{2}[c]mul1r; apply: climit_scal.
have [h1 h2] := sampling_lim m hn.
by split; [have := proj1 (is_lim_seq_incr_n _ K _) h1 | have := proj1 (is_lim_seq_incr_n _ K _) h2].
Qed.

(** ** Both axes *)

Lemma intr_sub (a b : nat) : intr (INR a - INR b)%coqR.
Proof. by exists a, b. Qed.

Lemma step_pixel n (v : nat -> C) t : (0 < n)%N -> (0 <= t < 1)%coqR ->
  exists2 j, (j < n)%N & find (rlt t) (pixels n) = j.
Proof.
move=> hn ht; rewrite pixelsE //; have [j hj fj] := pixel hn ht.
by exists j => //; rewrite (find_ends _ fj) find_iota.
Qed.

Lemma dft_raster nr nc (a : nat -> nat -> C) ry rx my mx c :
  (0 < nr)%N -> (0 < nc)%N -> (0 < ry)%N -> (0 < rx)%N -> intr my -> intr mx ->
  (Rabs my < INR (nr * ry))%coqR -> (Rabs mx < INR (nc * rx))%coqR ->
  fourier_coef2 (picture_down nr nc a) 1 1 mx my c ->
  dft (nc * rx) (fun j => dft (nr * ry) (fun i => a (i %/ ry)%N (j %/ rx)%N) my) mx
  = sampling (PI * my / INR (nr * ry)) * sampling (PI * mx / INR (nc * rx)) * c.
Proof.
move=> hr hc hry hrx iy ix by_ bx [g gy gx].
pose G j := if Req_EM_T my 0 then (\sum_(b < nr) a b j) / RtoC (INR nr)
     else (\sum_(b < nr) a b j * (wave my (INR b / INR nr) - wave my ((INR b + 1) / INR nr))) / (ci * RtoC (2 * PI * my)).
have GE j : fourier_coef (steps (pixels nr) (fun b => a b j)) 1 my (G j) by apply: line_coef.
have -> : dft (nc * rx) (fun j => dft (nr * ry) (fun i => a (i %/ ry)%N (j %/ rx)%N) my) mx =
  dft (nc * rx) (fun j => (fun q => sampling (PI * my / INR (nr * ry)) * G q) (j %/ rx)%N) mx.
  rewrite /dft; congr (_ / _); apply: eq_bigr => j _; congr (_ * _).
  exact: (dft_line hr hry iy by_ (GE (j %/ rx)%N)).
rewrite [RHS]mulrAC [RHS]mulrC.
apply: (@dft_line nc rx (fun q => sampling (PI * my / INR (nr * ry)) * G q) mx (sampling (PI * my / INR (nr * ry)) * c)) => //.
have gG t : (0 <= t < 1)%coqR -> g t = steps (pixels nc) G t.
  move=> ht; have hg := gy t ht.
  have e : steps (pixels nc) G t = G (find (rlt t) (pixels nc)) by [].
  by rewrite e; apply: fourier_coef_unique hg (GE _) => //; lra.
case: gx => g1 g2; rewrite /fourier_coef /cintegral.
set s := sampling _.
have F : cintegral (fun t => steps (pixels nc) G t * cexp (- ci * RtoC (2 * PI * mx * t / 1))) 0 1 (RtoC 1 * c).
  apply: cint_ext (Logic.conj g1 g2) => t; rewrite Rmin_left ?Rmax_right; try lra.
  by move=> ht; rewrite gG //; lra.
have := cint_scal s F; rewrite mulrCA; apply: cint_ext => t _.
by rewrite mulrA.
Qed.

Lemma fourier_coef2_unique f p q mx my u v : (0 < p)%coqR -> (0 < q)%coqR ->
  fourier_coef2 f p q mx my u -> fourier_coef2 f p q mx my v -> u = v.
Proof.
move=> hp hq [g1 h1 h2] [g2 h3 h4].
apply: fourier_coef_unique h2 h4 => // t ht.
by apply: fourier_coef_unique (h1 t ht) (h3 t ht).
Qed.

(** ** C20, C21 for whole layers *)

Lemma fourier_coef_ext f g p m c : (0 < p)%coqR -> (forall t, (0 <= t < p)%coqR -> f t = g t) ->
  fourier_coef f p m c -> fourier_coef g p m c.
Proof.
move=> hp h; apply: cint_ext => t; rewrite Rmin_left ?Rmax_right; try lra.
by move=> ht; rewrite h //; lra.
Qed.

Lemma continuous_z fto_x fto_y l : (0 < rows l)%N -> (0 < cols l)%N ->
  exists2 Z, epz_continuous fto_x fto_y l = Some Z &
  forall i j : 'I_(fto_y.*2.+1 * fto_x.*2.+1),
    fourier_coef2 (picture (rows l) (cols l) (eps_of l)) 1 1 (order_x fto_x j - order_x fto_x i)
      (order_y fto_x fto_y j - order_y fto_x fto_y i) (Z i j).
Proof.
move=> h1 h2; rewrite /epz_continuous.
move: (compression_ok h1 h2) (fun tx ty => compression_tiles (tx := tx) (ty := ty) h1 h2).
case: (cell_compression l) => [[c x] y] [cx cy sx sy] T.
have [Z e H] := cfs2d_z (eps_of c) fto_x fto_y cx cy.
exists Z => // i j; have [g hg1 hg2] := H i j; exists g => // tx ht.
by apply: fourier_coef_ext (hg1 tx ht) => [|ty hty]; [lra | apply: T].
Qed.

Lemma flip_flip l b j : (b < rows l)%N -> px (flipud (flipud l)) b j = px l b j.
Proof. by move=> h /=; rewrite subnSK // subKn // ltnW. Qed.

Lemma flip_picture l tx ty : (0 < rows l)%N -> (0 < cols l)%N -> (0 <= tx < 1)%coqR -> (0 <= ty < 1)%coqR ->
  picture (rows l) (cols l) (eps_of (flipud l)) tx ty = picture_down (rows l) (cols l) (eps_of l) tx ty.
Proof.
move=> h1 h2 hx hy; rewrite /picture /picture_down /tiles /eps_of /=.
have [b hb ->] := step_pixel (fun _ => 0) h1 hy.
by rewrite subnSK // subKn // ltnW.
Qed.

Lemma order_bound fto_x fto_y (i j : 'I_(fto_y.*2.+1 * fto_x.*2.+1)) n : (fto_x.*2 < n)%N ->
  (Rabs (order_x fto_x j - order_x fto_x i) < INR n)%coqR /\ intr (order_x fto_x j - order_x fto_x i)%coqR.
Proof.
move=> h; have -> : (order_x fto_x j - order_x fto_x i = INR (j %% fto_x.*2.+1) - INR (i %% fto_x.*2.+1))%coqR.
  by rewrite /order_x; ring.
split; last exact: intr_sub.
have lt k : (INR (k %% fto_x.*2.+1) < INR n)%coqR.
  by apply: lt_INR; apply/ltP; apply: leq_trans h; rewrite ltn_mod.
have := lt i; have := lt j; have := pos_INR (i %% fto_x.*2.+1); have := pos_INR (j %% fto_x.*2.+1).
by rewrite /Rabs; case: Rcase_abs => ?; lra.
Qed.
Lemma order_bound_y fto_x fto_y (i j : 'I_(fto_y.*2.+1 * fto_x.*2.+1)) n : (fto_y.*2 < n)%N ->
  (Rabs (order_y fto_x fto_y j - order_y fto_x fto_y i) < INR n)%coqR /\ intr (order_y fto_x fto_y j - order_y fto_x fto_y i)%coqR.
Proof.
move=> h; have -> : (order_y fto_x fto_y j - order_y fto_x fto_y i = INR (j %/ fto_x.*2.+1) - INR (i %/ fto_x.*2.+1))%coqR.
  by rewrite /order_y; ring.
split; last exact: intr_sub.
have lt (k : 'I_(fto_y.*2.+1 * fto_x.*2.+1)) : (INR (k %/ fto_x.*2.+1) < INR n)%coqR.
  by apply: lt_INR; apply/ltP; apply: leq_trans h; exact: flat_div (ltn_ord k).
have := lt i; have := lt j; have := pos_INR (i %/ fto_x.*2.+1); have := pos_INR (j %/ fto_x.*2.+1).
by rewrite /Rabs; case: Rcase_abs => ?; lra.
Qed.

Lemma mul_gt a b k : (0 < a)%N -> (k < b)%N -> (k < a * b)%N.
Proof. by move=> ha hb; apply: leq_trans hb _; rewrite leq_pmull. Qed.

(** Exact relation between the two methods. *)
Lemma samples_law fto_x fto_y l ry rx : (0 < rows l)%N -> (0 < cols l)%N -> (fto_y.*2 < rows l * ry)%N -> (fto_x.*2 < cols l * rx)%N ->
  exists D Z, [/\ epz_samples fto_x fto_y (replicate l ry rx) = Some D,
    epz_continuous fto_x fto_y (flipud l) = Some Z &
    forall i j : 'I_(fto_y.*2.+1 * fto_x.*2.+1),
      D i j = sampling (PI * (order_y fto_x fto_y j - order_y fto_x fto_y i) / INR (rows l * ry))
            * sampling (PI * (order_x fto_x j - order_x fto_x i) / INR (cols l * rx)) * Z i j].
Proof.
move=> hr hc hy hx.
have ry0 : (0 < ry)%N by case: ry hy => //; rewrite muln0.
have rx0 : (0 < rx)%N by case: rx hx => //; rewrite muln0.
have [Z eZ HZ] := @continuous_z fto_x fto_y (flipud l) hr hc.
rewrite /epz_samples dfs2d_z //; eexists; exists Z; split => // i j; rewrite mxE.
have [bx ix] := order_bound i j hx; have [by_ iy] := order_bound_y i j hy.
apply: (dft_raster (a := eps_of l)) => //.
have [g hg1 hg2] := HZ i j; exists g => // tx ht.
apply: fourier_coef_ext (hg1 tx ht) => [|ty hty]; first lra.
exact: flip_picture.
Qed.

Lemma samples_limit fto_x fto_y l : (0 < rows l)%N -> (0 < cols l)%N ->
  exists D Z, [/\ forall q, epz_samples fto_x fto_y (replicate l (q + fto_y.*2).+1 (q + fto_x.*2).+1) = Some (D q),
    epz_continuous fto_x fto_y (flipud l) = Some Z &
    forall i j : 'I_(fto_y.*2.+1 * fto_x.*2.+1), climit (fun q => D q i j) (Z i j)].
Proof.
move=> hr hc; have [Z eZ _] := @continuous_z fto_x fto_y (flipud l) hr hc.
have hy q : (fto_y.*2 < rows l * (q + fto_y.*2).+1)%N by apply: mul_gt; rewrite // ltnS leq_addl.
have hx q : (fto_x.*2 < cols l * (q + fto_x.*2).+1)%N by apply: mul_gt; rewrite // ltnS leq_addl.
have H q : exists D, epz_samples fto_x fto_y (replicate l (q + fto_y.*2).+1 (q + fto_x.*2).+1) = Some D /\
  forall i j : 'I_(fto_y.*2.+1 * fto_x.*2.+1),
      D i j = sampling (PI * (order_y fto_x fto_y j - order_y fto_x fto_y i) / INR (rows l * (q + fto_y.*2).+1))
            * sampling (PI * (order_x fto_x j - order_x fto_x i) / INR (cols l * (q + fto_x.*2).+1)) * Z i j.
  have [D [Z' [e1 e2 e3]]] := samples_law hr hc (hy q) (hx q).
  by exists D; move: e2; rewrite eZ => -[->].
pose D q := odflt 0 (epz_samples fto_x fto_y (replicate l (q + fto_y.*2).+1 (q + fto_x.*2).+1)).
have DE q : epz_samples fto_x fto_y (replicate l (q + fto_y.*2).+1 (q + fto_x.*2).+1) = Some (D q).
  by rewrite /D; have [D' [-> _]] := H q.
exists D, Z; split=> // i j.
have E q : D q i j = sampling (PI * (order_y fto_x fto_y j - order_y fto_x fto_y i) / INR (rows l * (q + fto_y.*2).+1))
            * sampling (PI * (order_x fto_x j - order_x fto_x i) / INR (cols l * (q + fto_x.*2).+1)) * Z i j.
  by have [D' [e h]] := H q; rewrite -h; move: e; rewrite DE => -[->].
have ext f g c : (forall q, f q = g q) -> climit f c -> climit g c.
  by move=> h [h1 h2]; split; [apply: is_lim_seq_ext h1|apply: is_lim_seq_ext h2] => q; rewrite h.
apply: (ext _ _ _ (fun q => esym (E q))).
rewrite -{2}[Z i j]mul1r; apply: climit_scal; rewrite -[X in climit _ X]mul1r; apply: climit_mul.
  have [h1 h2] := sampling_lim (order_y fto_x fto_y j - order_y fto_x fto_y i) hr.
  by split; [have := proj1 (is_lim_seq_incr_n _ fto_y.*2 _) h1 | have := proj1 (is_lim_seq_incr_n _ fto_y.*2 _) h2].
have [h1 h2] := sampling_lim (order_x fto_x j - order_x fto_x i) hc.
by split; [have := proj1 (is_lim_seq_incr_n _ fto_x.*2 _) h1 | have := proj1 (is_lim_seq_incr_n _ fto_x.*2 _) h2].
Qed.

(** *** The witness: two rows of index 2 and 1 *)
Definition two_rows : raster := Raster 2 1 (fun i _ => if i == 0%N then RtoC 2 else 1).

Lemma waveE m t x : (2 * PI * m * t = x)%coqR -> wave m t = cexp (- ci * RtoC x).
Proof. by move=> <-. Qed.

Lemma two_rows_coef (a b : C) c : fourier_coef2 (picture 2 1 (fun i _ => if i == 0%N then a else b)) 1 1 0 1 c ->
  c = (b - a) / (ci * RtoC PI).
Proof.
case=> g hg1 hg2.
have i1 : intr 1 by exists 1%N, 0%N; rewrite /=; ring.
have i0 : intr 0 by exists 0%N, 0%N; rewrite /=; ring.
have hP := PI_RGT_0.
have I2 : INR 2 = 2%coqR by [].
have I1 : INR 1 = 1%coqR by [].
have I0 : INR 0 = 0%coqR by [].
have w0 : wave 1 (INR 0 / INR 2) = 1.
  rewrite (@waveE _ _ 0%coqR); last by rewrite I0; field; rewrite I2; lra.
  by rewrite (_ : RtoC 0 = 0) // mulr0 cexp0.
have m1 : cexp (- ci * RtoC PI) = - 1.
  have -> : - ci * RtoC PI = (0, - PI)%coqR by cext.
  by rewrite /cexp /Re /Im /= exp_0 cos_neg sin_neg cos_PI sin_PI; cext.
have w1 : wave 1 ((INR 0 + 1) / INR 2) = - 1.
  by rewrite (@waveE _ _ PI) //; rewrite I0 I2; field.
have w1' : wave 1 (INR 1 / INR 2) = - 1.
  by rewrite (@waveE _ _ PI) //; rewrite I1 I2; field.
have w2 : wave 1 ((INR 1 + 1) / INR 2) = 1.
  by rewrite (@waveE _ _ (2 * PI * 1)%coqR); [exact: cexp_2pi | rewrite I1 I2; field].
have hl := line_coef (n := 2) (fun i => if (2 - i.+1 == 0)%N then a else b) isT i1.
have {hl} [v [ev hl]] : exists v, v = (b - a) / (ci * RtoC PI) /\
  fourier_coef (steps (pixels 2) (fun i => if (2 - i.+1 == 0)%N then a else b)) 1 1 v.
  eexists; split; last exact: hl.
  case: Req_EM_T => [|_] /=; first lra.
  rewrite !big_ord_recl big_ord0 addr0 [nat_of_ord _]/= [nat_of_ord (lift _ _)]/= w0 w1 w1' w2.
  have -> : (2 * PI * 1 = PI * 2)%coqR by ring.
  have e2 : RtoC 2 = 1 + 1 by cext.
  rewrite [X in X / _](_ : _ = (b - a) * RtoC 2); last by rewrite e2 -[LHS]/(b * (1 - - 1) + a * (- 1 - 1)); cring.
  rewrite [RtoC (PI * 2)]RtoC_mul mulrA [(ci * _ * _)^-1]invfM mulrACA mulfV ?mulr1 //.
  by apply: RtoC_neq0; lra.
rewrite -ev.
have gc t : (0 <= t < 1)%coqR -> g t = (fun _ => v) t.
  move=> ht; apply: fourier_coef_unique (hg1 t ht) hl; first lra.
  by move=> ty _; rewrite /picture /tiles.
apply: (fourier_coef_unique (f := g) (g := fun _ => v) (m := 0) Rlt_0_1) => //.
rewrite /fourier_coef; have := cint_scal v (cint_primitive 0 1 primitive_one).
rewrite (_ : RtoC 1 = 1) // (_ : RtoC 0 = 0) // subr0 mulrC; apply: cint_ext => t _.
have -> : (2 * PI * 0 * t / 1 = 0)%coqR by field.
by rewrite (_ : RtoC 0 = 0) // mulr0 cexp0 mul1r mulr1.
Qed.

Lemma orientation_differs : ~ (forall l fto_x fto_y D Z, (0 < rows l)%N -> (0 < cols l)%N ->
  (forall q, epz_samples fto_x fto_y (replicate l (q + fto_y.*2).+1 (q + fto_x.*2).+1) = Some (D q)) ->
  epz_continuous fto_x fto_y l = Some Z ->
  forall i j : 'I_(fto_y.*2.+1 * fto_x.*2.+1), climit (fun q => D q i j) (Z i j)).
Proof.
move=> H.
have [D [Z [eD eZ L]]] := @samples_limit 0 1 two_rows isT isT.
have [Z' eZ' C'] := @continuous_z 0 1 two_rows isT isT.
have [Z2 eZ2 C2] := @continuous_z 0 1 (flipud two_rows) isT isT.
move: eZ; rewrite eZ2 => -[e]; rewrite -e {e} in L.
pose i : 'I_(1.*2.+1 * 0.*2.+1) := Ordinal (isT : (1 < 3)%N).
pose j : 'I_(1.*2.+1 * 0.*2.+1) := Ordinal (isT : (2 < 3)%N).
have l1 := L i j; have l2 := H two_rows 0%N 1%N D Z' isT isT eD eZ' i j.
have e := climit_unique l1 l2.
have ox : (order_x 0 j - order_x 0 i = 0)%coqR by rewrite /order_x /=; ring.
have oy : (order_y 0 1 j - order_y 0 1 i = 1)%coqR by rewrite /order_y /=; ring.
have c1 := C' i j; have c2 := C2 i j; rewrite ox oy in c1 c2.
have v1 : Z' i j = (1 - RtoC 4) / (ci * RtoC PI).
  apply: two_rows_coef; move: c1; congr fourier_coef2.
  apply: functional_extensionality => tx; apply: functional_extensionality => ty.
  rewrite /picture /tiles /eps_of /=; case: eqP => _; last by rewrite expr1n.
  by rewrite expr2; cext.
have v2 : Z2 i j = (RtoC 4 - 1) / (ci * RtoC PI).
  apply: two_rows_coef; move: c2.
  case=> g hg1 hg2; exists g => // tx ht; move: (hg1 tx ht); apply: fourier_coef_ext => [|ty hty]; first lra.
  rewrite /picture /tiles.
  have [b hb ->] := step_pixel (n := 2) (fun _ => 0) isT hty.
  by rewrite /eps_of; case: b hb => [|[|]] //= _; rewrite ?expr1n // expr2; cext.
have hP := PI_RGT_0.
have nk : ci * RtoC PI != 0.
  apply: mulf_neq0; last by apply: RtoC_neq0; lra.
  by apply/eqP => -[]; lra.
move: e; rewrite v1 v2 => /(congr1 (fun z => z * (ci * RtoC PI))); rewrite !mulfVK // => /(congr1 Re).
by rewrite /Re; cbn; lra.
Qed.
