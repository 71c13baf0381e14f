(** C14 for the three permittivity matrices: the factorisation rules. *)
From Coq Require Import Reals Lra Lia FunctionalExtensionality.
From Coquelicot Require Import Complex RInt Hierarchy.
From mathcomp Require Import all_ssreflect ssralg ssrint matrix.
From Verif Require Import Cplx Mx Spec SpecFourier ModelTM SpecSolve ModelFourier SpecLayer ProofFourier ProofConv ProofCell ProofLayer.

Set Implicit Arguments.
Unset Strict Implicit.
Unset Printing Implicit Defensive.
Local Open Scope ring_scope.
Import GRing.Theory.

Lemma has_last (P : pred R) a x : P (last a x) -> (0 < size x)%N -> has P x.
Proof. by case/lastP: x => // x z; rewrite last_rcons has_rcons => ->. Qed.
Lemma covers_find x p t : covers x p -> (t < p)%coqR -> (find (rlt t) x < size x)%N.
Proof.
case=> _ hl hp ht; rewrite -has_find; apply: (@has_last _ 0%coqR).
  by rewrite hl /rlt; case: Rlt_dec.
by case: x hl => //= hl; move: hp; rewrite -hl; lra.
Qed.

Section Rules.
Variables (x y : seq R) (pxx pyy : R) (cell : nat -> nat -> C) (fto_x fto_y : nat).
Hypotheses (hx : covers x pxx) (hy : covers y pyy).
Let ff_x := fto_x.*2.+1.
Let ff_y := fto_y.*2.+1.

Lemma toep_y_coef cy tx (r c : 'I_ff_y) :
  fourier_coef (fun ty => if cy then tiles x y cell tx ty else (tiles x y cell tx ty)^-1) pyy (INR c - INR r)
    (toep_y (cfs_transform y fto_y) cell cy fto_y (find (rlt tx) x) r c).
Proof.
rewrite mxE cfs_ocoef //.
have -> : last 0%coqR y = pyy by case: hy.
have -> : (INR c - INR r)%coqR = mode fto_y (c + fto_y.*2 - r)%N by rewrite mode_swap.
have := cfs_fourier fto_y (fun b => if cy then cell b (find (rlt tx) x) else (cell b (find (rlt tx) x))^-1)
          (c + fto_y.*2 - r)%N hy.
by congr fourier_coef; apply: functional_extensionality => ty; rewrite /steps /tiles; case: cy.
Qed.

Lemma toep_xy_coef cx cy (i j : 'I_(ff_y * ff_x)) :
  fourier_coef (fun tx => fact_y (cfs_transform y fto_y) cell cx cy fto_y (find (rlt tx) x)
                            (inord (i %/ ff_x)) (inord (j %/ ff_x))) pxx
    (order_x fto_x j - order_x fto_x i)
    (toep_xy (cfs_transform x fto_x) (cfs_transform y fto_y) cell cx cy fto_x fto_y i j).
Proof.
have hi := flat_div (ltn_ord i); have hj := flat_div (ltn_ord j).
rewrite mxE cfs_ocoef ?ltn_mod //.
have -> : last 0%coqR x = pxx by case: hx.
have -> : (order_x fto_x j - order_x fto_x i)%coqR = mode fto_x (j %% ff_x + fto_x.*2 - i %% ff_x)%N.
  by rewrite mode_swap ?ltn_mod // /order_x -/ff_x; ring.
have := cfs_fourier fto_x (fun a => ent (fact_y (cfs_transform y fto_y) cell cx cy fto_y a) (i %/ ff_x) (j %/ ff_x))
          (j %% ff_x + fto_x.*2 - i %% ff_x)%N hx.
congr fourier_coef; apply: functional_extensionality => tx; rewrite /steps.
by rewrite -entE /= !inordK.
Qed.

Lemma cfs2d_epy M : cfs2d cell x y true false fto_x fto_y = Some M ->
  exists2 Y : R -> 'M[C]_ff_y,
    (forall tx, (0 <= tx < pxx)%coqR -> Y tx \in unitmx /\
       forall r c : 'I_ff_y, fourier_coef (fun ty => (tiles x y cell tx ty)^-1) pyy (INR c - INR r) (Y tx r c)) &
    forall i j : 'I_(ff_y * ff_x), fourier_coef (fun tx => invmx (Y tx) (inord (i %/ ff_x)) (inord (j %/ ff_x))) pxx
                  (order_x fto_x j - order_x fto_x i) (M i j).
Proof.
rewrite /cfs2d four2dE; try exact: cfs_in_range; try exact: cfs_reads.
case: ifP => //= _; case: ifP => // /negbT; rewrite negbK => /allP hu [<-].
exists (fun tx => toep_y (cfs_transform y fto_y) cell false fto_y (find (rlt tx) x)).
  move=> tx ht; split; last by move=> r c; exact: (toep_y_coef false).
  by apply: hu; rewrite mem_iota /=; apply: covers_find hx _; lra.
by move=> i j; exact: (toep_xy_coef true false).
Qed.

Lemma cfs2d_epx M : cfs2d cell x y false true fto_x fto_y = Some M ->
  exists2 Y : R -> 'M[C]_ff_y,
    (forall tx, (0 <= tx < pxx)%coqR -> Y tx \in unitmx /\
       forall r c : 'I_ff_y, fourier_coef (fun ty => tiles x y cell tx ty) pyy (INR c - INR r) (Y tx r c)) &
    M \in unitmx /\
    forall i j : 'I_(ff_y * ff_x), fourier_coef (fun tx => invmx (Y tx) (inord (i %/ ff_x)) (inord (j %/ ff_x))) pxx
                  (order_x fto_x j - order_x fto_x i) (invmx M i j).
Proof.
rewrite /cfs2d four2dE; try exact: cfs_in_range; try exact: cfs_reads.
rewrite /=; case: ifP => // /negbT; rewrite negbK => /allP hu.
rewrite /np_inv; case: ifP => // um [<-].
exists (fun tx => toep_y (cfs_transform y fto_y) cell true fto_y (find (rlt tx) x)).
  move=> tx ht; split; last by move=> r c; exact: (toep_y_coef true).
  by apply: hu; rewrite mem_iota /=; apply: covers_find hx _; lra.
split; first by rewrite unitmx_inv.
by move=> i j; rewrite invmxK; exact: (toep_xy_coef false true).
Qed.
End Rules.

(** The discrete transform: the same with samples for integrals. *)
Section DRules.
Variables (nx ny : nat) (cell : nat -> nat -> C) (fto_x fto_y : nat).
Hypotheses (hx : (fto_x.*2 < nx)%N) (hy : (fto_y.*2 < ny)%N).
Let ff_x := fto_x.*2.+1.
Let ff_y := fto_y.*2.+1.

Lemma dtoep_y_coef cy a (r c : 'I_ff_y) :
  toep_y (fft_transform ny) cell cy fto_y a r c
  = dft ny (fun b => if cy then cell b a else (cell b a)^-1) (INR c - INR r).
Proof. by rewrite mxE fft_ocoef //; apply: leq_trans hy. Qed.

Lemma dtoep_xy_coef cx cy (i j : 'I_(ff_y * ff_x)) :
  toep_xy (fft_transform nx) (fft_transform ny) cell cx cy fto_x fto_y i j
  = dft nx (fun a => fact_y (fft_transform ny) cell cx cy fto_y a (inord (i %/ ff_x)) (inord (j %/ ff_x)))
      (order_x fto_x j - order_x fto_x i).
Proof.
have hi := flat_div (ltn_ord i); have hj := flat_div (ltn_ord j).
rewrite mxE fft_ocoef; try by apply: leq_trans hx; rewrite ltn_mod.
have -> : (order_x fto_x j - order_x fto_x i)%coqR = (INR (j %% ff_x) - INR (i %% ff_x))%coqR.
  by rewrite /order_x -/ff_x; ring.
congr dft; apply: functional_extensionality => a.
by rewrite -entE /= !inordK.
Qed.

Lemma dfs2d_epy M : dfs2d ny nx cell true false fto_x fto_y = Some M ->
  exists2 Y : nat -> 'M[C]_ff_y,
    (forall a, (a < nx)%N -> Y a \in unitmx /\
       forall r c : 'I_ff_y, Y a r c = dft ny (fun b => (cell b a)^-1) (INR c - INR r)) &
    forall i j : 'I_(ff_y * ff_x), M i j = dft nx (fun a => invmx (Y a) (inord (i %/ ff_x)) (inord (j %/ ff_x)))
                          (order_x fto_x j - order_x fto_x i).
Proof.
rewrite /dfs2d four2dE; try exact: fft_in_range; try exact: fft_reads.
case: ifP => //= _; case: ifP => // /negbT; rewrite negbK => /allP hu [<-].
exists (fun a => toep_y (fft_transform ny) cell false fto_y a).
  move=> a ha; split; last by move=> r c; exact: (dtoep_y_coef false).
  by apply: hu; rewrite mem_iota.
by move=> i j; exact: (dtoep_xy_coef true false).
Qed.

Lemma dfs2d_epx M : dfs2d ny nx cell false true fto_x fto_y = Some M ->
  exists2 Y : nat -> 'M[C]_ff_y,
    (forall a, (a < nx)%N -> Y a \in unitmx /\
       forall r c : 'I_ff_y, Y a r c = dft ny (fun b => cell b a) (INR c - INR r)) &
    M \in unitmx /\
    forall i j : 'I_(ff_y * ff_x), invmx M i j = dft nx (fun a => invmx (Y a) (inord (i %/ ff_x)) (inord (j %/ ff_x)))
                          (order_x fto_x j - order_x fto_x i).
Proof.
rewrite /dfs2d four2dE; try exact: fft_in_range; try exact: fft_reads.
rewrite /=; case: ifP => // /negbT; rewrite negbK => /allP hu.
rewrite /np_inv; case: ifP => // um [<-].
exists (fun a => toep_y (fft_transform ny) cell true fto_y a).
  move=> a ha; split; last by move=> r c; exact: (dtoep_y_coef true).
  by apply: hu; rewrite mem_iota.
split; first by rewrite unitmx_inv.
by move=> i j; rewrite invmxK; exact: (dtoep_xy_coef false true).
Qed.
End DRules.

(** ** Layers *)
Lemma three_inv pinv n (f : bool -> bool -> option 'M[C]_n) ex ey ezi :
  three_convs pinv false f = Some (ex, ey, ezi) ->
  exists2 Z, [/\ f true true = Some Z, f true false = Some ey & f false true = Some ex] & Z \in unitmx /\ ezi = invmx Z.
Proof.
rewrite /three_convs; case e1: (f true true) => [z|] //; case e2: (f true false) => [y|] //; case e3: (f false true) => [x|] //.
by rewrite /meeinv; case: ifP => // hz [<- <- <-]; exists z.
Qed.

Lemma continuous_rules pinv fto_x fto_y l ex ey ezi : (0 < rows l)%N -> (0 < cols l)%N ->
  conv_continuous pinv false fto_x fto_y l = Some (ex, ey, ezi) ->
  let f := picture (rows l) (cols l) (eps_of l) in
  [/\ exists2 Z, z_rule f Z & Z \in unitmx /\ ezi = invmx Z, y_rule f ey & x_rule f ex].
Proof.
move=> hr hc; rewrite continuous_uncompressed // => /three_inv [Z [ez ey' ex'] hz] f.
have cx : covers (pixels (cols l)) 1 by rewrite pixelsE //; case: (full_ok hc).
have cy : covers (pixels (rows l)) 1 by rewrite pixelsE //; case: (full_ok hr).
split.
- exists Z => // i j; have [Z' e H] := cfs2d_z (eps_of (flipud l)) fto_x fto_y cx cy.
  by move: e; rewrite ez => -[->]; exact: H.
- have [Y h1 h2] := cfs2d_epy cx cy ey'; exists Y => // tx ht; exact: h1.
have [Y h1 [h2 h3]] := cfs2d_epx cx cy ex'; split=> //; exists Y => // tx ht; exact: h1.
Qed.

Lemma vector_rules pinv fto_x fto_y l x y ex ey ezi : covers x 1 -> covers y 1 ->
  conv_vector pinv false fto_x fto_y (l, x, y) = Some (ex, ey, ezi) ->
  let f := tiles x y (eps_of l) in
  [/\ exists2 Z, z_rule f Z & Z \in unitmx /\ ezi = invmx Z, y_rule f ey & x_rule f ex].
Proof.
move=> cx cy /three_inv [Z [ez ey' ex'] hz] f; split.
- exists Z => // i j; have [Z' e H] := cfs2d_z (eps_of l) fto_x fto_y cx cy.
  by move: e; rewrite ez => -[->]; exact: H.
- have [Y h1 h2] := cfs2d_epy cx cy ey'; exists Y => // tx ht; exact: h1.
have [Y h1 [h2 h3]] := cfs2d_epx cx cy ex'; split=> //; exists Y => // tx ht; exact: h1.
Qed.

Lemma discrete_rules pinv e fto_x fto_y l ex ey ezi : (0 < rows l)%N -> (0 < cols l)%N ->
  conv_discrete pinv false e fto_x fto_y l = Some (ex, ey, ezi) ->
  let l' := enlarge e fto_x fto_y l in let f a b := eps_of l' b a in
  [/\ exists2 Z, z_rule_d (cols l') (rows l') f Z & Z \in unitmx /\ ezi = invmx Z,
      y_rule_d (cols l') (rows l') f ey & x_rule_d (cols l') (rows l') f ex].
Proof.
move=> hr hc; have [h1 h2] := enlarge_size e fto_x fto_y hr hc => /three_inv [Z [ez ey' ex'] hz] l' f.
have hx : (fto_x.*2 < cols l')%N by apply: dbl_lt.
have hy : (fto_y.*2 < rows l')%N by apply: dbl_lt.
split.
- exists Z => // i j; move: ez; rewrite dfs2d_z // => -[<-]; by rewrite mxE.
- have [Y k1 k2] := dfs2d_epy hx hy ey'; exists Y => // a ha; exact: k1.
have [Y k1 [k2 k3]] := dfs2d_epx hx hy ex'; split=> //; exists Y => // a ha; exact: k1.
Qed.

(** ** C19: different orders use different coefficients *)
Lemma no_alias n fto r c r' c' i : (fto.*2.*2 < n)%N ->
  (r < fto.*2.+1)%N -> (c < fto.*2.+1)%N -> (r' < fto.*2.+1)%N -> (c' < fto.*2.+1)%N ->
  pyidx n (circulant r c + 0) = Some i -> pyidx n (circulant r' c' + 0) = Some i ->
  (INR c - INR r = INR c' - INR r')%coqR.
Proof.
move=> hn hr hc hr' hc'.
have e k : (k < fto.*2.+1)%N -> (k < n)%N.
  by move=> hk; apply: leq_ltn_trans hn; rewrite -[fto.*2.*2]addnn; apply: leq_trans (leq_addl _ _).
rewrite !fft_pyidx; try exact: e.
move: hn hr hc hr' hc'; rewrite !ltnS -!addnn => hn hr hc hr' hc' [<-] [h].
suff : (c + r' = c' + r)%N by move/(congr1 INR); rewrite -!plusE !plus_INR; lra.
move: hn hr hc hr' hc' h.
case: (leqP r c) => h1; case: (leqP r' c') => h2; rewrite -!plusE -!minusE; move=> /ltP ? /leP ? /leP ? /leP ? /leP ?;
  move: h1 h2 => /leP ? /leP ?; lia.
Qed.
