(** Convolution matrices of moved raster cells. *)
From Coq Require Import Reals Lra Lia Psatz FunctionalExtensionality.
From mathcomp Require Import all_ssreflect ssralg ssrint matrix.
From Coquelicot Require Import Complex.
From Verif Require Import Cplx Mx Spec SpecFourier SpecLayer SpecSym ModelTM ModelFourier ModelState ProofSetup ProofFourier ProofConv ProofCell ProofLayer ProofInvert
  ProofEnd ProofSym2 ProofSym3 ProofSym4.

Set Implicit Arguments.
Unset Strict Implicit.
Unset Printing Implicit Defensive.
Local Open Scope ring_scope.
Import GRing.Theory.

(** ** One axis *)
Lemma carried_ext t n ff rho rho' tau ps : reads t n -> (forall a, (a < n)%N -> rho a = rho' a) ->
  carried t ff rho tau ps -> carried t ff rho' tau ps.
Proof.
move=> hr e h f r c h1 h2; rewrite -(h f r c h1 h2); congr (_ * _).
by apply: (reads_ocoef _ _ hr) => a ha; rewrite e.
Qed.
Lemma carried_id t ff : carried t ff id id (fun _ => 1).
Proof. by move=> f r c _ _; rewrite mulr1 mul1r. Qed.

Lemma wv_conj n m a : conj (wv n m a) = wv n m (- a).
Proof.
rewrite /wv -cexp_conj; congr cexp.
have -> : (2 * PI * m * - a / INR n = - (2 * PI * m * a / INR n))%coqR by rewrite /Rdiv; ring.
by cext.
Qed.
Lemma wv_uni n m a : unimodular (wv n m a).
Proof. by rewrite /unimodular wv_conj -wvD Rplus_opp_r wv0. Qed.
Lemma uni_neq0 z : unimodular z -> z != 0.
Proof. by move=> h; apply/eqP => e; move: h; rewrite /unimodular e mul0r => /esym /eqP; rewrite oner_eq0. Qed.
Lemma uni1 : unimodular 1.
Proof. by rewrite /unimodular conj1 mulr1. Qed.

(** Phases of one axis: unimodular, 1 at order 0, and known unless the axis is reversed. *)
Definition axis_phases (m : motion) (n fto : nat) (sg : bool) (ps : nat -> C) : Prop :=
  [/\ forall i, unimodular (ps i), ps fto = 1
    & ~~ flips m -> forall i, ps i = if sg then conj (order_phase m n fto i) else order_phase m n fto i].


Lemma roll_phases n d fto sg : axis_phases (Roll d) n fto sg (fun i => if sg then conj (rollph n d fto i) else rollph n d fto i).
Proof.
split.
- move=> i; case: sg; rewrite /rollph; last exact: wv_uni.
  by rewrite wv_conj; exact: wv_uni.
- by rewrite /rollph Rminus_eq_0 (_ : wv n 0 (INR d) = 1) ?conj1 ?if_same // /wv (_ : 2 * PI * 0 * _ / _ = 0)%coqR ?mulr0 ?cexp0 //; rewrite /Rdiv; ring.
by move=> _ i; case: sg; reflexivity.
Qed.
Lemma keep_phases n fto sg : axis_phases Keep n fto sg (fun _ => 1).
Proof. by split=> // [_|_ i]; [exact: uni1|rewrite /order_phase conj1 if_same]. Qed.

Ltac natl := try apply/leP; repeat match goal with h : is_true (leq _ _) |- _ => move/leP: h end; rewrite -?plusE -?minusE; lia.
Lemma order_place_lt m ff i : (i < ff)%N -> (order_place m ff i < ff)%N /\ order_place m ff (order_place m ff i) = i.
Proof.
case: m => [|d|] //= h; split; natl.
Qed.

Lemma roll_flip n d a : (0 < n)%N -> (a < n)%N -> ((a + (n - d %% n)) %% n = n - ((n - a.+1 + d) %% n).+1)%N.
Proof.
move=> hn ha; rewrite -[in RHS]modnDmr; have := ltn_pmod d hn; move: (d %% n)%N => e he.
case: (leqP e a) => h.
  have -> : (a + (n - e) = (a - e) + n)%N by natl.
  have -> : (n - a.+1 + e = n - (a - e).+1)%N by natl.
  rewrite modnDr !modn_small; natl.
have -> : (n - a.+1 + e = (e - a.+1) + n)%N by natl.
rewrite modnDr !modn_small; natl.
Qed.

(** Continuous transform along x. *)
Lemma axis_cx m n fto : (0 < n)%N -> exists2 ps, axis_phases m n fto false ps
  & carried (cfs_transform (pixels n) fto) fto.*2.+1 (source m n) (order_place m fto.*2.+1) ps.
Proof.
move=> hn; case: m => [|d|].
- by exists (fun _ => 1); [exact: keep_phases|exact: carried_id].
- by exists (rollph n d fto); [exact: (roll_phases n d fto false)|exact: cfs_roll].
- exists (fun _ => 1); last exact: cfs_rev.
  by split=> // _; exact: uni1.
Qed.
(** ... along y, where the rows are read from the bottom. *)
Lemma axis_cy m n fto : (0 < n)%N -> exists2 ps, axis_phases m n fto true ps
  & carried (cfs_transform (pixels n) fto) fto.*2.+1 (fun b => n - (source m n (n - b.+1)).+1)%N (order_place m fto.*2.+1) ps.
Proof.
move=> hn; have rd := @cfs_reads (pixels n) fto; rewrite size_pixels in rd.
case: m => [|d|].
- exists (fun _ => 1); first exact: keep_phases.
  apply (@carried_ext _ n _ id _ (order_place Keep fto.*2.+1) _ rd); last by move=> f r c _ _; rewrite mulr1 mul1r.
  by move=> a ha /=; natl.
- exists (fun i => conj (rollph n d fto i)); first exact: (roll_phases n d fto true).
  have e : (fun i => conj (rollph n d fto i)) = rollph n (n - d %% n) fto.
    apply: functional_extensionality => i; rewrite /rollph wv_conj.
    have hm : intr (INR i - INR fto)%coqR by exists i, fto.
    rewrite -minusE minus_INR; last by apply/leP; exact: ltnW (ltn_pmod _ hn).
    have -> : (- INR d = INR n - INR (d %% n) + - INR ((d %/ n).+1 * n))%coqR.
      by rewrite {1}(divn_eq d n) mulSn -!plusE !plus_INR; ring.
    by rewrite wvD -wv_conj wv_period // conj1 mulr1.
  rewrite e; apply (@carried_ext _ n _ (roll n (n - d %% n)) _ (order_place (Roll d) fto.*2.+1) _ rd); last exact (@cfs_roll n _ fto hn).
  by move=> a ha /=; exact: roll_flip.
- exists (fun _ => 1); first by split=> // _; exact: uni1.
  apply (@carried_ext _ n _ (rev_pix n) _ (order_place Reverse fto.*2.+1) _ rd); last exact (@cfs_rev n fto hn).
  by move=> a ha /=; rewrite /rev_pix; natl.
Qed.

(** Discrete transform of a cell of [n * r] samples, [r] per pixel. *)
Lemma axis_d m n r fto : (0 < n)%N -> (0 < r)%N -> (fto.*2.+1 <= n * r)%N -> exists2 ps, axis_phases m n fto false ps
  & exists2 rho, (forall b, rho b %/ r = source m n (b %/ r))%N
               & carried (fft_transform (n * r)) fto.*2.+1 rho (order_place m fto.*2.+1) ps.
Proof.
move=> hn hr hf; have hnr : (0 < n * r)%N by rewrite muln_gt0 hn.
have n0 : INR n <> 0%coqR by apply: not_0_INR; case: n hn {hf hnr}.
have r0 : INR r <> 0%coqR by apply: not_0_INR; case: r hr {hf hnr}.
case: m => [|d|].
- exists (fun _ => 1); first exact: keep_phases.
  by exists id => //; move=> f x c _ _; rewrite mulr1 mul1r.
- exists (rollph n d fto); first exact: (roll_phases n d fto false).
  exists (roll (n * r) (d * r)).
    by move=> b /=; rewrite /roll -{1}[(b + d * r)%N]/(b + d * r)%N divn_modl ?dvdn_mull // divnDr ?dvdn_mull // !mulnK.
  have -> : rollph n d fto = rollph (n * r) (d * r) fto.
    apply: functional_extensionality => i; rewrite /rollph /wv; congr (cexp (_ * RtoC _)).
    by rewrite -!multE !mult_INR; field.
  exact (@fft_roll (n * r) (d * r) fto _ hnr hf).
- exists (fun i => wv (n * r) (INR i - INR fto)%coqR (- 1)).
    split=> // [i|]; first exact: wv_uni.
    by rewrite Rminus_eq_0 /wv (_ : 2 * PI * 0 * _ / _ = 0)%coqR ?mulr0 ?cexp0 //; rewrite /Rdiv; ring.
  exists (rev_pix (n * r)); last exact (@fft_rev (n * r) fto _ hnr hf).
  move=> b; rewrite /rev_pix /=; case: (ltnP b (n * r)) => hb; last first.
    rewrite (_ : (n * r - b.+1)%N = 0%N); last by apply/eqP; rewrite subn_eq0 ltnW.
    by rewrite div0n; apply/esym/eqP; rewrite subn_eq0 ltnW // ltnS leq_divRL.
  have hq : (b %/ r < n)%N by rewrite ltn_divLR.
  have hm : (b %% r < r)%N by rewrite ltn_mod.
  have -> : (n * r - b.+1 = (n - (b %/ r).+1) * r + (r - (b %% r).+1))%N.
    rewrite {1}(divn_eq b r) mulnBl mulSn; have le : (r + b %/ r * r <= n * r)%N by rewrite -mulSn leq_mul2r hq orbT.
    by move: (b %/ r * r)%N (b %% r)%N (n * r)%N hm le => u v w hm le; natl.
  rewrite divnMDl // (@divn_small (r - (b %% r).+1)) ?addn0 //; natl.
Qed.

(** ** The convolution matrices *)
Lemma enlarge_moved e fx fy ny nx : exists ry rx : nat, (0 < ry)%N /\ (0 < rx)%N /\ forall f,
  [/\ rows (enlarge e fx fy (Raster ny nx f)) = (ny * ry)%N, cols (enlarge e fx fy (Raster ny nx f)) = (nx * rx)%N
    & forall i j, px (enlarge e fx fy (Raster ny nx f)) i j = f (i %/ ry)%N (j %/ rx)%N].
Proof.
rewrite /enlarge /=; set my := if e then _ else _; set mx := if e then _ else _.
exists (if (ny < my)%N then (my %/ ny).+1 else 1%N), (if (nx < mx)%N then (mx %/ nx).+1 else 1%N).
split; first by case: ifP.
split; first by case: ifP.
by move=> f; case h: (ny < my)%N => /=; case h': (nx < mx)%N => /=; rewrite ?muln1; split=> // i j; rewrite ?divn1.
Qed.

Lemma source_lt m n a : (0 < n)%N -> (a < n)%N -> (source m n a < n)%N.
Proof. by case: m => [|d|] hn ha //=; [exact: ltn_pmod|natl]. Qed.
Lemma flip_lt n b : (0 < n)%N -> (n - b.+1 < n)%N.
Proof. by move=> h; natl. Qed.
Lemma flip_flip n z : (z < n)%N -> (n - (n - z.+1).+1 = z)%N.
Proof. by move=> h; natl. Qed.

Section Cells.
Variable pinv : forall n, 'M[C]_n -> 'M[C]_n.
Variables (my mx : motion) (ny nx fx fy : nat).
Hypothesis hny : (0 < ny)%N.
Hypothesis hnx : (0 < nx)%N.
Local Notation ffx := (fx.*2.+1).
Local Notation ffy := (fy.*2.+1).
Definition move_px (f : nat -> nat -> C) : nat -> nat -> C := fun i j => f (source my ny i) (source mx nx j).
Let sg := sg2 (fto_x := fx) (fto_y := fy) (order_place mx ffx) (order_place my ffy).
Definition moved_by (px py : nat -> C) (c c' : conv3 (ffy * ffx)) : Prop :=
  moved3 sg (ph2 (fto_x := fx) (fto_y := fy) px py) c c'.

Lemma continuous_moved : exists px py, [/\ axis_phases mx nx fx false px, axis_phases my ny fy true py
  & forall f c c', conv_continuous pinv false fx fy (Raster ny nx f) = Some c ->
     conv_continuous pinv false fx fy (Raster ny nx (move_px f)) = Some c' -> moved_by px py c c'].
Proof.
have [px ax cx] := axis_cx mx fx hnx; have [py ay cy] := axis_cy my fy hny.
exists px, py; split=> // f c c'; rewrite !continuous_uncompressed //.
have rdx := @cfs_reads (pixels nx) fx; rewrite size_pixels in rdx.
have hux i : px i != 0 by apply: uni_neq0; case: ax.
have huy i : py i != 0 by apply: uni_neq0; case: ay.
refine (@three_moved _ _ _ ny _ _ _ _ _ _ _ _ (@cfs_in_range _ fx) (@cfs_in_range _ fy) rdx (@cfs_linear _ fx) cx cy hux huy
  (fun i => @order_place_lt mx _ i) (fun i => @order_place_lt my _ i) (eps_of (flipud (Raster ny nx f))) _ _ _ _ _ _ _) => c_x c_y.
  by rewrite /cfs2d !size_pixels.
have E : eps_of (flipud (Raster ny nx (move_px f)))
    = fun b a => eps_of (flipud (Raster ny nx f)) (ny - (source my ny (ny - b.+1)).+1)%N (source mx nx a).
  apply: functional_extensionality => b; apply: functional_extensionality => a; rewrite /eps_of /= /move_px.
  by rewrite flip_flip // source_lt // flip_lt.
by rewrite /cfs2d !size_pixels E.
Qed.

Lemma discrete_moved e : exists px py, [/\ axis_phases mx nx fx false px, axis_phases my ny fy false py
  & forall f c c', conv_discrete pinv false e fx fy (Raster ny nx f) = Some c ->
     conv_discrete pinv false e fx fy (Raster ny nx (move_px f)) = Some c' -> moved_by px py c c'].
Proof.
have [ry [rx [hry [hrx he]]]] := enlarge_moved e fx fy ny nx.
have [r1 r2 _] := he (fun _ _ => 0).
have [h1 h2] := enlarge_size e fx fy (l := Raster ny nx (fun _ _ => 0)) hny hnx; rewrite r1 r2 in h1 h2.
have hx : (ffx <= nx * rx)%N by apply: dbl_lt.
have hy : (ffy <= ny * ry)%N by apply: dbl_lt.
have [px ax [rhx ex cx]] := axis_d mx hnx hrx hx; have [py ay [rhy ey cy]] := axis_d my hny hry hy.
exists px, py; split=> // f c c'; rewrite /conv_discrete.
have [e1 e2 e3] := he f; have [e1' e2' e3'] := he (move_px f).
have hux i : px i != 0 by apply: uni_neq0; case: ax.
have huy i : py i != 0 by apply: uni_neq0; case: ay.
refine (@three_moved _ _ _ (ny * ry) _ _ _ _ _ _ _ _ (fft_in_range hx) (fft_in_range hy) (@fft_reads _) (@fft_linear _) cx cy hux huy
  (fun i => @order_place_lt mx _ i) (fun i => @order_place_lt my _ i) (eps_of (enlarge e fx fy (Raster ny nx f))) _ _ _ _ _ _ _) => c_x c_y.
  by rewrite /dfs2d e1 e2.
have E : eps_of (enlarge e fx fy (Raster ny nx (move_px f)))
    = fun b a => eps_of (enlarge e fx fy (Raster ny nx f)) (rhy b) (rhx a).
  by apply: functional_extensionality => b; apply: functional_extensionality => a; rewrite /eps_of e3 e3' /move_px ey ex.
by rewrite /dfs2d e1' e2' E.
Qed.
End Cells.
