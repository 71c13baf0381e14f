(** Convolution matrices are unchanged by reversing the orders and transposing. *)
From Coq Require Import Reals Lra Lia FunctionalExtensionality.
From mathcomp Require Import all_ssreflect ssralg ssrint matrix.
From Coquelicot Require Import Complex.
From Verif Require Import Cplx Mx Spec SpecSym ModelTM ModelFourier ModelVec ModelState ProofSetup ProofFourier ProofConv ProofCell ProofLayer ProofInvert
  ProofEnd ProofSym2 ProofSym3 ProofSym4 ProofSym5 ProofSym6 ProofRecip.

Set Implicit Arguments.
Unset Strict Implicit.
Unset Printing Implicit Defensive.
Local Open Scope ring_scope.
Import GRing.Theory.

Local Notation rv ff := (order_place Reverse ff).

Lemma circulant_rev ff r c : (r < ff)%N -> (c < ff)%N -> circulant (rv ff c) (rv ff r) = circulant r c.
Proof.
move=> hr hc; rewrite /circulant /= -!subzn // opprB addrA subrK !intS opprD addrACA subrr add0r addrC.
by [].
Qed.
Lemma ocoef_rev t v ff r c : (r < ff)%N -> (c < ff)%N -> ocoef t v (rv ff c) (rv ff r) = ocoef t v r c.
Proof. by move=> hr hc; rewrite /ocoef circulant_rev. Qed.

Section Inv.
Variables (n : nat) (sg : 'I_n -> 'I_n).
Hypothesis hsg : involutive sg.
Lemma rev_of_J (A A' : 'M[C]_n) : A^T *m J sg = J sg *m A' -> reversed sg A A'.
Proof.
move=> /matrixP h i j; have := h (sg (sg i)) (sg j).
by rewrite mono_l // mul1r mono_r mulr1 !hsg mxE => ->.
Qed.
Lemma rev_inv (A : 'M[C]_n) : reversed sg A A -> reversed sg (invmx A) (invmx A).
Proof.
move=> h; case u: (A \in unitmx); last by rewrite /invmx u.
apply: rev_of_J; have e := J_rev hsg h.
have ut : A^T \in unitmx by rewrite unitmx_tr.
rewrite trmx_inv; apply: (can_inj (mulKmx ut)); rewrite mulKVmx // mulmxA e -mulmxA mulmxV // mulmx1.
by [].
Qed.
End Inv.

Section Four.
Variables (tx ty : transform) (nx ny fto_x fto_y : nat) (cell : nat -> nat -> C).
Local Notation ffx := (fto_x.*2.+1).
Local Notation ffy := (fto_y.*2.+1).
Hypotheses (ix : in_range tx ffx) (iy : in_range ty ffy) (rdx : reads tx nx).
Let hlt ff i : (i < ff)%N -> (rv ff i < ff)%N /\ rv ff (rv ff i) = i := @order_place_lt Reverse ff i.
Definition sgr : 'I_(ffy * ffx) -> 'I_(ffy * ffx) := sg2 (fto_x := fto_x) (fto_y := fto_y) (rv ffx) (rv ffy).
Let sy : 'I_ffy -> 'I_ffy := sgy (fto_y := fto_y) (rv ffy).
Lemma sgr_inv : involutive sgr. Proof. by apply: sg2_inv => i; exact: hlt. Qed.
Let sy_inv : involutive sy. Proof. by apply: sgy_inv => i; exact: hlt. Qed.

Lemma toep_y_rev c_y a : reversed sy (toep_y ty cell c_y fto_y a) (toep_y ty cell c_y fto_y a).
Proof. by move=> i j; rewrite !mxE !sgyE; try (by move=> k; exact: hlt); rewrite ocoef_rev. Qed.
Lemma fact_y_rev c_x c_y a : reversed sy (fact_y ty cell c_x c_y fto_y a) (fact_y ty cell c_x c_y fto_y a).
Proof. by rewrite /fact_y; case: (_ (+) _); [apply: rev_inv => //|]; exact: toep_y_rev. Qed.
Lemma fact_y_ent_rev c_x c_y a r c : (r < ffy)%N -> (c < ffy)%N ->
  ent (fact_y ty cell c_x c_y fto_y a) (rv ffy r) (rv ffy c) = ent (fact_y ty cell c_x c_y fto_y a) c r.
Proof.
move=> hr hc; have := fact_y_rev c_x c_y a (Ordinal hr) (Ordinal hc); rewrite -!entE.
by rewrite !sgyE //; move=> k; exact: hlt.
Qed.
Lemma toep_xy_rev c_x c_y : reversed sgr (toep_xy tx ty cell c_x c_y fto_x fto_y) (toep_xy tx ty cell c_x c_y fto_x fto_y).
Proof.
move=> i j; rewrite /toep_xy [LHS]mxE [RHS]mxE /sgr !sg2_div; try (by move=> k; exact: hlt).
rewrite !sg2_mod; try (by move=> k; exact: hlt).
rewrite ocoef_rev ?mod_ord //; congr (ocoef tx _ _ _).
by apply: functional_extensionality => a; rewrite fact_y_ent_rev // div_ord.
Qed.
Lemma four2d_rev c_x c_y A : four2d tx ty nx ny cell c_x c_y fto_x fto_y = Some A -> reversed sgr A A.
Proof.
rewrite four2dE //; case: ifP => // _; case: ifP => // _.
have ht := toep_xy_rev c_x c_y; case: c_x ht => [ht [<-]|] //.
by rewrite /np_inv; case: ifP => // _ ht [<-]; apply: rev_inv ht; exact: sgr_inv.
Qed.
Lemma three_rev pinv (f : bool -> bool -> option 'M[C]_(ffy * ffx)) c :
  (forall c_x c_y, f c_x c_y = four2d tx ty nx ny cell c_x c_y fto_x fto_y) ->
  three_convs pinv false f = Some c -> reversed3 sgr c c.
Proof.
move=> hf; rewrite /three_convs !hf.
case e1: (four2d _ _ _ _ _ true true _ _) => [z|] //; case e2: (four2d _ _ _ _ _ true false _ _) => [y|] //.
case e3: (four2d _ _ _ _ _ false true _ _) => [x|] //; rewrite /meeinv; case: ifP => // _ [<-]; split.
- exact: four2d_rev e3.
- exact: four2d_rev e2.
by apply: rev_inv (four2d_rev e1); exact: sgr_inv.
Qed.
End Four.

(** ** Every kind of cell *)
Section Cells.
Variable pinv : forall n, 'M[C]_n -> 'M[C]_n.
Variables (fx fy : nat).

Lemma vector_rev v c : conv_vector pinv false fx fy v = Some c -> reversed3 (@sgr fx fy) c c.
Proof.
case: v => [[l x] y] h.
exact (@three_rev (cfs_transform x fx) (cfs_transform y fy) (size x) (size y) fx fy (eps_of l) (@cfs_in_range x fx) (@cfs_in_range y fy)
  (@cfs_reads x fx) pinv _ c (fun _ _ => erefl) h).
Qed.
Lemma continuous_rev l c : conv_continuous pinv false fx fy l = Some c -> reversed3 (@sgr fx fy) c c.
Proof.
rewrite /conv_continuous; case e: (cell_compression l) => [[l' x] y] h.
exact (@vector_rev (l', x, y) c h).
Qed.
Lemma discrete_rev e l c : (0 < rows l)%N -> (0 < cols l)%N ->
  conv_discrete pinv false e fx fy l = Some c -> reversed3 (@sgr fx fy) c c.
Proof.
move=> h1 h2 h; have [k1 k2] := enlarge_size e fx fy h1 h2.
exact (@three_rev (fft_transform _) (fft_transform _) _ _ fx fy (eps_of (enlarge e fx fy l)) (fft_in_range (dbl_lt k2))
  (fft_in_range (dbl_lt k1)) (@fft_reads _) pinv _ c (fun _ _ => erefl) h).
Qed.
Lemma conv_all_P (A B : Type) (f : A -> option B) (P : B -> Prop) ls cs : (forall l c, List.In l ls -> f l = Some c -> P c) ->
  conv_all f ls = Some cs -> forall c, List.In c cs -> P c.
Proof.
elim: ls cs => [|l ls IH] cs h /=; first by move=> [<-].
case e1: (f l) => [c|] //; case e2: (conv_all f ls) => [d|] // [<-] a /= [<-|ha]; first by apply: h e1; left.
by apply: (IH d) => // l' c' hl; apply: h; right.
Qed.
Lemma convs_rev o cs : o_use_pinv o = false -> convs_of pinv o fx fy = Some cs -> all2p (reversed3 (@sgr fx fy)) cs cs.
Proof.
move=> hu h; suff : forall c, List.In c cs -> reversed3 (@sgr fx fy) c c.
  by elim: cs {h} => [|c cs IH] //= h; split; [apply: h; left|apply: IH => d hd; apply: h; right].
move: h; rewrite /convs_of hu; case: (o_mtype o) => [[]|] //.
  case: (o_cell o) => // ins; case: (period_of o) => [[px py]|] //; case: (vector_layers _ _ _) => [vs|] //.
  by apply: conv_all_P => l c _; exact: vector_rev.
case: (o_cell o) => // ny nx ls; case: eqP => // ny0; case: eqP => //= nx0; case: ifP => _; last case: ifP => // _.
  by apply: conv_all_P => l c /List.in_map_iff [f [<- _]]; apply: discrete_rev; rewrite lt0n; apply/eqP.
by apply: conv_all_P => l c _; exact: continuous_rev.
Qed.
End Cells.

Lemma crop_rev m n (sg : 'I_m -> 'I_m) (sg' : 'I_n -> 'I_n) (c c' : conv3 m) : m = n ->
  (forall (i : 'I_m) (i' : 'I_n), i = i' :> nat -> sg i = sg' i' :> nat) ->
  reversed3 sg c c' -> reversed3 sg' (crop3 n c) (crop3 n c').
Proof.
move=> e; case: n / e sg' => sg' h; case: c => [[a b] d]; case: c' => [[a' b'] d'] [h1 h2 h3].
have hs i : sg' i = sg i by apply: val_inj; rewrite /= -(h i i erefl).
by rewrite /crop3 !crop_id; split=> i j; rewrite !hs.
Qed.
