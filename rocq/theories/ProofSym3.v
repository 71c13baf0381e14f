(** Moving the pixels of a cell: Fourier coefficients and convolution matrices. *)
From Coq Require Import Reals Lra Psatz FunctionalExtensionality.
From mathcomp Require Import all_ssreflect ssralg ssrint matrix.
From Coquelicot Require Import Complex.
From Verif Require Import Cplx Mx Spec SpecFourier SpecSym ModelTM ModelFourier ProofFourier ProofConv ProofCell ProofInvert ProofSym2.

Set Implicit Arguments.
Unset Strict Implicit.
Unset Printing Implicit Defensive.
Local Open Scope ring_scope.
Import GRing.Theory.

(** ** Sums over pixels *)
Definition wv (n : nat) (m : R) (a : R) : C := cexp (- ci * RtoC (2 * PI * m * a / INR n)%coqR).

Lemma wvD n m a b : wv n m (a + b)%coqR = wv n m a * wv n m b.
Proof.
rewrite /wv -cexpD; congr cexp; rewrite -mulrDr; congr (_ * _); rewrite -RtoC_add; congr RtoC; rewrite /Rdiv; ring.
Qed.
Lemma wv0 n m : wv n m 0 = 1.
Proof. by rewrite /wv (_ : 2 * PI * m * 0 / INR n = 0)%coqR ?mulr0 ?cexp0 //; rewrite /Rdiv; ring. Qed.
Lemma wv_period n m (q : nat) : (0 < n)%N -> intr m -> wv n m (INR (q * n)%N) = 1.
Proof.
move=> hn hm; rewrite /wv -multE mult_INR.
have n0 : INR n <> 0%coqR by apply: not_0_INR; case: n hn.
have -> : (2 * PI * m * (INR q * INR n) / INR n = 2 * PI * (m * INR q))%coqR by field.
by apply: cexp_2pi; apply: cexp_int.
Qed.
Lemma wv_opp n m a : wv n (- m) a = wv n m (- a).
Proof. by rewrite /wv; congr (cexp (_ * RtoC _)); rewrite /Rdiv; ring. Qed.
Lemma wv_inv n m a : wv n m a * wv n m (- a) = 1.
Proof. by rewrite -wvD Rplus_opp_r wv0. Qed.

Definition psum (n : nat) (f : nat -> C) (m : R) : C := \sum_(j < n) f j * wv n m (INR j).
Lemma dftE n f m : dft n f m = psum n f m / RtoC (INR n).
Proof. by []. Qed.

Definition roll (n d : nat) (a : nat) : nat := ((a + d) %% n)%N.
Definition rev_pix (n : nat) (a : nat) : nat := (n - a.+1)%N.

Lemma roll_inj n d (hn : (0 < n)%N) : injective (fun a : 'I_n => Ordinal (ltn_pmod (a + d) hn)).
Proof.
move=> a b /(congr1 val) /= /eqP; rewrite eqn_modDr !modn_small // => /eqP e; exact: val_inj.
Qed.
Lemma psum_roll n d f m : (0 < n)%N -> intr m -> psum n (fun a => f (roll n d a)) m * wv n m (INR d) = psum n f m.
Proof.
move=> hn hm; rewrite /psum [RHS](reindex_inj (@roll_inj n d hn)) /= mulr_suml; apply: eq_bigr => a _.
rewrite /roll -mulrA; congr (_ * _).
rewrite -wvD -plus_INR plusE {1}(divn_eq (a + d) n) -plusE plus_INR wvD wv_period // mul1r.
by [].
Qed.
Lemma psum_rev n f m : (0 < n)%N -> intr m -> psum n (fun a => f (rev_pix n a)) (- m)%coqR = wv n m 1 * psum n f m.
Proof.
move=> hn hm; rewrite /psum (reindex_inj rev_ord_inj) /= mulr_sumr; apply: eq_bigr => a _.
rewrite /rev_pix mulrCA; congr (_ * _).
  by congr f; rewrite subnSK // subKn // ltnW.
have p1 : wv n m (INR n) = 1 by have := wv_period 1 hn hm; rewrite mul1n.
have p2 : wv n m (- INR n)%coqR = 1 by have := wv_inv n m (INR n); rewrite p1 mul1r.
rewrite wv_opp (_ : (- INR (n - a.+1) = - INR n + (1 + INR a))%coqR) ?wvD ?p2 ?mul1r //.
by rewrite -minusE minus_INR ?S_INR; [ring | apply/leP; exact: ltn_ord].
Qed.

(** ** Coefficients of moved rows *)
Lemma intr_sub (a b : nat) : intr (INR a - INR b)%coqR.
Proof. by exists a, b. Qed.

(** Moving pixels by [rho] relabels the orders by [tau] and multiplies the harmonics by [ps]. *)
Definition carried (t : transform) (ff : nat) (rho tau : nat -> nat) (ps : nat -> C) : Prop :=
  forall f r c, (r < ff)%N -> (c < ff)%N ->
  ocoef t (fun a => f (rho a)) (tau r) (tau c) * ps c = ps r * ocoef t f r c.

Definition rollph (n d : nat) (fto : nat) (i : nat) : C := wv n (INR i - INR fto)%coqR (INR d).
Lemma wv_mode n m m' a : wv n (m + m')%coqR a = wv n m a * wv n m' a.
Proof.
rewrite /wv -cexpD; congr cexp; rewrite -mulrDr; congr (_ * _); rewrite -RtoC_add; congr RtoC; rewrite /Rdiv; ring.
Qed.
Lemma rollphE n d fto r c : rollph n d fto c = rollph n d fto r * wv n (INR c - INR r)%coqR (INR d).
Proof. by rewrite /rollph -wv_mode; congr (wv _ _ _); ring. Qed.

Lemma fft_roll n d fto ff : (0 < n)%N -> (ff <= n)%N -> carried (fft_transform n) ff (roll n d) id (rollph n d fto).
Proof.
move=> hn hf f r c hr hc; rewrite !fft_ocoef ?(leq_trans _ hf) // !dftE (rollphE n d fto r c).
rewrite -(psum_roll d f hn (intr_sub c r)); set q := (RtoC _)^-1; cring.
Qed.

Definition revi (ff r : nat) : nat := (ff - r.+1)%N.
Lemma INR_revi ff r : (r < ff)%N -> INR (revi ff r) = (INR ff - 1 - INR r)%coqR.
Proof. by move=> h; rewrite /revi -minusE minus_INR ?S_INR; [ring | apply/leP]. Qed.
Lemma revi_lt ff r : (0 < ff)%N -> (revi ff r < ff)%N.
Proof. by rewrite /revi; case: ff => // ff _; rewrite subSS ltnS leq_subr. Qed.

Lemma fft_rev n fto ff : (0 < n)%N -> (ff <= n)%N ->
  carried (fft_transform n) ff (rev_pix n) (revi ff) (fun i => wv n (INR i - INR fto)%coqR (- 1)).
Proof.
move=> hn hf f r c hr hc; have h0 : (0 < ff)%N by case: ff hr {hf hc}.
have hv x : (revi ff x < n)%N by exact: leq_trans (revi_lt x h0) hf.
rewrite !fft_ocoef ?hv ?(leq_trans hr hf) ?(leq_trans hc hf) // !dftE !INR_revi //.
have -> : (INR ff - 1 - INR c - (INR ff - 1 - INR r) = - (INR c - INR r))%coqR by ring.
rewrite (psum_rev f hn (intr_sub c r)).
have -> : (INR c - INR fto = (INR r - INR fto) + (INR c - INR r))%coqR by ring.
rewrite wv_mode; set q := (RtoC _)^-1; have := wv_inv n (INR c - INR r) 1.
set a := wv _ _ 1; set b := wv n (INR c - INR r) (- 1) => e.
rewrite [LHS](_ : _ = (a * b) * (wv n (INR r - INR fto) (-1) * (psum n f (INR c - INR r) * q))); last by cring.
by rewrite e mul1r.
Qed.

Lemma homogeneous t k f r c : linear_t t -> ocoef t (fun a => k * f a) r c = k * ocoef t f r c.
Proof.
move=> h; have := h f f (1 - k) r c.
have -> : (fun a => f a - (1 - k) * f a) = (fun a => k * f a) by apply: functional_extensionality => a; cring.
by move=> ->; cring.
Qed.

(** On equal pixels the continuous coefficients are the discrete ones times a factor that depends on the order only. *)
Definition kf (n : nat) (m : R) : C :=
  if Req_EM_T m 0 then RtoC (/ INR n) else (1 - wv n m 1) / (ci * RtoC (2 * PI * m)).

Lemma nth_pixels n j : (j < n)%N -> nth 0%coqR (pixels n) j = ((INR j + 1) / INR n)%coqR.
Proof. by move=> h; rewrite /pixels (nth_map 0%N) ?size_iota // nth_iota. Qed.
Lemma size_pixels n : size (pixels n) = n.
Proof. by rewrite size_map size_iota. Qed.
Lemma last_pixels n : (0 < n)%N -> last 0%coqR (pixels n) = 1%coqR.
Proof.
case: n => // n _; rewrite -nth_last size_pixels; change n.+1.-1 with n; rewrite nth_pixels // S_INR; field.
by have := pos_INR n; lra.
Qed.

Lemma cfs_pixels n fto f r c : (0 < n)%N -> (r < fto.*2.+1)%N -> (c < fto.*2.+1)%N ->
  ocoef (cfs_transform (pixels n) fto) f r c = kf n (INR c - INR r) * psum n f (INR c - INR r).
Proof.
move=> hn hr hc; rewrite cfs_ocoef // last_pixels // /cfs size_pixels.
have n0 : (0 < INR n)%coqR by apply: lt_0_INR; apply/leP.
have hm : mode fto (c + fto.*2 - r) = (INR c - INR r)%coqR.
  rewrite /mode -minusE minus_INR -?plusE ?plus_INR; first ring.
  by apply/leP; apply: leq_trans (leq_addl _ _).
have hz : (c + fto.*2 - r == fto.*2)%N = (if Req_EM_T (INR c - INR r) 0 then true else false).
  case: Req_EM_T => h /=.
    have ecr : c = r by apply: INR_eq; lra.
    by rewrite {h} ecr addKn eqxx.
  apply/negbTE/eqP => e; apply: h; rewrite -hm e /mode; ring.
rewrite hz /kf; case: Req_EM_T => h; cbv beta iota delta [is_left].
  rewrite h divr1 mulr_sumr; apply: eq_bigr => j _.
  have -> : wv n 0 (INR j) = 1 by rewrite /wv (_ : 2 * PI * 0 * INR j / INR n = 0)%coqR ?mulr0 ?cexp0 //; rewrite /Rdiv; ring.
  rewrite mulr1 mulrC; congr (RtoC _ * _); rewrite /piece.
  case: j => [[|j] hj] /=; rewrite !nth_pixels ?(ltnW hj) // ?S_INR /=; field; lra.
rewrite hm mulrAC; congr (_ / _); rewrite mulrBl mul1r.
rewrite -{1}(psum_roll 1 f hn (intr_sub c r)) /psum mulr_suml mulr_sumr -sumrB; apply: eq_bigr => j _.
rewrite nth_pixels //.
have -> : cexp (- ci * RtoC (2 * PI * ((INR j + 1) / INR n) * (INR c - INR r) / 1)) = wv n (INR c - INR r) (INR j + 1).
  by rewrite /wv; congr (cexp (_ * RtoC _)); field; lra.
change (INR 1) with 1%coqR; by rewrite wvD /roll addn1; cring.
Qed.

Lemma cfs_roll n d fto : (0 < n)%N -> carried (cfs_transform (pixels n) fto) fto.*2.+1 (roll n d) id (rollph n d fto).
Proof.
move=> hn f r c hr hc; rewrite !cfs_pixels // (rollphE n d fto r c) -(psum_roll d f hn (intr_sub c r)); cring.
Qed.
Lemma cfs_rev n fto : (0 < n)%N ->
  carried (cfs_transform (pixels n) fto) fto.*2.+1 (rev_pix n) (revi fto.*2.+1) (fun _ => 1).
Proof.
move=> hn f r c hr hc; rewrite !cfs_pixels ?revi_lt // !INR_revi // mulr1 mul1r.
have -> : (INR fto.*2.+1 - 1 - INR c - (INR fto.*2.+1 - 1 - INR r) = - (INR c - INR r))%coqR by ring.
rewrite (psum_rev f hn (intr_sub c r)) mulrA; congr (_ * _).
set m := (INR c - INR r)%coqR; rewrite /kf; case: Req_EM_T => h; case: Req_EM_T => h'; try (exfalso; lra); cbv beta iota delta [is_left].
- rewrite h' (_ : wv n 0 1 = 1) ?mulr1 //.
  by rewrite /wv (_ : 2 * PI * 0 * 1 / INR n = 0)%coqR ?mulr0 ?cexp0 //; rewrite /Rdiv; ring.
have e := wv_inv n m 1; rewrite wv_opp.
have -> : RtoC (2 * PI * - m) = - RtoC (2 * PI * m) by rewrite -RtoC_opp; congr RtoC; ring.
rewrite mulrN invrN mulrN -mulNr mulrAC; congr (_ / _); rewrite mulNr mulrBl mul1r [_ * wv n m 1]mulrC e; cring.
Qed.

(** ** Relabelled matrices *)
Section Inv.
Variables (n : nat) (sg : 'I_n -> 'I_n) (ph : 'I_n -> C).
Hypothesis hsg : involutive sg.
Hypothesis h0 : forall i, ph i != 0.
Let M := mono sg ph.

Lemma mono_unit : M \in unitmx.
Proof.
pose N := mono sg (fun j => (ph (sg j))^-1).
have e : M *m N = 1%:M.
  apply/matrixP => i j; rewrite -(hsg i) mono_l // !mxE (inj_eq (inv_inj hsg)) hsg.
  by case: (i =P j) => [<-|_]; rewrite ?mulr0 // divff.
by case/mulmx1_unit: e.
Qed.
Lemma movedP A A' : moved sg ph A A' <-> A' *m M = M *m A.
Proof.
split=> [h|h]; first exact: mono_swap.
by move=> i j; rewrite -(mono_r sg ph A') -(mono_l hsg ph A) -/M h.
Qed.
Lemma moved_unit A A' : moved sg ph A A' -> (A' \in unitmx) = (A \in unitmx).
Proof.
move=> /movedP h; have := congr1 (fun X => X \in unitmx) h; by rewrite !unitmx_mul mono_unit andbT.
Qed.
Lemma moved_inv A A' : moved sg ph A A' -> moved sg ph (invmx A) (invmx A').
Proof.
move=> h; have hu := moved_unit h; case u: (A \in unitmx); rewrite u in hu; last first.
  by rewrite /invmx u hu.
move/movedP: h => h; apply/movedP.
have e : A' *m (M *m invmx A) = M by rewrite mulmxA h -mulmxA mulmxV // mulmx1.
by rewrite -{1}e mulKmx.
Qed.
End Inv.

(** ** Two-dimensional convolution matrices *)
Definition lift_n (ff : nat) (tau : nat -> nat) (i : 'I_ff) : 'I_ff := insubd i (tau i).
Lemma lift_nE ff (tau : nat -> nat) (i : 'I_ff) : (tau i < ff)%N -> lift_n tau i = tau i :> nat.
Proof. by move=> h; rewrite /lift_n val_insubd h. Qed.
Definition tau2 (fx : nat) (tx ty : nat -> nat) (i : nat) : nat := (ty (i %/ fx) * fx + tx (i %% fx))%N.

Section Four.
Variables (tx ty : transform) (nx ny fto_x fto_y : nat) (rx ry taux tauy : nat -> nat) (px py : nat -> C).
Local Notation ffx := (fto_x.*2.+1).
Local Notation ffy := (fto_y.*2.+1).
Hypotheses (ix : in_range tx ffx) (iy : in_range ty ffy) (rdx : reads tx nx) (lx : linear_t tx).
Hypotheses (cx : carried tx ffx rx taux px) (cy : carried ty ffy ry tauy py).
Hypotheses (hpx : forall i, px i != 0) (hpy : forall i, py i != 0).
Hypothesis htx : forall i, (i < ffx)%N -> (taux i < ffx)%N /\ taux (taux i) = i.
Hypothesis hty : forall i, (i < ffy)%N -> (tauy i < ffy)%N /\ tauy (tauy i) = i.

Definition sgy (i : 'I_ffy) : 'I_ffy := lift_n tauy i.
Definition sg2 (i : 'I_(ffy * ffx)) : 'I_(ffy * ffx) := lift_n (tau2 ffx taux tauy) i.
Definition ph2 (i : 'I_(ffy * ffx)) : C := py (i %/ ffx)%N * px (i %% ffx)%N.

Lemma sgyE (i : 'I_ffy) : sgy i = tauy i :> nat.
Proof. by apply: lift_nE; case: (hty (ltn_ord i)). Qed.
Lemma sgy_inv : involutive sgy.
Proof. by move=> i; apply: val_inj => /=; rewrite !sgyE; case: (hty (ltn_ord i)). Qed.
Lemma div_ord (i : 'I_(ffy * ffx)) : (i %/ ffx < ffy)%N.
Proof. exact: flat_div. Qed.
Lemma mod_ord (i : 'I_(ffy * ffx)) : (i %% ffx < ffx)%N.
Proof. by rewrite ltn_mod. Qed.
Lemma sg2E (i : 'I_(ffy * ffx)) : sg2 i = tau2 ffx taux tauy i :> nat.
Proof.
apply: lift_nE; rewrite /tau2; have [h1 _] := hty (div_ord i); have [h2 _] := htx (mod_ord i).
move: (tauy _) (taux _) h1 h2 => u v h1 h2.
apply: leq_trans (_ : u.+1 * ffx <= _)%N; first by rewrite mulSn addnC ltn_add2r.
by rewrite leq_mul2r h1 orbT.
Qed.
Lemma sg2_div (i : 'I_(ffy * ffx)) : (sg2 i %/ ffx)%N = tauy (i %/ ffx).
Proof.
by rewrite sg2E /tau2; have [h2 _] := htx (mod_ord i); move: (tauy _) (taux _) h2 => u v h2; rewrite divnMDl // (divn_small h2) addn0.
Qed.
Lemma sg2_mod (i : 'I_(ffy * ffx)) : (sg2 i %% ffx)%N = taux (i %% ffx).
Proof. by rewrite sg2E /tau2; have [h2 _] := htx (mod_ord i); move: (tauy _) (taux _) h2 => u v h2; rewrite modnMDl modn_small. Qed.
Lemma sg2_inv : involutive sg2.
Proof.
move=> i; apply: val_inj => /=; rewrite sg2E /tau2 sg2_div sg2_mod.
by have [_ ->] := hty (div_ord i); have [_ ->] := htx (mod_ord i); rewrite -divn_eq.
Qed.

Variable cell : nat -> nat -> C.
Let cell' b a := cell (ry b) (rx a).

Lemma toep_y_moved c_y a : moved sgy (fun i => py i) (toep_y ty cell c_y fto_y (rx a)) (toep_y ty cell' c_y fto_y a).
Proof.
move=> i j; rewrite !mxE !sgyE.
exact: (cy (fun b => if c_y then cell b (rx a) else (cell b (rx a))^-1) (ltn_ord i) (ltn_ord j)).
Qed.
Lemma fact_y_moved c_x c_y a : moved sgy (fun i => py i) (fact_y ty cell c_x c_y fto_y (rx a)) (fact_y ty cell' c_x c_y fto_y a).
Proof.
rewrite /fact_y; case: (_ (+) _); last exact: toep_y_moved.
by apply: moved_inv; [exact: sgy_inv|move=> i; exact: hpy|exact: toep_y_moved].
Qed.
Lemma fact_y_ent c_x c_y a r c : (r < ffy)%N -> (c < ffy)%N ->
  ent (fact_y ty cell' c_x c_y fto_y a) (tauy r) (tauy c) * py c = py r * ent (fact_y ty cell c_x c_y fto_y (rx a)) r c.
Proof.
move=> hr hc; have := fact_y_moved c_x c_y a (Ordinal hr) (Ordinal hc); rewrite -!entE.
by rewrite (sgyE (Ordinal hr)) (sgyE (Ordinal hc)).
Qed.
Lemma toep_xy_moved c_x c_y : moved sg2 ph2 (toep_xy tx ty cell c_x c_y fto_x fto_y) (toep_xy tx ty cell' c_x c_y fto_x fto_y).
Proof.
move=> i j; have hiy := div_ord i; have hjy := div_ord j; have hix := mod_ord i; have hjx := mod_ord j.
rewrite /toep_xy [X in X * _]mxE [X in _ = _ * X]mxE !sg2_div !sg2_mod /ph2.
move: (i %/ ffx)%N (j %/ ffx)%N (i %% ffx)%N (j %% ffx)%N hiy hjy hix hjx => {i j} iy' jy' ix' jx' hiy hjy hix hjx.
pose G a := ent (fact_y ty cell c_x c_y fto_y a) iy' jy'.
have e : (fun a => ent (fact_y ty cell' c_x c_y fto_y a) (tauy iy') (tauy jy')) = (fun a => py iy' / py jy' * G (rx a)).
  apply: functional_extensionality => a.
  have h := fact_y_ent c_x c_y a hiy hjy; rewrite -/(G (rx a)) in h.
  by rewrite mulrAC -h mulfK.
rewrite e homogeneous //.
rewrite [LHS](_ : _ = py iy' / py jy' * py jy' * (ocoef tx (fun a => G (rx a)) (taux ix') (taux jx') * px jx')); last by cring.
by rewrite (cx G hix hjx) mulfVK // mulrA.
Qed.

Lemma four2d_moved c_x c_y A A' : four2d tx ty nx ny cell c_x c_y fto_x fto_y = Some A ->
  four2d tx ty nx ny cell' c_x c_y fto_x fto_y = Some A' -> moved sg2 ph2 A A'.
Proof.
rewrite !four2dE //; case: ifP => // _; case: ifP => // _ h; case: ifP => // _; case: ifP => // _.
have ht := toep_xy_moved c_x c_y; case: c_x h ht => [[<-] ht [<-]|] //.
rewrite /np_inv; case: ifP => // _ [<-] ht; case: ifP => // _ [<-]; apply: moved_inv ht.
- exact: sg2_inv.
by move=> i; rewrite /ph2 mulf_neq0.
Qed.

Lemma three_moved pinv (f f' : bool -> bool -> option 'M[C]_(ffy * ffx)) c c' :
  (forall c_x c_y, f c_x c_y = four2d tx ty nx ny cell c_x c_y fto_x fto_y) ->
  (forall c_x c_y, f' c_x c_y = four2d tx ty nx ny cell' c_x c_y fto_x fto_y) ->
  three_convs pinv false f = Some c -> three_convs pinv false f' = Some c' -> moved3 sg2 ph2 c c'.
Proof.
move=> hf hf'; rewrite /three_convs !hf !hf'.
case e1: (four2d _ _ _ _ cell true true _ _) => [z|] //; case e2: (four2d _ _ _ _ cell true false _ _) => [y|] //.
case e3: (four2d _ _ _ _ cell false true _ _) => [x|] //; rewrite /meeinv; case: ifP => // _ [<-].
case e1': (four2d _ _ _ _ cell' true true _ _) => [z'|] //; case e2': (four2d _ _ _ _ cell' true false _ _) => [y'|] //.
case e3': (four2d _ _ _ _ cell' false true _ _) => [x'|] //; case: ifP => // _ [<-]; split.
- exact: four2d_moved e3 e3'.
- exact: four2d_moved e2 e2'.
apply: moved_inv (four2d_moved e1 e1'); first exact: sg2_inv.
by move=> i; rewrite /ph2 mulf_neq0.
Qed.
End Four.
