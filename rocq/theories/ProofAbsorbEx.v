(** A stack with an absorbing grating between lossless ones, seen from a superstrate in which one order is evanescent. *)
From Coq Require Import Reals Lra.
From mathcomp Require Import all_ssreflect ssralg matrix mxalgebra.
From Coquelicot Require Import Complex.
From Verif Require Import Cplx Mx ModelTM ProofFlux ProofEnergy1D ProofEnergy2D Spec SpecSolve SpecPassive SpecAbsorb ProofSetup ProofFilm ProofWell ProofWellSolve ProofConv ProofInvert ProofPassive3 ExampleKit.

Set Implicit Arguments.
Unset Strict Implicit.
Unset Printing Implicit Defensive.
Local Open Scope ring_scope.
Import GRing.Theory.

(** Superstrate index 5/4, sin(theta) = 4/5, wavelength / period = 1/2: transverse wave numbers 1/2, 1, 3/2, so that order
    +1 is evanescent above and below. *)
Definition th_abs : R := asin (4 / 5).
Lemma sin_th_abs : sin th_abs = (4 / 5)%coqR.
Proof. rewrite /th_abs sin_asin //; lra. Qed.
Lemma th_abs_bound : (0 <= th_abs < PI / 2)%coqR.
Proof.
have h := asin_bound (4/5); rewrite -/th_abs in h; have p := PI_RGT_0.
split.
  case: (Rle_lt_dec 0 th_abs) => // n0.
  have : (sin th_abs < sin 0)%coqR by apply: sin_increasing_1; lra.
  rewrite sin_th_abs sin_0; lra.
case: (Rlt_le_dec th_abs (PI/2)) => // h2.
have e : th_abs = (PI/2)%coqR by lra.
have := sin_th_abs; rewrite e sin_PI2; lra.
Qed.

Definition s_abs (ph : option C) (ps : C) (pl : R) (ts : seq R) : setup :=
  Setup (RtoC (5/4)) (RtoC 1) (RtoC th_abs) ph ps pl 1 0 2 2 ts.

Lemma physical_abs ph ps pl ts : (forall p, ph = Some p -> is_real p) -> physical (s_abs ph ps pl ts).
Proof.
move=> h; split=> //=; try lra.
- by exists (5/4)%coqR => //; lra.
- by exists th_abs => //; exact: th_abs_bound.
Qed.

Lemma kx_abs ph ps pl ts : ph = None \/ ph = Some (RtoC 0) ->
  [/\ kx_vector (s_abs ph ps pl ts) 1 0%N = RtoC (1/2), kx_vector (s_abs ph ps pl ts) 1 1%N = RtoC 1
    & kx_vector (s_abs ph ps pl ts) 1 2%N = RtoC (3/2)] /\
  ky_vector (s_abs ph ps pl ts) 1 0%N = 0.
Proof.
move=> hph; have hp : phi_val (s_abs ph ps pl ts) = RtoC 0 by rewrite /phi_val /=; case: hph => ->.
have [hx hy] := kx_phys (s := s_abs ph ps pl ts) 1 erefl erefl th_abs_bound hp.
rewrite !hx hy /= sin_th_abs cos_0 sin_0 /order /=.
split; last by rewrite (_ : 0 = RtoC 0) //; congr RtoC; lra.
by split; congr RtoC; lra.
Qed.

Lemma K3_abs ph ps pl ts : ph = None \/ ph = Some (RtoC 0) -> diagf 3 (kx_vector (s_abs ph ps pl ts) 1) = K3.
Proof. by move=> h; have [[k0 k1 k2] _] := kx_abs ps pl ts h; apply: K3E. Qed.
Lemma K3_abs_tiled ps pl ts : diagf 3 (kx_tiled (s_abs (Some (RtoC 0)) ps pl ts) 1) = K3 /\
  diagf 3 (ky_tiled (s_abs (Some (RtoC 0)) ps pl ts) 1) = 0.
Proof.
have [[k0 k1 k2] ky] := kx_abs ps pl ts (or_intror erefl).
split; first by apply: K3E; rewrite /kx_tiled /tile_x /=.
apply/matrixP => i j; rewrite !mxE /ky_tiled /tile_y divn_small // ky mul0rn //.
Qed.

(** Order +1 does not propagate in the superstrate. *)
Lemma evan_abs ps pl ts : ~ all_orders_propagate 3 (5/4) (kx_vector (s_abs None ps pl ts) 1).
Proof.
have [[_ _ k2] _] := kx_abs ps pl ts (or_introl erefl).
by move=> /(_ (Ordinal (erefl : (2 < 3)%N))) [x]; rewrite /= k2 => /RtoC_inj <-; lra.
Qed.

Lemma oblique_abs ps pl ts :
  oblique_orders 3 (kx_tiled (s_abs (Some (RtoC 0)) ps pl ts) 1) (ky_tiled (s_abs (Some (RtoC 0)) ps pl ts) 1).
Proof.
have [[k0 k1 k2] ky] := kx_abs ps pl ts (or_intror erefl).
move=> i; left; rewrite /kx_tiled /tile_x modn_small //.
by case: i => [[|[|[|?]]] ?] //=; rewrite ?k0 ?k1 ?k2 => /RtoC_inj; lra.
Qed.

(** ** The absorbing grating: the pattern of the kit with all permittivities multiplied by -i/4 *)
Definition zab : C := - (RtoC (1/4) * ci).
Definition zabi : C := RtoC 4 * ci.
Lemma zabV : zab * zabi = 1. Proof. by rewrite /zab /zabi /ci; cext; lra. Qed.
Definition conv_abs : conv3 3 := (zab *: ex_x, zab *: ex_y, zabi *: ex_z).

Lemma conv_abs_line : line_convs conv_abs.
Proof.
have h := conv_ex_line; rewrite /line_convs /conv_ex in h.
by rewrite /line_convs /conv_abs -scalemxAl -scalemxAr scalerA h mulrC zabV scale1r.
Qed.

Lemma quad_scale n (A : 'M[C]_n) k v : quad (k *: A) v = k * quad A v.
Proof. by rewrite !quad_form formZ. Qed.
Lemma quad_pos n (A : 'M[C]_n) v : pos_def A -> v <> 0 -> (0 < Re (quad A v))%coqR.
Proof. by move=> h v0; rewrite quad_form formE; exact: h. Qed.

Lemma pos_sym a b c : (0 < a)%coqR -> (0 < b)%coqR -> (0 < c)%coqR -> pos_def (r3 (a + c) 0 (a - c) 0 b 0 (a - c) 0 (a + c)).
Proof.
move=> a0 b0 c0; pose U := r3 1 0 1 0 1 0 1 0 (-1).
have -> : r3 (a + c) 0 (a - c) 0 b 0 (a - c) 0 (a + c) = adj U *m diag_mx (d3 a b c) *m U.
  have -> : adj U = U by rewrite /U; m3; rewrite conjR.
  by rewrite /U; rewrite r3_d3 !r3M; congr r3; lra.
apply: pos_def_cong.
  by apply: pos_def_diag => -[[|[|[|?]]] ?] //; rewrite mxE /=; [exists a|exists b|exists c].
have h : U *m r3 (1/2) 0 (1/2) 0 1 0 (1/2) 0 (-1/2) = 1%:M by rewrite /U; r3eq.
by case: (mulmx1_unit h).
Qed.
Lemma pos_ex_x : pos_def ex_x.
Proof.
have -> : ex_x = r3 (5/2 + 5/2) 0 (5/2 - 5/2) 0 5 0 (5/2 - 5/2) 0 (5/2 + 5/2) by rewrite /ex_x; congr r3; lra.
by apply: pos_sym; lra.
Qed.
Lemma pos_ex_y : pos_def ex_y.
Proof.
have -> : ex_y = r3 (84/25 + 24/25) 0 (84/25 - 24/25) 0 (108/25) 0 (84/25 - 24/25) 0 (84/25 + 24/25) by rewrite /ex_y; congr r3; lra.
by apply: pos_sym; lra.
Qed.
Lemma pos_ex_z : pos_def ex_z.
Proof.
have -> : ex_z = r3 (50/672 + 175/672) 0 (50/672 - 175/672) 0 (25/108) 0 (50/672 - 175/672) 0 (50/672 + 175/672) by rewrite /ex_z; congr r3; lra.
by apply: pos_sym; lra.
Qed.

Lemma conv_abs_absorbs : absorbing_convs conv_abs.
Proof.
move=> v v0; rewrite !quad_scale.
have h1 := quad_pos pos_ex_x v0; have h2 := quad_pos pos_ex_y v0; have h3 := quad_pos pos_ex_z v0.
have e1 q : Im (zab * q)%R = (- (1/4) * Re q)%coqR by case: q => x y; rewrite /zab /ci /Im /Re /=; lra.
have e2 q : Im (zabi * q)%R = (4 * Re q)%coqR by case: q => x y; rewrite /zabi /ci /Im /Re /=; lra.
by rewrite !e1 e2; split; lra.
Qed.

(** Its eigenvectors. *)
Lemma diag_shift n (A U : 'M[C]_n) (m : 'rV[C]_n) k : diag_by A (m, U) -> diag_by (A + k%:M) (m + const_mx k, U).
Proof.
move=> [u e]; split=> //=; rewrite /= in e *.
rewrite mulmxDl mul_scalar_mx e raddfD /= mulmxDr; congr (_ + _).
by rewrite (_ : diag_mx (const_mx k) = k%:M) ?mul_mx_scalar //; apply/matrixP => i j; rewrite !mxE.
Qed.

Definition ca3 (a b c d : C) : 'M[C]_3 := \matrix_(x < 3, y < 3)
  nth 0 (nth [::] [:: [:: a; 0; b]; [:: 0; 1; 0]; [:: c; 0; d]] x) y.
Definition Uab : 'M[C]_3 := ca3 1 (RtoC 3 * ci) (- (RtoC 3 * ci)) 1.
Definition mab : 'rV[C]_3 := \row_(i < 3) nth 0 [:: RtoC (41/20) + RtoC (27/25) * ci; 1 + RtoC (27/25) * ci; RtoC (9/20) + RtoC (27/25) * ci] i.

Lemma unit_ab : Uab \in unitmx.
Proof.
have h : Uab *m ca3 (- RtoC (1/8)) (RtoC (3/8) * ci) (- (RtoC (3/8) * ci)) (- RtoC (1/8)) = 1%:M.
  by rewrite /Uab /ca3; m3; cext; lra.
by case: (mulmx1_unit h).
Qed.
Lemma diag_te_ab : diag_by (K3 *m K3 - zab *: ex_y) (mab, Uab).
Proof.
split; first exact: unit_ab.
by rewrite /= /K3 r3M /ex_y /Uab /mab /ca3 /zab; m3; cext; lra.
Qed.
Lemma tm_ab : (K3 *m (zabi *: ex_z) *m K3 - 1%:M) *m (zab *: ex_x) = (K3 *m ex_z *m K3 - 1%:M) *m ex_x + (RtoC 5 * (1 - zab))%:M.
Proof.
have -> : ex_x = (RtoC 5)%:M by m3.
rewrite -!scalemxAr -!scalemxAl !mul_mx_scalar scalerA; set A := K3 *m ex_z *m K3.
rewrite !scalerBr scalerA (_ : zab * RtoC 5 * zabi = RtoC 5); last by rewrite mulrAC zabV mul1r.
by apply/matrixP => i j; rewrite !mxE; case: (i == j); rewrite ?mulr1n ?mulr0n /zab; clear; cring.
Qed.
Lemma diag_tm_ab' : diag_by ((K3 *m (zabi *: ex_z) *m K3 - 1%:M) *m (zab *: ex_x)) (mtm + const_mx (RtoC 5 * (1 - zab)), Utm).
Proof. by rewrite tm_ab; apply: diag_shift; exact: diag_tm'. Qed.
Lemma diag_tm_ab : diag_by ((zab *: ex_x) *m (K3 *m (zabi *: ex_z) *m K3 - 1%:M)) (mtm + const_mx (RtoC 5 * (1 - zab)), Utm).
Proof. by rewrite -scalemxAl -ex_xC scalemxAr; exact: diag_tm_ab'. Qed.

Lemma basis_of n (A : 'M[C]_n) p : diag_by A p -> basis eig_ex A.
Proof. by move=> /eig_ex_spec []. Qed.

(** ** The stack: an absorbing grating under [a] lossless ones and above [b] lossless ones *)
Definition stack_abs (a b : nat) : seq (conv3 3) := nseq a conv_ex ++ conv_abs :: nseq b conv_ex.
Definition depths (a b : nat) (t d : R) : seq R := nseq a t ++ d :: nseq b t.
Lemma size_stack a b t d : size (depths a b t d) = size (stack_abs a b).
Proof. by rewrite !size_cat /= !size_nseq. Qed.
Lemma stack_in a b c : List.In c (stack_abs a b) -> c = conv_ex \/ c = conv_abs.
Proof.
have nsq k x y : List.In x (nseq k y) -> x = y :> conv3 3 by elim: k => //= k ih [<-|].
by move=> /List.in_app_iff [/nsq ->|[<-|/nsq ->]]; [left|right|left].
Qed.
Lemma stack_has a b : List.In conv_abs (stack_abs a b).
Proof. by apply/List.in_app_iff; right; left. Qed.
Lemma depths_pos a b t d x : (0 < t)%coqR -> (0 < d)%coqR -> List.In x (depths a b t d) -> (0 < x)%coqR.
Proof.
move=> t0 d0; have nsq k u v : List.In u (nseq k v) -> u = v :> R by elim: k => //= k ih [<-|].
by move=> /List.in_app_iff [/nsq ->|[<-|/nsq ->]].
Qed.
Lemma used_stack n (s : setup) (cs : seq (conv3 n)) : size (thickness s) = size cs -> used s cs = cs.
Proof. by rewrite /used => ->; rewrite take_size. Qed.

Lemma clear_ex_1d ps pl ts : clear_1d eig_ex pl (kx_vector (s_abs None ps pl ts) 1) conv_ex.
Proof.
have eK := K3_abs ps pl ts (or_introl erefl).
split; first exact: conv_ex_lossless.
  rewrite /helmholtz; case: Req_EM_T => pe.
  + rewrite (te_operatorE (n := 3)) eK; exact: prop_te.
  + rewrite (tm_operatorE (n := 3)) eK; exact: prop_tm.
by move=> _; split; [exact: unit_x|apply/positive_definiteE; exact: pos_def_x].
Qed.
Lemma dark_ex_1d ps pl ts : dark_1d eig_ex pl (kx_vector (s_abs None ps pl ts) 1) conv_abs.
Proof.
have eK := K3_abs ps pl ts (or_introl erefl).
split; first exact: conv_abs_absorbs.
rewrite /helmholtz; case: Req_EM_T => pe.
+ rewrite (te_operatorE (n := 3)) eK; exact: basis_of diag_te_ab.
+ rewrite (tm_operatorE (n := 3)) eK; exact: basis_of diag_tm_ab.
Qed.

Lemma OmLab z : OmL K3 0 z = block_mx 0 (K3 *m z *m K3 - 1%:M) 1%:M 0.
Proof. by rewrite /OmL !mulmx0 !mul0mx !oppr0 addr0. Qed.

Lemma clear_ex_2d ps pl ts : let s := s_abs (Some (RtoC 0)) ps pl ts in
  clear_2d eig_ex (kx_tiled s 1) (ky_tiled s 1) conv_ex.
Proof.
have [eKx eKy] := K3_abs_tiled ps pl ts.
split; first exact: conv_ex_lossless.
rewrite /propagating_layer (e_from_hE (n := 3)) (h_from_eE (n := 3)) eKx eKy; split.
- by have [] := mulmx1_unit invOmL0.
- apply/positive_definiteE; exact: pos_down.
- exact: prop_2d.
Qed.
Lemma dark_ex_2d ps pl ts : let s := s_abs (Some (RtoC 0)) ps pl ts in
  dark_2d eig_ex (kx_tiled s 1) (ky_tiled s 1) conv_abs.
Proof.
have [eKx eKy] := K3_abs_tiled ps pl ts.
split; first exact: conv_abs_absorbs.
rewrite (e_from_hE (n := 3)) (h_from_eE (n := 3)) eKx eKy OmLab /OmR !mulmx0 !mul0mx subr0 mulmx_block !mulmx0 !mul0mx !mul1mx !addr0 !add0r.
exact: basis_of (diag_by_block diag_tm_ab' diag_te_ab).
Qed.

Lemma clear_ex_conical ps pl ts : let s := s_abs (Some (RtoC 0)) ps pl ts in
  clear_conical eig_ex (kx_tiled s 1) (ky_tiled s 1) conv_ex.
Proof.
have [eKx eKy] := K3_abs_tiled ps pl ts.
split; [exact: conv_ex_lossless|exact: conv_ex_line|].
rewrite /propagating_layer_conical /conv_ex -/conv_ex (e_from_hE (n := 3)) !(dkE 3) !(tkE (n := 3)) eKx eKy mulmx0 !add0r; split.
- by have [] := mulmx1_unit invOmL0.
- apply/positive_definiteE; exact: pos_down.
- split; last exact: unit_B3.
  have [u e] := diag_te; rewrite /= in e.
  have -> : K3 *m K3 - ex_y = Ute *m diag_mx mte *m invmx Ute by rewrite -e mulmxK // unit_te.
  rewrite !unitmx_mul unitmx_inv unit_te /= andbT.
  have h : diag_mx mte *m r3 (-(100/47)) 0 0 0 (-(25/83)) 0 0 0 (-(100/567)) = 1%:M by rewrite /mte; r3eq.
  by case: (mulmx1_unit h).
- exact: prop_te.
- exact: prop_tm'.
Qed.
Lemma dark_ex_conical ps pl ts : let s := s_abs (Some (RtoC 0)) ps pl ts in
  dark_conical eig_ex (kx_tiled s 1) (ky_tiled s 1) conv_abs.
Proof.
have [eKx eKy] := K3_abs_tiled ps pl ts.
split; [exact: conv_abs_absorbs|exact: conv_abs_line| |]; rewrite !(dkE 3) ?(tkE (n := 3)) eKx eKy mulmx0 add0r.
- exact: basis_of diag_te_ab.
- exact: basis_of diag_tm_ab'.
Qed.
