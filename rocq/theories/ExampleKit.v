(** Concrete inputs used by the non-vacuity examples: an eigen-decomposition oracle and small patterned gratings on which
    the three solvers return. *)
From Coq Require Import Reals Lra ClassicalEpsilon.
From mathcomp Require Import all_ssreflect ssralg matrix mxalgebra.
From Coquelicot Require Import Complex.
From Verif Require Import Cplx Mx ModelTM ProofFlux ProofEnergy1D ProofEnergy2D Spec SpecSolve ProofSetup ProofFilm ProofWell ProofWellSolve.

Set Implicit Arguments.
Unset Strict Implicit.
Unset Printing Implicit Defensive.
Local Open Scope ring_scope.
Import GRing.Theory.

(** ** An eigen-decomposition oracle: some eigenvector matrix if the matrix is diagonalisable, zero columns otherwise. *)
Definition diag_by n (A : 'M[C]_n) (p : 'rV[C]_n * 'M[C]_n) : Prop :=
  p.2 \in unitmx /\ A *m p.2 = p.2 *m diag_mx p.1.

Definition eig_ex n (A : 'M[C]_n) : 'rV[C]_n * 'M[C]_n :=
  match excluded_middle_informative (exists p, diag_by A p) with
  | left h => proj1_sig (constructive_indefinite_description _ h)
  | right _ => (0, 0)
  end.

Lemma eig_ex_ok : eigen_oracle eig_ex.
Proof.
move=> n A j; rewrite /eig_ex; case: excluded_middle_informative => h.
  case: constructive_indefinite_description => -[lam W] [_ /= e].
  apply/colP => i; have := e => /matrixP /(_ i j); rewrite mul_mx_diag !mxE mulrC => <-.
  by apply: eq_bigr => k _; rewrite !mxE.
by rewrite /= col0 mulmx0 scaler0.
Qed.

Lemma eig_ex_spec n (A : 'M[C]_n) p : diag_by A p -> diag_by A (eig_ex A).
Proof.
move=> h; rewrite /eig_ex; case: excluded_middle_informative => h'; last by case: h'; exists p.
by case: constructive_indefinite_description.
Qed.

Lemma eig_ex_val n (A : 'M[C]_n) (mu : 'rV[C]_n) U : diag_by A (mu, U) ->
  forall j, exists i, (eig_ex A).1 ord0 j = mu ord0 i.
Proof.
move=> h j; have [uW eW] := eig_ex_spec h; case: h => /= uU eU.
set lam := (eig_ex A).1 in eW *; set W := (eig_ex A).2 in uW eW.
pose P := invmx U *m W.
have uP : P \in unitmx by rewrite unitmx_mul unitmx_inv uU.
have eP : diag_mx mu *m P = P *m diag_mx lam.
  rewrite /P mulmxA -[invmx U *m W *m _]mulmxA -eW mulmxA; congr (_ *m _).
  by rewrite -[RHS]mulmx1 -(mulmxV uU) mulmxA -[invmx U *m A *m U]mulmxA eU !mulmxA mulVmx // mul1mx.
clearbody P.
case: (pickP (fun i => P i j != 0)) => [i hi|h0].
  exists i; have := eP => /matrixP /(_ i j); rewrite mul_diag_mx mul_mx_diag !mxE mulrC => /(mulfI hi).
  by move->.
have c0 : col j P = 0 by apply/colP => i; rewrite !mxE; apply/eqP; have := h0 i; case: eqP.
have : (col j (1%:M : 'M[C]_n)) j ord0 = 0 by rewrite -(mulVmx uP) colE -mulmxA -colE c0 mulmx0 mxE.
by rewrite !mxE eqxx => /eqP; rewrite oner_eq0.
Qed.

Lemma eig_ex_prop n (A : 'M[C]_n) (mu : 'rV[C]_n) U : diag_by A (mu, U) ->
  (forall i, exists2 x : R, (0 < x)%coqR & mu ord0 i = RtoC (- x)) -> propagating eig_ex A.
Proof.
move=> h hm; split; first by case: (eig_ex_spec h).
by move=> j; have [i ->] := eig_ex_val h j.
Qed.

(** The same eigenvalues with rescaled eigenvectors. *)
Definition eig_ex2 n (A : 'M[C]_n) : 'rV[C]_n * 'M[C]_n := ((eig_ex A).1, RtoC 2 *: (eig_ex A).2).
Lemma eig_ex2_ok : eigen_oracle eig_ex2.
Proof.
move=> n A j; have h := eig_ex_ok A j.
by rewrite /eig_ex2 /= linearZ /= -scalemxAr h !scalerA mulrC.
Qed.
Lemma eig_ex2_prop n (A : 'M[C]_n) : propagating eig_ex A -> propagating eig_ex2 A.
Proof.
move=> [h1 h2]; split=> //=; rewrite unitmxZ // unitfE; apply/eqP => /RtoC_inj; lra.
Qed.

(** A pseudo-inverse oracle. *)
Definition pinv_ex n (A : 'M[C]_n) : 'M[C]_n := pinvmx A.
Lemma pinv_ex_ok : pinv_oracle pinv_ex.
Proof. by move=> n A; rewrite /pinv_ex mulmxKpV. Qed.

(** ** Real 3 x 3 matrices *)
Definition r3 (a b c d e f g h i : R) : 'M[C]_3 :=
  \matrix_(x < 3, y < 3) RtoC (nth 0%coqR (nth [::] [:: [:: a; b; c]; [:: d; e; f]; [:: g; h; i]] x) y).

Ltac m3 := apply/matrixP => -[[|[|[|?]]] ?] [[|[|[|?]]] ?] //; rewrite ?mxE ?big_ord_recl ?big_ord0 ?mxE /=.

Lemma r3M a b c d e f g h i a' b' c' d' e' f' g' h' i' :
  r3 a b c d e f g h i *m r3 a' b' c' d' e' f' g' h' i' =
  r3 (a*a'+b*d'+c*g') (a*b'+b*e'+c*h') (a*c'+b*f'+c*i')
     (d*a'+e*d'+f*g') (d*b'+e*e'+f*h') (d*c'+e*f'+f*i')
     (g*a'+h*d'+i*g') (g*b'+h*e'+i*h') (g*c'+h*f'+i*i').
Proof. by m3; cext. Qed.
Lemma r3D a b c d e f g h i a' b' c' d' e' f' g' h' i' :
  r3 a b c d e f g h i + r3 a' b' c' d' e' f' g' h' i' =
  r3 (a+a') (b+b') (c+c') (d+d') (e+e') (f+f') (g+g') (h+h') (i+i').
Proof. by m3; cext. Qed.
Lemma r3B a b c d e f g h i a' b' c' d' e' f' g' h' i' :
  r3 a b c d e f g h i - r3 a' b' c' d' e' f' g' h' i' =
  r3 (a-a') (b-b') (c-c') (d-d') (e-e') (f-f') (g-g') (h-h') (i-i').
Proof. by m3; cext. Qed.
Lemma r3_1 : (1%:M : 'M[C]_3) = r3 1 0 0 0 1 0 0 0 1.
Proof. by m3; cext. Qed.
Lemma r3_diag f a b c : f 0%N = RtoC a -> f 1%N = RtoC b -> f 2%N = RtoC c -> diagf 3 f = r3 a 0 0 0 b 0 0 0 c.
Proof. by move=> h0 h1 h2; m3; rewrite ?h0 ?h1 ?h2. Qed.
Definition d3 (a b c : R) : 'rV[C]_3 := \row_(i < 3) RtoC (nth 0%coqR [:: a; b; c] i).
Lemma r3_d3 a b c : diag_mx (d3 a b c) = r3 a 0 0 0 b 0 0 0 c.
Proof. by m3. Qed.
Lemma r3_herm a b c d e f : hermitian (r3 a b c b d e c e f).
Proof. by move=> -[[|[|[|?]]] ?] [[|[|[|?]]] ?] //; rewrite !mxE /= conjR. Qed.
Lemma d3_prop a b c : (0 < a)%coqR -> (0 < b)%coqR -> (0 < c)%coqR ->
  forall i, exists2 x : R, (0 < x)%coqR & d3 (- a) (- b) (- c) ord0 i = RtoC (- x).
Proof. by move=> ha hb hc -[[|[|[|?]]] ?] //; rewrite mxE /=; eexists; try reflexivity. Qed.

(** ** A patterned grating on which all three solvers return
    Superstrate index 3, substrate index 1, sin(theta) = 1/3, wavelength / period = 1/2, orders -1, 0, 1: the normalised
    transverse wave numbers are 1/2, 1, 3/2, so all orders propagate above and order +1 is evanescent below.
    The layer couples orders -1 and 1. *)
Definition th_ex : R := asin (1 / 3).

Lemma sin_th_ex : sin th_ex = (1 / 3)%coqR.
Proof. rewrite /th_ex sin_asin //; lra. Qed.

Lemma th_ex_bound : (0 <= th_ex < PI / 2)%coqR.
Proof.
have h := asin_bound (1/3); rewrite -/th_ex in h; have p := PI_RGT_0.
split.
  case: (Rle_lt_dec 0 th_ex) => // n0.
  have : (sin th_ex < sin 0)%coqR by apply: sin_increasing_1; lra.
  rewrite sin_th_ex sin_0; lra.
case: (Rlt_le_dec th_ex (PI/2)) => // h2.
have e : th_ex = (PI/2)%coqR by lra.
have := sin_th_ex; rewrite e sin_PI2; lra.
Qed.

Definition s_ex (ph : option C) (ps : C) (pl : R) (ts : seq R) : setup :=
  Setup (RtoC 3) (RtoC 1) (RtoC th_ex) ph ps pl 1 0 2 2 ts.

Definition ex_x : 'M[C]_3 := r3 5 0 0 0 5 0 0 0 5.
Definition ex_y : 'M[C]_3 := r3 (108/25) 0 (12/5) 0 (108/25) 0 (12/5) 0 (108/25).
Definition ex_z : 'M[C]_3 := r3 (75/224) 0 (-125/672) 0 (25/108) 0 (-125/672) 0 (75/224).
Definition conv_ex : conv3 3 := (ex_x, ex_y, ex_z).

Ltac r3eq := rewrite ?(r3_1, r3_d3, r3M, r3B, r3D); congr r3; lra.

Lemma conv_ex_line : line_convs conv_ex.
Proof. rewrite /line_convs /conv_ex /ex_z /ex_y; r3eq. Qed.
Lemma conv_ex_lossless : lossless_convs conv_ex.
Proof. by split; apply: r3_herm. Qed.

Lemma physical_ex ph ps pl ts : (forall p, ph = Some p -> is_real p) -> physical (s_ex ph ps pl ts).
Proof.
move=> h; split=> //=; try lra.
- by exists 3%coqR => //; lra.
- by exists th_ex => //; exact: th_ex_bound.
Qed.

Lemma kx_ex ph ps pl ts : ph = None \/ ph = Some (RtoC 0) ->
  [/\ kx_vector (s_ex ph ps pl ts) 1 0%N = RtoC (1/2), kx_vector (s_ex ph ps pl ts) 1 1%N = RtoC 1
    & kx_vector (s_ex ph ps pl ts) 1 2%N = RtoC (3/2)] /\
  ky_vector (s_ex ph ps pl ts) 1 0%N = 0.
Proof.
move=> hph; have hp : phi_val (s_ex ph ps pl ts) = RtoC 0 by rewrite /phi_val /=; case: hph => ->.
have [hx hy] := kx_phys (s := s_ex ph ps pl ts) 1 erefl erefl th_ex_bound hp.
rewrite !hx hy /= sin_th_ex cos_0 sin_0 /order /=.
split; last by rewrite (_ : 0 = RtoC 0) //; congr RtoC; lra.
by split; congr RtoC; lra.
Qed.

Definition kxr (i : nat) : R := nth 0%coqR [:: (1/2); 1; (3/2)]%coqR i.
Definition K3 : 'M[C]_3 := r3 (1/2) 0 0 0 1 0 0 0 (3/2).

Lemma K3E f : f 0%N = RtoC (1/2) -> f 1%N = RtoC 1 -> f 2%N = RtoC (3/2) -> diagf 3 f = K3.
Proof. exact: r3_diag. Qed.

(** Diagonalisation of the TE and TM operators. *)
Definition Ute : 'M[C]_3 := r3 2 0 3 0 1 0 (-3) 0 2.
Definition mte : 'rV[C]_3 := d3 (-(47/100)) (-(83/25)) (-(567/100)).
Definition Utm : 'M[C]_3 := r3 1 0 5 0 1 0 (-5) 0 1.
Definition mtm : 'rV[C]_3 := d3 (-(35/32)) (-(415/108)) (-(2115/448)).

Lemma unit_te : Ute \in unitmx.
Proof.
have h : Ute *m r3 (2/13) 0 (-3/13) 0 1 0 (3/13) 0 (2/13) = 1%:M by rewrite /Ute; r3eq.
by case: (mulmx1_unit h).
Qed.
Lemma unit_tm : Utm \in unitmx.
Proof.
have h : Utm *m r3 (1/26) 0 (-5/26) 0 1 0 (5/26) 0 (1/26) = 1%:M by rewrite /Utm; r3eq.
by case: (mulmx1_unit h).
Qed.

Lemma diag_te : diag_by (K3 *m K3 - ex_y) (mte, Ute).
Proof. split; first exact: unit_te; rewrite /= /K3 /ex_y /Ute /mte; r3eq. Qed.
Lemma diag_tm : diag_by (ex_x *m (K3 *m ex_z *m K3 - 1%:M)) (mtm, Utm).
Proof. split; first exact: unit_tm; rewrite /= /K3 /ex_x /ex_z /Utm /mtm; r3eq. Qed.
Lemma ex_xC (A : 'M[C]_3) : A *m ex_x = ex_x *m A.
Proof.
have -> : ex_x = (RtoC 5)%:M by m3.
by rewrite mul_scalar_mx mul_mx_scalar.
Qed.
Lemma diag_tm' : diag_by ((K3 *m ex_z *m K3 - 1%:M) *m ex_x) (mtm, Utm).
Proof. by rewrite ex_xC; exact: diag_tm. Qed.

Lemma prop_te : propagating eig_ex (K3 *m K3 - ex_y).
Proof. apply: eig_ex_prop diag_te _; apply: d3_prop; lra. Qed.
Lemma prop_tm : propagating eig_ex (ex_x *m (K3 *m ex_z *m K3 - 1%:M)).
Proof. apply: eig_ex_prop diag_tm _; apply: d3_prop; lra. Qed.
Lemma prop_tm' : propagating eig_ex ((K3 *m ex_z *m K3 - 1%:M) *m ex_x).
Proof. by rewrite ex_xC; exact: prop_tm. Qed.

(** Positive definiteness *)
Lemma pos_def_diag n (v : 'rV[C]_n) : (forall i, exists2 x : R, (0 < x)%coqR & v ord0 i = RtoC x) -> pos_def (diag_mx v).
Proof.
move=> h w w0; have := pos_def1 w0; rewrite mulmx1 -mulmxA !dot_sum !Re_sum => hp.
pose f i := Re (conj (w i ord0) * w i ord0).
have f0 i : (0 <= f i)%coqR by rewrite /f mulrC mul_conj; exact: nrm2_ge0.
pose g i := Re (conj (w i ord0) * (diag_mx v *m w) i ord0).
have eg i : g i = (Re (v ord0 i) * f i)%coqR.
  by have [x x0 e] := h i; rewrite /g mul_diag_mx mxE e Re_RtoC mulrCA ReZ.
have g0 i : (0 <= g i)%coqR.
  by rewrite eg; have [x x0 ->] := h i; rewrite Re_RtoC; apply: Rmult_le_pos => //; lra.
case: (Rle_lt_dec (\big[Rplus/0%coqR]_(i < n) g i) 0) => // hle; exfalso.
have z i : f i = 0%coqR.
  have := sumR_eq0 g0 hle i.
  rewrite eg; have [x x0 ->] := h i; rewrite Re_RtoC => /Rmult_integral[]; lra.
have e0 : \big[Rplus/0%coqR]_(i < n) f i = 0%coqR.
  by elim/big_rec: _ => // i x _ ->; rewrite z; ring.
by move: hp; rewrite -/f e0; exact: Rlt_irrefl.
Qed.

Lemma pos_def_x : pos_def ex_x.
Proof.
have -> : ex_x = diag_mx (d3 5 5 5) by rewrite r3_d3.
by apply: pos_def_diag => -[[|[|[|?]]] ?] //; rewrite mxE /=; exists 5%coqR => //; lra.
Qed.
Lemma unit_x : ex_x \in unitmx.
Proof.
have h : ex_x *m r3 (1/5) 0 0 0 (1/5) 0 0 0 (1/5) = 1%:M by rewrite /ex_x; r3eq.
by case: (mulmx1_unit h).
Qed.

(** The solvers return on stacks of any number of such layers, with any thicknesses. *)
Lemma used_ex (s : setup) m (c : conv3 3) : List.In c (used s (nseq m conv_ex)) -> c = conv_ex.
Proof.
rewrite /used; elim: (size (thickness s)) m => [|k IH] [|m] //= [<-|] //; exact: IH.
Qed.

Lemma ord3 (P : 'I_3 -> Prop) : P ord0 -> P (inord 1) -> P (inord 2) -> forall i, P i.
Proof.
move=> h0 h1 h2 -[[|[|[|?]]] h] //.
- by rewrite (_ : Ordinal h = ord0) //; apply: val_inj.
- by rewrite (_ : Ordinal h = inord 1) //; apply: val_inj; rewrite /= inordK.
- by rewrite (_ : Ordinal h = inord 2) //; apply: val_inj; rewrite /= inordK.
Qed.

Lemma solve_1d_ex_by eig (ok : eigen_oracle eig) (pr : forall n (A : 'M[C]_n), propagating eig_ex A -> propagating eig A) pv ps pl ts : pl = 0%coqR \/ pl = 1%coqR ->
  exists r T1 infos,
  solve_1d pv eig false (s_ex None ps pl ts) 1 (nseq (size ts) conv_ex) = Some (r, T1, infos).
Proof.
move=> hpl; have [[k0 k1 k2] _] := kx_ex ps pl ts (or_introl erefl).
apply: (well_solve_1d pv ok (s := s_ex None ps pl ts) (w := 1) (nt := 3) (nb := 1)) => //.
- exact: physical_ex.
- exact: Rlt_0_1.
- by rewrite size_nseq.
- move=> i; case: i => [[|[|[|?]]] ?] //=; rewrite ?k0 ?k1 ?k2; eexists; try reflexivity; lra.
move=> c /used_ex ->; split; first exact: conv_ex_lossless.
- have eK : diagf 3 (kx_vector (s_ex None ps pl ts) 1) = K3 by apply: K3E.
  rewrite /helmholtz; case: Req_EM_T => pe.
  + rewrite (te_operatorE (n := 3)) eK; exact: pr prop_te.
  + rewrite (tm_operatorE (n := 3)) eK; exact: pr prop_tm.
- by move=> _; split; [exact: unit_x|apply/positive_definiteE; exact: pos_def_x].
Qed.

Lemma solve_1d_ex pv ps pl ts : pl = 0%coqR \/ pl = 1%coqR ->
  exists r T1 infos,
  solve_1d pv eig_ex false (s_ex None ps pl ts) 1 (nseq (size ts) conv_ex) = Some (r, T1, infos).
Proof. exact: (solve_1d_ex_by eig_ex_ok (fun n A h => h)). Qed.

(** 2D and conical: azimuth 0, so ky = 0. *)
Definition s_ex0 := s_ex (Some (RtoC 0)).

Lemma physical_ex0 ps pl ts : physical (s_ex0 ps pl ts).
Proof. by apply: physical_ex => p [<-]; exists 0%coqR. Qed.

Lemma K3_tiled ps pl ts : diagf 3 (kx_tiled (s_ex0 ps pl ts) 1) = K3 /\ diagf 3 (ky_tiled (s_ex0 ps pl ts) 1) = 0.
Proof.
have [[k0 k1 k2] ky] := kx_ex ps pl ts (or_intror erefl).
split; first by apply: K3E; rewrite /kx_tiled /tile_x /=.
apply/matrixP => i j; rewrite !mxE /ky_tiled /tile_y divn_small // ky mul0rn //.
Qed.

Definition B3 : 'M[C]_3 := K3 *m ex_z *m K3 - 1%:M.
Lemma unit_B3 : B3 \in unitmx.
Proof.
have [uT eT] := diag_tm'; rewrite -/B3 /= in eT.
have u : B3 *m ex_x \in unitmx.
  have -> : B3 *m ex_x = Utm *m diag_mx mtm *m invmx Utm by rewrite -eT mulmxK.
  rewrite !unitmx_mul unitmx_inv unit_tm /= andbT.
  have h : diag_mx mtm *m r3 (-(32/35)) 0 0 0 (-(108/415)) 0 0 0 (-(448/2115)) = 1%:M by rewrite /mtm; r3eq.
  by case: (mulmx1_unit h).
by move: u; rewrite unitmx_mul => /andP[].
Qed.

Lemma herm_B3 : herm B3.
Proof. by apply: hermitian_herm; rewrite /B3 /K3 /ex_z ?(r3_1, r3M, r3B); move=> i j; rewrite !mxE conjR; case: i j => [[|[|[|?]]] ?] [[|[|[|?]]] ?] //=; congr RtoC; lra. Qed.

Lemma pos_def_B3 : pos_def (- B3).
Proof.
have -> : - B3 = adj (r3 1 0 (-5) 0 1 0 5 0 1) *m diag_mx (d3 (7/32/26) (83/108) (423/448/26)) *m r3 1 0 (-5) 0 1 0 5 0 1.
  have -> : adj (r3 1 0 (-5) 0 1 0 5 0 1) = r3 1 0 5 0 1 0 (-5) 0 1.
    by m3; rewrite conjR.
  rewrite -[- B3]add0r /B3 /K3 /ex_z (_ : 0 = r3 0 0 0 0 0 0 0 0 0); last by m3.
  r3eq.
apply: pos_def_cong.
  apply: pos_def_diag => -[[|[|[|?]]] ?] //; rewrite mxE /=;
    [exists (7/32/26)%coqR|exists (83/108)%coqR|exists (423/448/26)%coqR] => //; lra.
have h : r3 1 0 (-5) 0 1 0 5 0 1 *m r3 (1/26) 0 (5/26) 0 1 0 (-5/26) 0 (1/26) = 1%:M by r3eq.
by case: (mulmx1_unit h).
Qed.

Lemma pos_def_block n (A D : 'M[C]_n) : pos_def A -> pos_def D -> pos_def (block_mx A 0 0 D).
Proof.
move=> hA hD v; rewrite -[v]vsubmxK => v0.
set a := usubmx v in v0 *; set b := dsubmx v in v0 *.
have -> : adj (col_mx a b) *m block_mx A 0 0 D *m col_mx a b = adj a *m A *m a + adj b *m D *m b.
  have -> : adj (col_mx a b) = row_mx (adj a) (adj b) by rewrite /adj tr_col_mx map_row_mx.
  by rewrite mul_row_block mul_row_col !mulmx0 addr0 add0r.
rewrite mxE ReD.
have nn (M : 'M[C]_n) (w : 'cV[C]_n) : pos_def M -> (0 <= Re ((adj w *m M *m w) ord0 ord0))%coqR.
  move=> hM; case: (w =P 0) => [->|/hM]; last lra.
  by rewrite mulmx0 mxE; exact: Rle_refl.
case: (a =P 0) => [a0|/hA h1]; last by apply: Rplus_lt_le_0_compat => //; exact: nn.
case: (b =P 0) => [b0|/hD h1]; last by apply: Rplus_le_lt_0_compat => //; exact: nn.
by case: v0; rewrite a0 b0 col_mx0.
Qed.

Lemma OmL0 : OmL K3 0 ex_z = block_mx 0 B3 1%:M 0.
Proof. by rewrite /OmL !mulmx0 !mul0mx !oppr0 addr0. Qed.
Lemma invOmL0 : OmL K3 0 ex_z *m block_mx 0 1%:M (invmx B3) 0 = 1%:M.
Proof.
by rewrite OmL0 mulmx_block !mulmx0 !mul0mx !mul1mx !addr0 !add0r mulmxV ?unit_B3 // -scalar_mx_block.
Qed.
Lemma pos_down : pos_def (- (Jxy 3 *m invmx (OmL K3 0 ex_z))).
Proof.
have -> : invmx (OmL K3 0 ex_z) = block_mx 0 1%:M (invmx B3) 0.
  have [u _] := mulmx1_unit invOmL0; by rewrite -[RHS](mulKmx u) invOmL0 mulmx1.
have -> : - (Jxy 3 *m block_mx 0 1%:M (invmx B3) 0) = block_mx (invmx (- B3)) 0 0 1%:M.
  rewrite /Jxy mulmx_block !mulmx0 !mul0mx !mul1mx !addr0 !add0r mulmx1 opp_block_mx oppr0 opprK.
  congr block_mx; symmetry; apply: (inv_eq (n := 3)); by rewrite mulmxN mulNmx opprK mulmxV // unit_B3.
apply: pos_def_block; last exact: pos_def1.
have uB : - B3 \in unitmx.
  have e : - B3 *m (- invmx B3) = 1%:M by rewrite mulmxN mulNmx opprK mulmxV // unit_B3.
  by case: (mulmx1_unit e).
by have [] := pos_def_inv (hermN herm_B3) pos_def_B3 uB.
Qed.

Lemma all_prop_ex0 ps pl ts : all_orders_propagate2 3 3 (kx_tiled (s_ex0 ps pl ts) 1) (ky_tiled (s_ex0 ps pl ts) 1).
Proof.
have [[k0 k1 k2] ky] := kx_ex ps pl ts (or_intror erefl).
move=> i; rewrite /kx_tiled /ky_tiled /tile_x /tile_y divn_small // modn_small // ky.
case: i => [[|[|[|?]]] ?] //=; rewrite ?k0 ?k1 ?k2; do 2 eexists; (split; [reflexivity|reflexivity|lra|left; lra]).
Qed.

Lemma diag_by_block n (A D U1 U2 : 'M[C]_n) (m1 m2 : 'rV[C]_n) :
  diag_by A (m1, U1) -> diag_by D (m2, U2) -> diag_by (block_mx A 0 0 D) (row_mx m1 m2, block_mx U1 0 0 U2).
Proof.
move=> [/= u1 e1] [/= u2 e2]; split=> /=; last first.
  by rewrite diag_mx_row !mulmx_block !mulmx0 !mul0mx !addr0 !add0r e1 e2.
have h : block_mx U1 0 0 U2 *m block_mx (invmx U1) 0 0 (invmx U2) = 1%:M.
  by rewrite mulmx_block !mulmx0 !mul0mx !addr0 !add0r !mulmxV // -scalar_mx_block.
by case: (mulmx1_unit h).
Qed.

Lemma prop_2d : propagating eig_ex (OmL K3 0 ex_z *m OmR K3 0 ex_x ex_y).
Proof.
have -> : OmL K3 0 ex_z *m OmR K3 0 ex_x ex_y = block_mx (B3 *m ex_x) 0 0 (K3 *m K3 - ex_y).
  by rewrite OmL0 /OmR !mulmx0 !mul0mx subr0 mulmx_block !mulmx0 !mul0mx !mul1mx !addr0 !add0r.
apply: eig_ex_prop (diag_by_block diag_tm' diag_te) _ => i; rewrite mxE.
case: splitP => j _; [apply: (d3_prop _ _ _ j)|apply: (d3_prop _ _ _ j)]; lra.
Qed.

Lemma solve_2d_ex_by eig (ok : eigen_oracle eig) (pr : forall n (A : 'M[C]_n), propagating eig_ex A -> propagating eig A) pv ps pl ts : exists r infos,
  solve_2d pv eig false (s_ex0 ps pl ts) 1 (nseq (size ts) conv_ex) = Some (r, infos).
Proof.
have [eKx eKy] := K3_tiled ps pl ts.
apply: (well_solve_2d pv ok (s := s_ex0 ps pl ts) (w := 1) (nt := 3) (nb := 1)) => //.
- exact: physical_ex0.
- exact: Rlt_0_1.
- by rewrite size_nseq.
- exact: all_prop_ex0.
move=> c /used_ex ->; split; first exact: conv_ex_lossless.
rewrite /propagating_layer (e_from_hE (n := 3)) (h_from_eE (n := 3)) eKx eKy; split.
- by have [] := mulmx1_unit invOmL0.
- apply/positive_definiteE; exact: pos_down.
- exact: pr prop_2d.
Qed.

Lemma solve_2d_ex pv ps pl ts : exists r infos,
  solve_2d pv eig_ex false (s_ex0 ps pl ts) 1 (nseq (size ts) conv_ex) = Some (r, infos).
Proof. exact: (solve_2d_ex_by eig_ex_ok (fun n A h => h)). Qed.

Lemma solve_conical_ex_by eig (ok : eigen_oracle eig) (pr : forall n (A : 'M[C]_n), propagating eig_ex A -> propagating eig A) pv ps pl ts : exists r infos,
  solve_1d_conical pv eig false (s_ex0 ps pl ts) 1 (nseq (size ts) conv_ex) = Some (r, infos).
Proof.
have [eKx eKy] := K3_tiled ps pl ts.
apply: (well_solve_conical pv ok (s := s_ex0 ps pl ts) (w := 1) (nt := 3) (nb := 1)) => //.
- exact: physical_ex0.
- exact: Rlt_0_1.
- by rewrite size_nseq.
- exact: all_prop_ex0.
move=> c /used_ex ->; split; [exact: conv_ex_lossless|exact: conv_ex_line|].
rewrite /propagating_layer_conical /conv_ex -/conv_ex (e_from_hE (n := 3)) !(dkE 3) !(tkE (n := 3)) eKx eKy mulmx0 !add0r; split.
- by have [] := mulmx1_unit invOmL0.
- apply/positive_definiteE; exact: pos_down.
- split; last exact: unit_B3.
  have [u e] := diag_te; rewrite /= in e.
  have -> : K3 *m K3 - ex_y = Ute *m diag_mx mte *m invmx Ute by rewrite -e mulmxK // unit_te.
  rewrite !unitmx_mul unitmx_inv unit_te /= andbT.
  have h : diag_mx mte *m r3 (-(100/47)) 0 0 0 (-(25/83)) 0 0 0 (-(100/567)) = 1%:M by rewrite /mte; r3eq.
  by case: (mulmx1_unit h).
- exact: pr prop_te.
- exact: pr prop_tm'.
Qed.

Lemma solve_conical_ex pv ps pl ts : exists r infos,
  solve_1d_conical pv eig_ex false (s_ex0 ps pl ts) 1 (nseq (size ts) conv_ex) = Some (r, infos).
Proof. exact: (solve_conical_ex_by eig_ex_ok (fun n A h => h)). Qed.
