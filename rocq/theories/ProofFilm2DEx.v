(** A film of index 2 between index 3 and index 2, lit at azimuth 90 degrees: both solvers return. *)
From Coq Require Import Reals Lra Psatz.
From mathcomp Require Import all_ssreflect ssralg matrix mxalgebra.
From Coquelicot Require Import Complex.
From Verif Require Import Cplx Mx ModelTM Spec SpecSolve SpecFilm SpecFilm2D ProofFlux ProofEnergy1D ProofEnergy2D ProofSetup
  ProofEff ProofEnd ProofWell ProofWellSolve ProofFilm ProofFilmSolve ProofFilm2D ExampleKit ProofTorchObjEx.

Set Implicit Arguments.
Unset Strict Implicit.
Unset Printing Implicit Defensive.
Local Open Scope ring_scope.
Import GRing.Theory.

Section Film.
Variables (n : nat) (x y : nat -> R) (e : R).
Hypothesis e0 : (0 < e)%coqR.
Hypothesis below : forall i : 'I_n, (x i * x i + y i * y i < e)%coqR.
Let kx i := RtoC (x i).
Let ky i := RtoC (y i).
Let cv := uniform_convs n (RtoC e).
Let g (i : 'I_n) : R := (e - (x i * x i + y i * y i))%coqR.
Let D (f : 'I_n -> R) : 'M[C]_n := diag_mx (\row_i RtoC (f i)).

Lemma D_mul f h : D f *m D h = D (fun i => f i * h i)%coqR.
Proof. by rewrite /D mulmx_diag; congr diag_mx; apply/rowP => i; rewrite !mxE RtoC_mul. Qed.
Lemma D_add f h : D f + D h = D (fun i => f i + h i)%coqR.
Proof. by rewrite /D -raddfD; congr diag_mx; apply/rowP => i; rewrite !mxE RtoC_add. Qed.
Lemma D_opp f : - D f = D (fun i => - f i)%coqR.
Proof. by rewrite /D -raddfN; congr diag_mx; apply/rowP => i; rewrite !mxE RtoC_opp. Qed.
Lemma D_eq f h : (forall i, f i = h i) -> D f = D h.
Proof. by move=> eq; rewrite /D; congr diag_mx; apply/rowP => i; rewrite !mxE eq. Qed.
Lemma D_one : 1%:M = D (fun=> 1%coqR).
Proof. by rewrite /D -diag_const_mx; congr diag_mx; apply/rowP => i; rewrite !mxE. Qed.
Lemma D_const (a : R) : (RtoC a)%:M = D (fun=> a).
Proof. by rewrite /D -diag_const_mx; congr diag_mx; apply/rowP => i; rewrite !mxE. Qed.
Lemma D_tk (a b : nat -> R) : tk (fun i => RtoC (a i)) (fun i => RtoC (b i)) (RtoC e)^-1%:M = D (fun i => a i * / e * b i)%coqR.
Proof.
apply/matrixP => i j; rewrite !mxE; case: eqP => [->|_]; rewrite ?mulr1n ?mulr0n ?mulr0 ?mul0r // !RtoC_mul RtoC_inv //; lra.
Qed.
Lemma D_dk (a b : nat -> R) : dk n (fun i => RtoC (a i)) (fun i => RtoC (b i)) = D (fun i => a i * b i)%coqR.
Proof. by apply/matrixP => i j; rewrite !mxE; case: eqP => [->|_]; rewrite ?mulr1n ?mulr0n // RtoC_mul. Qed.
Lemma D_unit f : (forall i, f i <> 0%coqR) -> D f \in unitmx.
Proof.
move=> h; have e1 : D f *m D (fun i => / f i)%coqR = 1%:M.
  by rewrite D_mul D_one; apply: D_eq => i; rewrite Rinv_r.
by case: (mulmx1_unit e1).
Qed.

Lemma PD : e_from_h kx ky cv = block_mx (D (fun i => - (x i * / e * y i))%coqR) (D (fun i => x i * / e * x i - 1)%coqR)
  (D (fun i => 1 - y i * / e * y i)%coqR) (D (fun i => y i * / e * x i)%coqR).
Proof. by rewrite /e_from_h /cv /uniform_convs !D_tk !D_one !D_opp !D_add. Qed.
Lemma QD : h_from_e kx ky cv = block_mx (D (fun i => - (x i * y i))%coqR) (D (fun i => x i * x i - e)%coqR)
  (D (fun i => e - y i * y i)%coqR) (D (fun i => y i * x i)%coqR).
Proof. by rewrite /h_from_e /cv /uniform_convs !D_dk !D_const !D_opp !D_add. Qed.

Lemma PQD : e_from_h kx ky cv *m h_from_e kx ky cv = block_mx (D (fun i => - g i)%coqR) 0 0 (D (fun i => - g i)%coqR).
Proof.
have z : 0 = D (fun=> 0%coqR) by apply/matrixP => i j; rewrite !mxE mul0rn.
by rewrite PD QD mulmx_block !D_mul !D_add z; congr block_mx; apply: D_eq => i; rewrite /g; field; lra.
Qed.

Let gpos i : (0 < g i)%coqR.
Proof. by rewrite /g; have := below i; lra. Qed.

Definition Pinv : 'M[C]_(n + n) := h_from_e kx ky cv *m block_mx (D (fun i => - / g i)%coqR) 0 0 (D (fun i => - / g i)%coqR).
Lemma PinvE : e_from_h kx ky cv *m Pinv = 1%:M.
Proof.
rewrite /Pinv mulmxA PQD mulmx_block !mulmx0 !mul0mx !addr0 !add0r D_mul.
have -> : D (fun i => - g i * - / g i)%coqR = 1%:M.
  by rewrite D_one; apply: D_eq => i; have := gpos i; move=> h; field; lra.
by rewrite -scalar_mx_block.
Qed.

Lemma film_unit : e_from_h kx ky cv \in unitmx.
Proof. by case: (mulmx1_unit PinvE). Qed.

(** Positive power, order by order: 2 x 2 blocks with positive entries on the diagonal and positive determinant. *)
Definition G : 'M[C]_(n + n) := block_mx (D (fun i => (e - y i * y i) / g i)%coqR) (D (fun i => x i * y i / g i)%coqR)
  (D (fun i => x i * y i / g i)%coqR) (D (fun i => (e - x i * x i) / g i)%coqR).
Lemma GE : - (swap_xy n *m invmx (e_from_h kx ky cv)) = G.
Proof.
have -> : invmx (e_from_h kx ky cv) = Pinv by rewrite -[RHS](mulKmx film_unit) PinvE mulmx1.
rewrite /Pinv QD /swap_xy !mulmx_block !mulmx0 !mul0mx !addr0 !add0r !mul1mx !mulNmx !mul1mx !D_mul !D_opp /G opp_block_mx !D_opp.
by congr block_mx; apply: D_eq => i; field; have := gpos i; lra.
Qed.

Let ypos (i : 'I_n) : (0 < e - y i * y i)%coqR.
Proof. by have := below i; nra. Qed.
Let L := D (fun i => x i * y i / (e - y i * y i))%coqR.
Let W : 'M[C]_(n + n) := block_mx 1%:M L 0 1%:M.
Lemma W_unit : W \in unitmx.
Proof.
have h : W *m block_mx 1%:M (- L) 0 1%:M = 1%:M.
  by rewrite /W mulmx_block !mulmx0 !mul0mx !mul1mx !mulmx1 ?addr0 ?add0r addNr -scalar_mx_block.
by case: (mulmx1_unit h).
Qed.
Lemma adj_D f : adj (D f) = D f.
Proof. by apply/matrixP => i j; rewrite !mxE eq_sym; case: eqP => [->|_]; rewrite ?mulr1n ?mulr0n ?conjR ?conj0. Qed.

Lemma film_positive : positive_definite (- (swap_xy n *m invmx (e_from_h kx ky cv))).
Proof.
rewrite GE; apply/positive_definiteE.
have -> : G = adj W *m block_mx (D (fun i => (e - y i * y i) / g i)%coqR) 0 0 (D (fun i => e / (e - y i * y i))%coqR) *m W.
  rewrite /W adj_block !adj1 adj0 adj_D /G !mulmx_block !mulmx0 !mul0mx !mul1mx !mulmx1 ?addr0 ?add0r /L !D_mul !D_add.
  congr block_mx; apply: D_eq => i; have := gpos i; have := ypos i => h1 h2; try (field; lra).
  by rewrite {1}/g; field_simplify_eq; [|rewrite -/(g i); split; lra]; rewrite /g; ring.
apply: pos_def_cong W_unit; apply: pos_def_block; apply: pos_def_diag => i; rewrite mxE; eexists; try reflexivity.
  by apply: Rdiv_lt_0_compat; [exact: ypos|exact: gpos].
by apply: Rdiv_lt_0_compat; [|exact: ypos].
Qed.

Lemma film_lossless : lossless_convs cv.
Proof.
have h (a : R) : hermitian ((RtoC a)%:M : 'M[C]_n).
  by move=> i j; rewrite !mxE eq_sym; case: eqP => _; rewrite ?mulr1n ?mulr0n ?conjR ?conj0.
by rewrite /cv /uniform_convs -RtoC_inv; [split; exact: h|lra].
Qed.

Lemma D_prop f : (forall i, 0 < f i)%coqR -> propagating_modes eig_ex (D (fun i => - f i)%coqR).
Proof. by move=> h; apply: diag_propagates => j; exists (f j) => //; rewrite mxE. Qed.

Lemma film_propagates : propagating_layer eig_ex kx ky cv.
Proof.
split; [exact: film_unit|exact: film_positive|rewrite PQD].
have -> : block_mx (D (fun i => - g i)%coqR) 0 0 (D (fun i => - g i)%coqR) =
  diag_mx (row_mx (\row_i RtoC (- g i)) (\row_i RtoC (- g i))) by rewrite diag_mx_row.
apply: diag_propagates => j; rewrite mxE; case: splitP => k _; exists (g k) => //; by rewrite mxE.
Qed.

Lemma film_propagates_conical : propagating_layer_conical eig_ex kx ky cv.
Proof.
have xpos (i : 'I_n) : (0 < e - x i * x i)%coqR by have := below i; nra.
have ie : (0 < / e)%coqR by exact: Rinv_0_lt_compat.
rewrite /propagating_layer_conical /cv /uniform_convs; split; [exact: film_unit|exact: film_positive|split| |].
- by rewrite D_dk D_const D_opp D_add; apply: D_unit => i; have := xpos i; lra.
- rewrite D_tk D_one D_opp D_add; apply: D_unit => i h; have := xpos i.
  have : (x i * / e * x i * e = 1 * e)%coqR by congr (_ * _)%coqR; lra.
  by have -> : (x i * / e * x i * e = x i * x i)%coqR; [field; lra|lra].
- rewrite !D_dk D_const D_opp !D_add; rewrite (@D_eq _ (fun i => - g i)%coqR); first exact: D_prop.
  by move=> i; rewrite /g; ring.
rewrite D_tk D_dk D_one D_const D_opp D_add D_mul D_add (@D_eq _ (fun i => - g i)%coqR); first exact: D_prop.
by move=> i; rewrite /g; field; lra.
Qed.
End Film.

(** Azimuth 90 degrees, three orders along x. *)
Definition s_side (ps pl : R) (ts : seq R) : setup :=
  Setup (RtoC 3) (RtoC 1) (RtoC th_ex) (Some (RtoC (PI / 2))) (RtoC ps) pl 1 0 2 2 ts.
Definition films_side (ts : seq R) : seq (C * R) := map (fun t => (RtoC 4, t)) ts.

Section Side.
Variables (ps pl : R) (ts : seq R).
Let s := s_side ps pl ts.
Let x (i : nat) : R := (order 1 (i %% 3) / 2)%coqR.

Lemma side_kx : kx_tiled s 1 = fun i => RtoC (x i).
Proof.
apply: FunctionalExtensionality.functional_extensionality => i.
have [kE _] := kx_phys (s := s) (f := (PI / 2)%coqR) 1 erefl erefl th_ex_bound erefl.
by rewrite /kx_tiled /tile_x kE cos_PI2 /x -[fto_x s]/1%N -[period_x s]/2%coqR -[ff_x s]/3%N; congr RtoC; field.
Qed.
Let y (i : nat) : R := (1 + INR (i %/ 3) / 2)%coqR.
Lemma side_ky : ky_tiled s 1 = fun i => RtoC (y i).
Proof.
apply: FunctionalExtensionality.functional_extensionality => i.
have [_ kE] := kx_phys (s := s) (f := (PI / 2)%coqR) 1 erefl erefl th_ex_bound erefl.
rewrite /ky_tiled /tile_y kE sin_PI2 sin_th_ex /order -[fto_y s]/0%N -[period_y s]/2%coqR -[ff_x s]/3%N -[INR 0]/0%coqR; congr RtoC.
by rewrite /y; field.
Qed.
Lemma side_x (i : 'I_3) : (x i * x i <= 1 / 4)%coqR.
Proof. by rewrite /x /order; case: i => -[|[|[|//]]] /= _; lra. Qed.
Lemma side_y (i : 'I_3) : y i = 1%coqR.
Proof. by rewrite /y divn_small // -[INR 0]/0%coqR; field. Qed.
Lemma side_below e : (5 / 4 < e)%coqR -> forall i : 'I_3, (x i * x i + y i * y i < e)%coqR.
Proof. by move=> he i; rewrite side_y; have := side_x i; lra. Qed.

Lemma side_physical : physical s.
Proof.
split=> /=; try lra; [exists 3%coqR => //; lra|by exists th_ex => //; exact: th_ex_bound|by move=> p [<-]; exists (PI / 2)%coqR].
Qed.
Lemma side_orders : all_orders_propagate2 (ff_y s * ff_x s) 3 (kx_tiled s 1) (ky_tiled s 1).
Proof.
move=> i; exists (x i), (y i); rewrite side_kx side_ky; split=> //.
  by apply: side_below; lra.
by right; rewrite side_y; lra.
Qed.
Lemma side_used c : List.In c (used s (map (fun ed => uniform_convs (ff_y s * ff_x s) ed.1) (films_side ts))) ->
  c = uniform_convs (ff_y s * ff_x s) (RtoC 4).
Proof.
rewrite /used; move: (size _) => k; rewrite /films_side -map_comp.
by elim: ts k => [|t l IH] [|k] //= [<-|/IH].
Qed.

Lemma side_2d pv : exists r infos,
  solve_2d pv eig_ex false s 1 (map (fun ed => uniform_convs (ff_y s * ff_x s) ed.1) (films_side ts)) = Some (r, infos).
Proof.
have e4 : (0 < 4)%coqR by lra.
have b : forall i : 'I_3, (x i * x i + y i * y i < 4)%coqR by apply: side_below; lra.
apply: (well_solve_2d pv eig_ex_ok (s := s) (w := 1) (nt := 3) (nb := 1) side_physical erefl erefl); first lra.
- by rewrite !size_map.
- exact: side_orders.
move=> c /side_used ->; rewrite side_kx side_ky; split.
  exact: (@film_lossless 3 4 e4).
exact: (@film_propagates 3 x y 4 e4 b).
Qed.
Lemma side_conical pv : exists r infos,
  solve_1d_conical pv eig_ex false s 1 (map (fun ed => uniform_convs (ff_y s * ff_x s) ed.1) (films_side ts)) = Some (r, infos).
Proof.
have e4 : (0 < 4)%coqR by lra.
have b : forall i : 'I_3, (x i * x i + y i * y i < 4)%coqR by apply: side_below; lra.
apply: (well_solve_conical pv eig_ex_ok (s := s) (w := 1) (nt := 3) (nb := 1) side_physical erefl erefl erefl); first lra.
- by rewrite !size_map.
- exact: side_orders.
move=> c /side_used ->; rewrite side_kx side_ky; split.
- exact: (@film_lossless 3 4 e4).
- by rewrite /line_convs /uniform_convs -scalar_mxM mulVf //; apply: RtoC_neq0; lra.
exact: (@film_propagates_conical 3 x y 4 e4 b).
Qed.
Lemma side_regular ed : List.In ed (films_side ts) -> ed.1 != 0 /\ RtoC (3 * sin th_ex) ^+ 2 != ed.1.
Proof.
move=> h; have [t _ ->] := In_map h; rewrite /= sin_th_ex; split; first by apply: RtoC_neq0; lra.
by rewrite expr2 -RtoC_mul; apply/eqP => /RtoC_inj; lra.
Qed.
Lemma side_thick ed : (forall t, List.In t ts -> (0 <= t)%coqR) -> List.In ed (films_side ts) -> (0 <= ed.2)%coqR.
Proof. by move=> ht h; have [t h' ->] := In_map h; exact: ht. Qed.
End Side.
