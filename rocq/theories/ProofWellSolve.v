(** Solver-level well-posedness: no LinAlgError / ValueError / IndexError can occur for lossless propagating stacks. *)
From Coq Require Import Reals Lra.
From mathcomp Require Import all_ssreflect ssralg matrix.
From Coquelicot Require Import Complex.
From Verif Require Import Cplx Mx ModelTM ProofFlux ProofEnergy1D ProofEnergy2D Spec SpecSolve ProofSetup ProofWell.

Set Implicit Arguments.
Unset Strict Implicit.
Unset Printing Implicit Defensive.
Local Open Scope ring_scope.
Import GRing.Theory.

Lemma te_operatorE n kx (c : conv3 n) : te_operator kx c = diagf n kx *m diagf n kx - c.1.2.
Proof. by case: c => [[ex ey] ez]; rewrite diagfM; apply/matrixP => i j; rewrite !mxE expr2; case: eqP. Qed.

Lemma tm_operatorE n kx (c : conv3 n) : tm_operator kx c = c.1.1 *m (diagf n kx *m c.2 *m diagf n kx - 1%:M).
Proof.
case: c => [[ex ey] ez]; congr (_ *m _); rewrite /diagf mul_mx_diag mul_diag_mx.
by apply/matrixP => i j; rewrite !mxE; case: eqP.
Qed.

Lemma positive_definiteE n (A : 'M[C]_n) : positive_definite A <-> pos_def A.
Proof.
by split=> h v v0; have := h v v0; rewrite -mulmxA dot_sum Re_sum.
Qed.

Lemma layers_of_some n (convs : seq (conv3 n)) ts : (size ts <= size convs)%N ->
  exists ls, layers_of convs ts = Some ls.
Proof.
elim: ts convs => [|t ts IH] [|[[ex ey] ez] cs] //= h; try by eexists.
by have [ls ->] := IH cs h; eexists.
Qed.

Lemma kz_pos (nt x : R) : (x * x < nt * nt)%coqR -> (0 < Re (conj (csqrt (RtoC nt ^+ 2 - RtoC x ^+ 2)))%R)%coqR.
Proof.
move=> h; rewrite !expr2 -!RtoC_mul -RtoC_sub Re_conj csqrt_nonneg; last lra.
by rewrite Re_RtoC; apply: sqrt_lt_R0; lra.
Qed.

Section Top.
Variable pinv : forall n, 'M[C]_n -> 'M[C]_n.
Variable eig : forall n, 'M[C]_n -> 'rV[C]_n * 'M[C]_n.
Hypothesis heig : eigen_oracle eig.

Lemma well_solve_1d s w (convs : seq (conv3 (ff_x s))) (nt nb : R) :
  physical s -> n_top s = RtoC nt -> n_bot s = RtoC nb -> (0 < nb)%coqR -> pol s = 0%coqR \/ pol s = 1%coqR ->
  (size (thickness s) <= size convs)%N ->
  all_orders_propagate (ff_x s) nt (kx_vector s w) ->
  (forall c, List.In c (used s convs) ->
     [/\ lossless_convs c, propagating_modes eig (helmholtz (pol s) (kx_vector s w) c)
       & pol s = 1%coqR -> c.1.1 \in unitmx /\ positive_definite c.1.1]) ->
  exists r T1 infos, solve_1d pinv eig false s w convs = Some (r, T1, infos).
Proof.
move=> [[nt' h0 h1] [th h2 h3] hp _ _] ent enb hnb hpol hsz hall hl; rewrite /solve_1d.
have {}h0 : (0 < nt)%coqR by move: h0; rewrite ent in h1; case: h1 => ->.
have [f hf] := phi_real hp; have [kxE _] := kx_phys w ent h3 h2 hf.
have rk : real_vec (ff_x s) (kx_vector s w) by move=> i _; rewrite kxE conjR.
have [ls e] := layers_of_some hsz; rewrite e ent enb.
apply: well_1d => //.
  by move=> i li; have [x e1 /kz_pos] := hall (Ordinal li); rewrite /kz_1d /= in e1 *; rewrite e1.
move=> l /(layers_of_in e) /hl [[hx hy hz] hm ht].
have ll : lossless l by split; apply: hermitian_herm.
move: hm; rewrite /helmholtz; case: Req_EM_T => pe.
  rewrite te_operatorE /= pe => hm.
  exact: (good_te pinv (eigen_eig_ok heig) rk ll hm).
have pe1 : pol s = 1%coqR by case: hpol.
rewrite tm_operatorE /= pe1 => hm; have [uE /positive_definiteE pE] := ht pe1.
exact: (good_tm pinv (eigen_eig_ok heig) rk ll uE pE hm).
Qed.

End Top.

Lemma tkE n ka kb (ez : 'M[C]_n) : tk ka kb ez = diagf n ka *m ez *m diagf n kb.
Proof. by rewrite /diagf mul_mx_diag mul_diag_mx; apply/matrixP => i j; rewrite !mxE. Qed.
Lemma dkE n ka kb : dk n ka kb = diagf n ka *m diagf n kb.
Proof. by rewrite diagfM; apply/matrixP => i j; rewrite !mxE; case: eqP. Qed.

Lemma e_from_hE n kx ky (c : conv3 n) : e_from_h kx ky c = OmL (diagf n kx) (diagf n ky) c.2.
Proof. by case: c => [[ex ey] ez]; rewrite /= !tkE. Qed.
Lemma h_from_eE n kx ky (c : conv3 n) : h_from_e kx ky c = OmR (diagf n kx) (diagf n ky) c.1.1 c.1.2.
Proof. by case: c => [[ex ey] ez]; rewrite /= !dkE /OmR mulNmx. Qed.

Lemma diagfC n f g : diagf n f *m diagf n g = diagf n g *m diagf n f.
Proof. by rewrite !diagfM; apply: diagf_eq => i _; rewrite mulrC. Qed.

Lemma maxwell_E n kx ky (l : layer n) :
  e_from_h kx ky (epx l, epy l, epzi l) *m h_from_e kx ky (epx l, epy l, epzi l) = Om2 kx ky l.
Proof. by rewrite e_from_hE h_from_eE OmLR // diagfC. Qed.

Lemma kz_pos2 (nt x y : R) : (x * x + y * y < nt * nt)%coqR ->
  (0 < Re (conj (csqrt (RtoC nt ^+ 2 - RtoC x ^+ 2 - RtoC y ^+ 2)))%R)%coqR.
Proof.
move=> h; rewrite !expr2 -!RtoC_mul -!RtoC_sub Re_conj csqrt_nonneg; last lra.
by rewrite Re_RtoC; apply: sqrt_lt_R0; lra.
Qed.

Section TopSp.
Variable pinv : forall n, 'M[C]_n -> 'M[C]_n.
Variable eig : forall n, 'M[C]_n -> 'rV[C]_n * 'M[C]_n.
Hypothesis heig : eigen_oracle eig.

Lemma all2_ok n (nt : R) kx ky : all_orders_propagate2 n nt kx ky ->
  varphi_ok n kx ky /\ (forall i, (i < n)%N -> (0 < Re (kz_2d (RtoC nt) kx ky i))%coqR).
Proof.
move=> h; split.
  apply/forallP => i; have [x [y [-> -> _]]] := h i.
  by case=> n0; rewrite (RtoC_neq0 n0) ?orbT.
by move=> i li; have [x [y [e1 e2 /kz_pos2]]] := h (Ordinal li); rewrite /kz_2d /= in e1 e2 *; rewrite e1 e2.
Qed.

Lemma well_solve_2d s w (convs : seq (conv3 (ff_y s * ff_x s))) (nt nb : R) :
  physical s -> n_top s = RtoC nt -> n_bot s = RtoC nb -> (0 < nb)%coqR ->
  (size (thickness s) <= size convs)%N ->
  all_orders_propagate2 (ff_y s * ff_x s) nt (kx_tiled s w) (ky_tiled s w) ->
  (forall c, List.In c (used s convs) ->
     lossless_convs c /\ propagating_layer eig (kx_tiled s w) (ky_tiled s w) c) ->
  exists r infos, solve_2d pinv eig false s w convs = Some (r, infos).
Proof.
move=> [[nt' h0 h1] [th h2 h3] hp _ _] ent enb hnb hsz hall hl; rewrite /solve_2d.
have {}h0 : (0 < nt)%coqR by move: h0; rewrite ent in h1; case: h1 => ->.
have [f hf] := phi_real hp; have [rx ry _] := tiled_phys w ent h3 h2 hf.
have [hv hk] := all2_ok hall.
have [ls e] := layers_of_some hsz; rewrite e ent enb.
apply: (well_2d pinv (eigen_eig_ok heig)) => //.
move=> l /(layers_of_in e) /hl [[hx hy hz] [u1 /positive_definiteE p1 m1]].
split; first by split; apply: hermitian_herm.
- by rewrite e_from_hE in u1.
- by rewrite e_from_hE in p1.
- by rewrite maxwell_E in m1.
Qed.

Lemma well_solve_conical s w (convs : seq (conv3 (ff_y s * ff_x s))) (nt nb : R) :
  physical s -> fto_y s = 0%N -> n_top s = RtoC nt -> n_bot s = RtoC nb -> (0 < nb)%coqR ->
  (size (thickness s) <= size convs)%N ->
  all_orders_propagate2 (ff_y s * ff_x s) nt (kx_tiled s w) (ky_tiled s w) ->
  (forall c, List.In c (used s convs) ->
     [/\ lossless_convs c, line_convs c & propagating_layer_conical eig (kx_tiled s w) (ky_tiled s w) c]) ->
  exists r infos, solve_1d_conical pinv eig false s w convs = Some (r, infos).
Proof.
move=> [[nt' h0 h1] [th h2 h3] hp _ _] hfy ent enb hnb hsz hall hl; rewrite /solve_1d_conical hfy eqxx.
have {}h0 : (0 < nt)%coqR by move: h0; rewrite ent in h1; case: h1 => ->.
have [f hf] := phi_real hp; have [rx ry _] := tiled_phys w ent h3 h2 hf.
have [hv hk] := all2_ok hall.
have [ls e] := layers_of_some hsz; rewrite e ent enb.
apply: (@well_conical pinv eig (eigen_eig_ok heig) _ _ _ _ _ (ky_vector s w 0%N)) => //.
  move=> i; rewrite /ky_tiled /tile_y {1}/ff_y hfy mul1n => lt; by rewrite divn_small.
move=> l /(layers_of_in e) /hl [[hx hy hz] hline []] u1 /positive_definiteE p1 [u2 u3] m1 m2.
rewrite ?e_from_hE !tkE !dkE in u1 p1 u2 u3 m1 m2.
by split; split=> //; split; apply: hermitian_herm.
Qed.

End TopSp.
