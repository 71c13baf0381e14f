(** Corollaries of the backend comparison, and concrete runs of the PyTorch solver. *)
From Coq Require Import Reals Lra Psatz.
From mathcomp Require Import all_ssreflect ssralg matrix mxalgebra.
From Coquelicot Require Import Complex.
From Verif Require Import Cplx Mx Spec ModelTM ModelTorch ModelState SpecSolve SpecTorch ProofFlux ProofEnergy1D ProofEnergy2D
  ProofSetup ProofEff ProofFilm ProofPinv ProofFilmSolve ProofSubstrate ProofNormal ProofStack ProofCompose ProofWell
  ProofWellSolve ExampleKit ProofTorch ProofTorch2.

Set Implicit Arguments.
Unset Strict Implicit.
Unset Printing Implicit Defensive.
Local Open Scope ring_scope.
Import GRing.Theory.

Lemma same_power n (a b : diffraction n) : same_efficiencies a b -> power_conserved b -> power_conserved a.
Proof.
move=> h; rewrite /power_conserved /total => <-.
by congr (_ + _)%coqR; apply: eq_bigr => i _; have [[_ _ h1] [_ _ h2]] := h i.
Qed.
Lemma same_nonneg n (a b : diffraction n) : same_efficiencies a b -> nonneg_eff b -> nonneg_eff a.
Proof.
move=> h nn i; have [[h1 h2 h3] [h4 h5 h6]] := h i; have [[a1 a2 a3] [a4 a5 a6]] := nn i.
by rewrite h1 h2 h3 h4 h5 h6.
Qed.

Section Energy.
Variable pinv : forall n, 'M[C]_n -> 'M[C]_n.
Variable eig : forall n, 'M[C]_n -> 'rV[C]_n * 'M[C]_n.
Hypothesis heig : eigen_oracle eig.

Lemma with_psi_phys s p : physical s -> physical (with_psi s p).
Proof. by []. Qed.

Lemma t_energy_2d s w (p nt nb : R) (convs : seq (conv3 (ff_y s * ff_x s))) r infos :
  physical s -> n_top s = RtoC nt -> n_bot s = RtoC nb -> psi s = RtoC p ->
  (forall c, List.In c (used s convs) -> lossless_convs c) ->
  solve_2d pinv eig false (with_psi s (RtoC (- p))) w convs = Some (r, infos) -> no_flat_mode infos ->
  exists2 r', t_solve_2d pinv eig false s w convs = Some (r', infos) & power_conserved3 r'.
Proof.
move=> ph h1 h2 h3 hl e hf.
have hp : false = true -> pinv_oracle pinv by [].
have [r' e' [[a1 a2 a3] _ _]] := torch_2d hp ph h1 h2 h3 e hf; exists r' => //.
have hl' c : List.In c (used (with_psi s (RtoC (- p))) convs) -> lossless_convs c by exact: hl.
have hr : is_real (psi (with_psi s (RtoC (- p)))) by exists (- p)%coqR.
have [b1 b2 b3] := energy_solve_2d heig (with_psi_phys (RtoC (- p)) ph) hr hl' e.
by split; [apply: same_power b1|apply: same_power b2|apply: same_power b3].
Qed.

Lemma t_energy_conical s w (p nt nb : R) (convs : seq (conv3 (ff_y s * ff_x s))) r infos :
  physical s -> n_top s = RtoC nt -> n_bot s = RtoC nb -> psi s = RtoC p ->
  (forall c, List.In c (used s convs) -> lossless_convs c /\ line_convs c) ->
  solve_1d_conical pinv eig false (with_psi s (RtoC (- p))) w convs = Some (r, infos) ->
  exists2 r', t_solve_1d_conical pinv eig false s w convs = Some (r', infos) & power_conserved3 r'.
Proof.
move=> ph h1 h2 h3 hl e.
have [r' e' [[a1 a2 a3] _ _]] := torch_conical ph h1 h2 h3 e; exists r' => //.
have hl' c : List.In c (used (with_psi s (RtoC (- p))) convs) -> lossless_convs c /\ line_convs c by exact: hl.
have hr : is_real (psi (with_psi s (RtoC (- p)))) by exists (- p)%coqR.
have [b1 b2 b3] := energy_solve_conical heig (with_psi_phys (RtoC (- p)) ph) hr hl' e.
by split; [apply: same_power b1|apply: same_power b2|apply: same_power b3].
Qed.
End Energy.

(** ** The modes of a 2D run *)
Lemma infos_q n pinv eig up kx ky c s k0 (ls : seq (layer n)) F G T F' G' T' infos :
  stack_with (step_2d pinv eig up kx ky c s k0) ls (F, G, T, [::]) = Some (F', G', T', infos) ->
  forall f, List.In f infos -> exists2 l, List.In l ls & is_q f = sqrtv (eig (n + n)%N (Om2 kx ky l)).1.
Proof.
elim: ls F' G' T' infos => [|l ls IH] F' G' T' infos /=; first by case=> _ _ _ <-.
case e: (stack_with _ _ _) => [[[[F1 G1] T1] i1]|] //; rewrite /step_2d.
rewrite /transfer_2d_2 -/(Om2 kx ky l); case eE: (eig _ _) => [lam W].
case: (meeinv _ _ _) => [Q|] //.
case: (transfer_2d_3 _ _ _ _ _ _ _ _ _ _ _ _) => [[[[[F2 G2] T2] A2] B2]|] // [_ _ _ <-] f /in_rcons [h|->].
  by have [l' h1 h2] := IH _ _ _ _ e f h; exists l' => //; right.
by exists l; [left|rewrite eE].
Qed.

Lemma Om2_ex ps pl ts d : Om2 (kx_tiled (s_ex0 ps pl ts) 1) (ky_tiled (s_ex0 ps pl ts) 1) (Layer ex_x ex_y ex_z d) =
  block_mx (B3 *m ex_x) 0 0 (K3 *m K3 - ex_y).
Proof.
rewrite -(maxwell_E (n := 3)) (e_from_hE (n := 3)) (h_from_eE (n := 3)) /=.
have [-> ->] := K3_tiled ps pl ts.
by rewrite OmL0 /OmR !mulmx0 !mul0mx subr0 mulmx_block !mulmx0 !mul0mx !mul1mx !addr0 !add0r.
Qed.

Lemma no_flat_ex ps pl ts r infos :
  solve_2d pinv_ex eig_ex false (s_ex0 ps pl ts) 1 (nseq (size ts) conv_ex) = Some (r, infos) -> no_flat_mode infos.
Proof.
rewrite /solve_2d; case e: (layers_of _ _) => [ls|] //; rewrite /rcwa_2d.
case: (transfer_sp_1 _ _ _ _ _) => [[[[[[[kt kb] c] s'] F] G] T]|] //.
case es: (stack_with _ _ _) => [[[[F' G'] T'] is']|] //.
case: (transfer_sp_4 _ _ _ _ _ _ _ _ _ _ _) => [r'|] // [_ <-] f hf j.
have [l hl ->] := infos_q es hf; have := used_ex (layers_of_in e hl).
case: l {hl} => ex ey ez d /= [-> -> ->]; rewrite Om2_ex mxE.
have [i ->] := eig_ex_val (diag_by_block diag_tm' diag_te) j.
have [x hx ->] : exists2 x : R, (1 / 100 <= x)%coqR & row_mx mtm mte ord0 i = RtoC (- x).
  rewrite mxE; case: splitP => k _; rewrite mxE; case: k => [[|[|[|?]]] ?] //=; eexists; rewrite ?Ropp_involutive; try reflexivity; lra.
rewrite csqrt_neg; last lra.
rewrite Ropp_involutive -[ci * RtoC (sqrt x)]/(Cmult ci (RtoC (sqrt x))) Cmod_mult Cmod_real Rabs_pos_eq; last exact: sqrt_pos.
have -> : Cmod ci = 1%coqR by rewrite /Cmod /ci /Ci /=; rewrite -[RHS]sqrt_1; congr sqrt; ring.
rewrite Rmult_1_l -[X in (X <= _)%coqR]sqrt_square; last lra.
by apply: sqrt_le_1_alt; lra.
Qed.

(** A grating over an absorbing substrate, index 1 - i. *)
Definition s_abs (pl : R) (ts : seq R) : setup :=
  Setup (RtoC 3) (1, -1)%coqR (RtoC th_ex) None (RtoC 0) pl 1 0 2 2 ts.

Lemma s_abs_physical pl ts : physical (s_abs pl ts).
Proof. by have := @physical_ex None (RtoC 0) pl ts; apply. Qed.

Lemma s_abs_passive pl ts : passive_index (n_bot (s_abs pl ts)).
Proof. by split; rewrite /= /Re /Im /=; lra. Qed.

Lemma s_abs_returns pv pl ts : pl = 0%coqR \/ pl = 1%coqR ->
  exists r T1 infos, t_direct_1d pv eig_ex false (s_abs pl ts) 1 (nseq (size ts) conv_ex) = Some (r, T1, infos).
Proof.
move=> hpl; have [[k0 k1 k2] _] := kx_ex (RtoC 0) pl ts (or_introl erefl).
have ek : kx_vector (s_abs pl ts) 1 = kx_vector (s_ex None (RtoC 0) pl ts) 1 by [].
apply: (passive_returns pv eig_ex_ok (s := s_abs pl ts) (nt := 3) (s_abs_physical pl ts) erefl (s_abs_passive pl ts) hpl).
- by rewrite size_nseq.
- move=> i; rewrite ek; case: i => [[|[|[|?]]] ?] //=; rewrite ?k0 ?k1 ?k2; eexists; try reflexivity; lra.
move=> c /used_ex ->; split; first exact: conv_ex_lossless.
- have eK : diagf 3 (kx_vector (s_ex None (RtoC 0) pl ts) 1) = K3 by apply: K3E.
  rewrite ek /helmholtz; case: Req_EM_T => pe.
  + rewrite (te_operatorE (n := 3)) eK; exact: prop_te.
  + rewrite (tm_operatorE (n := 3)) eK; exact: prop_tm.
- by move=> _; split; [exact: unit_x|apply/positive_definiteE; exact: pos_def_x].
Qed.

(** ** Dispatch *)
Lemma dispatch_agree o fy ny nx layers : o_cell o = CRaster ny nx layers -> o_phi o <> Some 0 ->
  t_grating_of (o_mtype o) ny false (o_phi o) (o_pol o) fy (o_grating o) = grating_of o fy.
Proof.
move=> hc hp; rewrite /t_grating_of /grating_of hc; case: (o_mtype o) => [[|]|] //.
case: ifP => // _; case e: (o_phi o) hp => [p|] //= hp.
have -> : (p == 0) = false by apply/eqP => h; apply: hp; rewrite h.
by [].
Qed.
