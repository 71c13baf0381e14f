(** Properties of the PyTorch backend. *)
From Coq Require Import Reals Lra.
From mathcomp Require Import all_ssreflect ssralg matrix mxalgebra.
From Coquelicot Require Import Complex.
From Verif Require Import Cplx Mx Spec ModelTM ModelTorch ModelState SpecSolve SpecFilm SpecState SpecTorch ProofSetup ProofPinv
  ProofFilmSolve ProofNormal ExampleKit ProofTorch ProofTorch2 ProofTorch3 ProofTorch4 ProofFilm PropertiesFilm.

Set Implicit Arguments.
Unset Strict Implicit.
Unset Printing Implicit Defensive.
Local Open Scope ring_scope.
Import GRing.Theory.

(** ** C33: for a real substrate index the 1D solvers of the two backends agree: same efficiencies, same internal
    vectors, and amplitudes that are complex conjugates times +1 or -1 according to the side the order points to. *)
Theorem C33_torch_1d pinv eig up s w (convs : seq (conv3 (ff_x s))) r T1 infos :
  physical s -> is_real (n_bot s) ->
  solve_1d pinv eig up s w convs = Some (r, T1, infos) ->
  exists2 r', t_solve_1d pinv eig up s w convs = Some (r', T1, infos) &
    same_efficiencies r' r /\ conjugated (fun i => side (kx_vector s w i) (kx_vector s w (fto_x s))) 1 1 1 r' r.
Proof. exact (@torch_1d pinv eig up s w convs r T1 infos). Qed.
Print Assumptions C33_torch_1d.

Example C33_ex pl ts : pl = 0%coqR \/ pl = 1%coqR -> exists r r' T1 infos,
  [/\ solve_1d pinv_ex eig_ex false (s_ex None (RtoC 0) pl ts) 1 (nseq (size ts) conv_ex) = Some (r, T1, infos),
      t_solve_1d pinv_ex eig_ex false (s_ex None (RtoC 0) pl ts) 1 (nseq (size ts) conv_ex) = Some (r', T1, infos)
    & same_efficiencies r' r].
Proof.
move=> h; have [r [T1 [infos e]]] := solve_1d_ex pinv_ex (RtoC 0) ts h.
have ph : physical (s_ex None (RtoC 0) pl ts) by exact: physical_ex.
have hb : is_real (n_bot (s_ex None (RtoC 0) pl ts)) by exists 1%coqR.
have [r' e' [he _]] := C33_torch_1d ph hb e.
by exists r, r', T1, infos.
Qed.

(** ** C62: the same for the 2D and the conical solver.  PyTorch's psi is NumPy's -psi; the p amplitudes are electric
    (factor i / n) instead of magnetic; the auxiliary results keep NumPy's unconjugated transmitted amplitudes. *)
Theorem C62_torch_2d pinv eig up : (up = true -> pinv_oracle pinv) ->
  forall s w (p nt nb : R) (convs : seq (conv3 (ff_y s * ff_x s))) r infos,
  physical s -> n_top s = RtoC nt -> n_bot s = RtoC nb -> psi s = RtoC p ->
  solve_2d pinv eig up (with_psi s (RtoC (- p))) w convs = Some (r, infos) -> no_flat_mode infos ->
  exists2 r', t_solve_2d pinv eig up s w convs = Some (r', infos) &
    let sg i := side (kx_vector s w (i %% ff_x s)%N) (kx_vector s w (fto_x s)) in
    [/\ [/\ same_efficiencies (res r') (res r), same_efficiencies (res_te_inc r') (res_te_inc r)
          & same_efficiencies (res_tm_inc r') (res_tm_inc r)],
        [/\ conjugated sg (- 1) (ci / RtoC nt) (ci / RtoC nb) (res r') (res r),
            half_conjugated sg 1 (ci / RtoC nt) (- ci / RtoC nb) (res_te_inc r') (res_te_inc r)
          & half_conjugated sg (- 1) (- ci / RtoC nt) (ci / RtoC nb) (res_tm_inc r') (res_tm_inc r)]
      & [/\ T1_res r' = - T1_res r, T1_te r' = T1_te r & T1_tm r' = - T1_tm r]].
Proof. exact (@torch_2d pinv eig up). Qed.
Print Assumptions C62_torch_2d.

Theorem C62_torch_conical pinv eig up s w (p nt nb : R) (convs : seq (conv3 (ff_y s * ff_x s))) r infos :
  physical s -> n_top s = RtoC nt -> n_bot s = RtoC nb -> psi s = RtoC p ->
  solve_1d_conical pinv eig up (with_psi s (RtoC (- p))) w convs = Some (r, infos) ->
  exists2 r', t_solve_1d_conical pinv eig up s w convs = Some (r', infos) &
    let sg i := side (kx_vector s w (i %% ff_x s)%N) (kx_vector s w (fto_x s)) in
    [/\ [/\ same_efficiencies (res r') (res r), same_efficiencies (res_te_inc r') (res_te_inc r)
          & same_efficiencies (res_tm_inc r') (res_tm_inc r)],
        [/\ conjugated sg (- 1) (ci / RtoC nt) (ci / RtoC nb) (res r') (res r),
            half_conjugated sg 1 (ci / RtoC nt) (- ci / RtoC nb) (res_te_inc r') (res_te_inc r)
          & half_conjugated sg (- 1) (- ci / RtoC nt) (ci / RtoC nb) (res_tm_inc r') (res_tm_inc r)]
      & [/\ T1_res r' = - T1_res r, T1_te r' = T1_te r & T1_tm r' = - T1_tm r]].
Proof. exact (@torch_conical pinv eig up s w p nt nb convs r infos). Qed.
Print Assumptions C62_torch_conical.

Example C62_ex (p pl : R) ts : let s := s_ex0 (RtoC p) pl ts in let s' := s_ex0 (RtoC (- p)) pl ts in
  exists r infos q infos' r' q',
  [/\ solve_2d pinv_ex eig_ex false s' 1 (nseq (size ts) conv_ex) = Some (r, infos),
      t_solve_2d pinv_ex eig_ex false s 1 (nseq (size ts) conv_ex) = Some (r', infos),
      solve_1d_conical pinv_ex eig_ex false s' 1 (nseq (size ts) conv_ex) = Some (q, infos'),
      t_solve_1d_conical pinv_ex eig_ex false s 1 (nseq (size ts) conv_ex) = Some (q', infos')
    & same_efficiencies (res r') (res r) /\ same_efficiencies (res q') (res q)].
Proof.
move=> s s'; have [r [infos e]] := solve_2d_ex pinv_ex (RtoC (- p)) pl ts.
have [q [infos' e2]] := solve_conical_ex pinv_ex (RtoC (- p)) pl ts.
have ph : physical s by exact: physical_ex0.
have hp : false = true -> pinv_oracle pinv_ex by [].
have [r' e' [[h1 _ _] _ _]] := @C62_torch_2d pinv_ex eig_ex false hp s 1 p 3 1 (nseq (size ts) conv_ex) r infos
  ph erefl erefl erefl e (no_flat_ex e).
have [q' e2' [[h2 _ _] _ _]] := @C62_torch_conical pinv_ex eig_ex false s 1 p 3 1 (nseq (size ts) conv_ex) q infos'
  ph erefl erefl erefl e2.
by exists r, infos, q, infos', r', q'.
Qed.

(** ** C63: lossless structures conserve power in the PyTorch 2D and conical solvers (for 1D see C65). *)
Theorem C63_torch_energy_2d pinv eig : eigen_oracle eig ->
  forall s w (p nt nb : R) (convs : seq (conv3 (ff_y s * ff_x s))) r infos,
  physical s -> n_top s = RtoC nt -> n_bot s = RtoC nb -> psi s = RtoC p ->
  (forall c, List.In c (used s convs) -> lossless_convs c) ->
  solve_2d pinv eig false (with_psi s (RtoC (- p))) w convs = Some (r, infos) -> no_flat_mode infos ->
  exists2 r', t_solve_2d pinv eig false s w convs = Some (r', infos) & power_conserved3 r'.
Proof. exact (@t_energy_2d pinv eig). Qed.
Print Assumptions C63_torch_energy_2d.

Theorem C63_torch_energy_conical pinv eig : eigen_oracle eig ->
  forall s w (p nt nb : R) (convs : seq (conv3 (ff_y s * ff_x s))) r infos,
  physical s -> n_top s = RtoC nt -> n_bot s = RtoC nb -> psi s = RtoC p ->
  (forall c, List.In c (used s convs) -> lossless_convs c /\ line_convs c) ->
  solve_1d_conical pinv eig false (with_psi s (RtoC (- p))) w convs = Some (r, infos) ->
  exists2 r', t_solve_1d_conical pinv eig false s w convs = Some (r', infos) & power_conserved3 r'.
Proof. exact (@t_energy_conical pinv eig). Qed.
Print Assumptions C63_torch_energy_conical.

Example C63_ex (p pl : R) ts : let s := s_ex0 (RtoC p) pl ts in
  exists r infos q infos',
  [/\ t_solve_2d pinv_ex eig_ex false s 1 (nseq (size ts) conv_ex) = Some (r, infos),
      t_solve_1d_conical pinv_ex eig_ex false s 1 (nseq (size ts) conv_ex) = Some (q, infos'),
      power_conserved3 r & power_conserved3 q].
Proof.
move=> s; have [r [infos e]] := solve_2d_ex pinv_ex (RtoC (- p)) pl ts.
have [q [infos' e2]] := solve_conical_ex pinv_ex (RtoC (- p)) pl ts.
have ph : physical s by exact: physical_ex0.
have hl c : List.In c (used s (nseq (size ts) conv_ex)) -> lossless_convs c by move/used_ex => ->; exact: conv_ex_lossless.
have hl2 c : List.In c (used s (nseq (size ts) conv_ex)) -> lossless_convs c /\ line_convs c.
  by move/used_ex => ->; split; [exact: conv_ex_lossless|exact: conv_ex_line].
have [r' e' h] := @C63_torch_energy_2d pinv_ex eig_ex eig_ex_ok s 1 p 3 1 (nseq (size ts) conv_ex) r infos
  ph erefl erefl erefl hl e (no_flat_ex e).
have [q' e2' h2] := @C63_torch_energy_conical pinv_ex eig_ex eig_ex_ok s 1 p 3 1 (nseq (size ts) conv_ex) q infos'
  ph erefl erefl erefl hl2 e2.
by exists r', infos, q', infos'.
Qed.

(** ** C09: the PyTorch amplitudes do not obey the superposition law. *)
Theorem C09_superposition_refuted pinv eig : eigen_oracle eig -> forall w,
  exists s r infos, [/\ physical s, is_real (psi s), t_solve_2d pinv eig false s w [::] = Some (r, infos)
   & ~ superposed (csin (psi s)) (ccos (psi s)) (res r) (res_te_inc r) (res_tm_inc r)].
Proof.
move=> h w; have [r [infos [e hn]]] := c09_false pinv h w; exists glass_air, r, infos; split=> //; first exact: glass_physical.
by exists 0%coqR.
Qed.
Print Assumptions C09_superposition_refuted.

(** ** C64: ... they obey this one: with a minus sign for the reflected p amplitudes, and conjugated for transmission. *)
Theorem C64_torch_superposition_2d pinv eig up s w (convs : seq (conv3 (ff_y s * ff_x s))) (p : R) r infos :
  physical s -> psi s = RtoC p ->
  t_solve_2d pinv eig up s w convs = Some (r, infos) ->
  torch_superposed (fun i => side (kx_vector s w (i %% ff_x s)%N) (kx_vector s w (fto_x s))) (RtoC (sin p)) (RtoC (cos p))
    (res r) (res_te_inc r) (res_tm_inc r).
Proof. exact (@t_super_2d pinv eig up s w convs p r infos). Qed.
Print Assumptions C64_torch_superposition_2d.

Theorem C64_torch_superposition_conical pinv eig up s w (convs : seq (conv3 (ff_y s * ff_x s))) (p : R) r infos :
  physical s -> psi s = RtoC p ->
  t_solve_1d_conical pinv eig up s w convs = Some (r, infos) ->
  torch_superposed (fun i => side (kx_vector s w (i %% ff_x s)%N) (kx_vector s w (fto_x s))) (RtoC (sin p)) (RtoC (cos p))
    (res r) (res_te_inc r) (res_tm_inc r).
Proof. exact (@t_super_conical pinv eig up s w convs p r infos). Qed.
Print Assumptions C64_torch_superposition_conical.

Example C64_ex (p pl : R) ts : let s := s_ex0 (RtoC p) pl ts in
  exists r infos, t_solve_2d pinv_ex eig_ex false s 1 (nseq (size ts) conv_ex) = Some (r, infos) /\
  torch_superposed (fun i => side (kx_vector s 1 (i %% 3)%N) (kx_vector s 1 1%N)) (RtoC (sin p)) (RtoC (cos p))
    (res r) (res_te_inc r) (res_tm_inc r).
Proof.
move=> s; have [r [infos [_ [_ [e _ _ _]]]]] := C63_ex p pl ts; exists r, infos; split=> //.
exact: (C64_torch_superposition_2d (s := s) (physical_ex0 _ _ _) erefl e).
Qed.

(** ** C46: over an absorbing substrate the two backends disagree: NumPy reports more than the incident power. *)
Theorem C46_absorbing_refuted pinv eig : eigen_oracle eig -> splits_diagonal eig -> forall nr k w : R,
  (1 <= nr)%coqR -> (0 < k)%coqR -> (nr * nr < 3 * (k * k))%coqR ->
  exists r r', [/\ reported_1d (solve_1d pinv eig false (bare nr k 1 [::]) w [::]) = Some r,
     reported_1d (t_solve_1d pinv eig false (bare nr k 1 [::]) w [::]) = Some r'
   & (de_ri r' ord0 <= 1 < de_ri r ord0)%coqR].
Proof. exact (@c46_false pinv eig). Qed.
Print Assumptions C46_absorbing_refuted.

Example C46_ex w : exists r r',
  [/\ reported_1d (solve_1d pinv_ex eig_ex false (bare 1 1 1 [::]) w [::]) = Some r,
     reported_1d (t_solve_1d pinv_ex eig_ex false (bare 1 1 1 [::]) w [::]) = Some r'
   & (de_ri r' ord0 <= 1 < de_ri r ord0)%coqR].
Proof. by apply: (C46_absorbing_refuted pinv_ex eig_ex_ok eig_ex_splits); lra. Qed.

(** ** C65: the PyTorch 1D solver over any passive substrate, absorbing or not: lossless layers conserve power and no
    efficiency is negative. *)
Theorem C65_torch_passive pinv eig : eigen_oracle eig -> forall s w (convs : seq (conv3 (ff_x s))) r T1 infos,
  physical s -> phi s = None -> passive_index (n_bot s) ->
  (forall c, List.In c (used s convs) -> lossless_convs c) ->
  t_direct_1d pinv eig false s w convs = Some (r, T1, infos) ->
  t_solve_1d pinv eig false s w convs = Some (r, T1, infos) /\ power_conserved r /\ nonneg_eff r.
Proof.
by move=> h s w convs r T1 infos h1 h2 h3 h4 h5; split; [exact: direct_run|exact (passive_1d h h1 h2 h3 h4 h5)].
Qed.
Print Assumptions C65_torch_passive.

(** The runs without fallback exist: *)
Theorem C65_torch_returns pinv eig : eigen_oracle eig -> forall s w (convs : seq (conv3 (ff_x s))) (nt : R),
  physical s -> n_top s = RtoC nt -> passive_index (n_bot s) -> pol s = 0%coqR \/ pol s = 1%coqR ->
  (size (thickness s) <= size convs)%N ->
  all_orders_propagate (ff_x s) nt (kx_vector s w) ->
  (forall c, List.In c (used s convs) ->
     [/\ lossless_convs c, propagating_modes eig (helmholtz (pol s) (kx_vector s w) c)
       & pol s = 1%coqR -> c.1.1 \in unitmx /\ positive_definite c.1.1]) ->
  exists r T1 infos, t_direct_1d pinv eig false s w convs = Some (r, T1, infos).
Proof. exact (@passive_returns pinv eig). Qed.
Print Assumptions C65_torch_returns.

Example C65_ex pl ts : pl = 0%coqR \/ pl = 1%coqR -> exists r T1 infos,
  [/\ t_solve_1d pinv_ex eig_ex false (s_abs pl ts) 1 (nseq (size ts) conv_ex) = Some (r, T1, infos),
      power_conserved r & nonneg_eff r].
Proof.
move=> h; have [r [T1 [infos e]]] := s_abs_returns pinv_ex ts h; exists r, T1, infos.
have hl c : List.In c (used (s_abs pl ts) (nseq (size ts) conv_ex)) -> lossless_convs c.
  by move/used_ex => ->; exact: conv_ex_lossless.
by have [h1 [h2 h3]] := C65_torch_passive eig_ex_ok (s_abs_physical pl ts) erefl (s_abs_passive pl ts) hl e.
Qed.

(** ** C34: a stored azimuth of exactly zero is dispatched differently by the two backends ... *)
Theorem C34_dispatch_refuted : exists o fy ny nx layers, o_cell o = CRaster ny nx layers /\
  t_grating_of (o_mtype o) ny false (o_phi o) (o_pol o) fy (o_grating o) <> grating_of o fy.
Proof.
exists (Obj false 0 1 1 (Some 0) (Some 0) 0 0 (Fto 0 0) (A1 [:: 1; 1])%coqR 1%coqR (A1 [::]) TMM false (CRaster 1 1 [::]) (Some false) 0%Z false None MNone),
  0%N, 1%N, 1%N, [::]; split=> //.
by rewrite /t_grating_of /grating_of /= !eqxx.
Qed.
Print Assumptions C34_dispatch_refuted.

(** ** C66: ... and every other combination alike. *)
Theorem C66_dispatch_agree o fy ny nx layers : o_cell o = CRaster ny nx layers -> o_phi o <> Some 0 ->
  t_grating_of (o_mtype o) ny false (o_phi o) (o_pol o) fy (o_grating o) = grating_of o fy.
Proof. exact (@dispatch_agree o fy ny nx layers). Qed.
Print Assumptions C66_dispatch_agree.

Theorem C66_dispatch_vector o fy ny : o_mtype o = Some true ->
  t_grating_of (o_mtype o) ny false (o_phi o) (o_pol o) fy (o_grating o) = grating_of o fy.
Proof. by move=> h; rewrite /t_grating_of /grating_of h. Qed.
Print Assumptions C66_dispatch_vector.

Example C66_ex : let o := Obj false 0 1 1 (Some 0) (Some ci) 0 1 (Fto 0 0) (A1 [:: 1; 1])%coqR 1%coqR (A1 [::]) TMM false
    (CRaster 1 2 [::]) (Some false) 0%Z false None MNone in
  grating_of o 0 = Some 1%N /\ t_grating_of (o_mtype o) 1 false (o_phi o) (o_pol o) 0 (o_grating o) = Some 1%N.
Proof.
move=> o; have h : o_phi o <> Some 0.
  by rewrite /o /= => h1; case: h1 => h2; exact: (R1_neq_R0 h2).
rewrite (@C66_dispatch_agree o 0%N 1%N 2%N [::] erefl h); suff -> : grating_of o 0 = Some 1%N by [].
by rewrite /grating_of /= !andbF.
Qed.

(** ** C92: the automatic fallback of the inversion makes use_pinv irrelevant, also where a matrix is singular; and no 1D solve fails *)
Theorem C92_fallback_1d pinv eig : pinv_oracle pinv -> forall s w convs,
  t_solve_1d pinv eig false s w convs = t_solve_1d pinv eig true s w convs.
Proof. exact (@fallback_1d pinv eig). Qed.
Print Assumptions C92_fallback_1d.

Theorem C92_fallback_conical pinv eig : pinv_oracle pinv -> forall s w convs,
  t_solve_1d_conical pinv eig false s w convs = t_solve_1d_conical pinv eig true s w convs.
Proof. exact (@fallback_conical pinv eig). Qed.
Print Assumptions C92_fallback_conical.

Theorem C92_fallback_2d pinv eig : pinv_oracle pinv -> forall s w convs,
  t_solve_2d pinv eig false s w convs = t_solve_2d pinv eig true s w convs.
Proof. exact (@fallback_2d pinv eig). Qed.
Print Assumptions C92_fallback_2d.

Theorem C92_total_1d pinv eig up s w (convs : seq (conv3 (ff_x s))) : (size (thickness s) <= size convs)%N ->
  pol s = 0%coqR \/ pol s = 1%coqR -> exists r, t_solve_1d pinv eig up s w convs = Some r.
Proof. exact (@total_1d pinv eig up s w convs). Qed.
Print Assumptions C92_total_1d.

(** A Rayleigh wavelength: period equal to the wavelength, normal incidence, index 1 on both sides.  NumPy raises, PyTorch returns. *)
Definition rayleigh : setup := Setup (RtoC 1) (RtoC 1) (RtoC 0) None (RtoC 0) 0 1 0 1 1 [::].
Example C92_ex pinv eig : pinv_oracle pinv_ex /\ solve_1d pinv eig false rayleigh 1 [::] = None /\
  exists r, t_solve_1d pinv eig false rayleigh 1 [::] = Some r.
Proof.
split; first exact: pinv_ex_ok.
split; last by apply: C92_total_1d => //; left.
rewrite /solve_1d /rcwa_1d /transfer_1d_1 /= /transfer_1d_4.
have -> : reqb 0 0 by rewrite /reqb; case: Req_EM_T.
rewrite mulmx1 /meeinv.
case hu : (_ \in unitmx); last by [].
exfalso; move: hu; set kz := kz_1d _ _.
have -> : ci *: diagf 3 kz + ci *: diagf 3 kz = diagf 3 (fun i => ci * kz i + ci * kz i).
  by apply/matrixP => i j; rewrite !mxE; case: eqP => _ //=; rewrite ?mulr0n ?mulr0 ?addr0 ?mulr1n.
rewrite diagf_unit => /forallP /(_ ord0) /=.
have -> : kz 0%N = 0; last by rewrite mulr0 addr0 eqxx.
rewrite /kz /kz_1d /kx_vector /order /= (_ : conj _ ^+ 2 = RtoC 1 ^+ 2) ?subrr ?csqrt0 ?conj0 //.
have -> : sin_theta rayleigh = 0.
  rewrite /sin_theta /= Re_RtoC; case: Rle_dec => h; last by rewrite csin_0.
  by exfalso; move: h; rewrite /pi32; lra.
rewrite mulr0 mul0r add0r -RtoC_mul conjR !expr2 -!RtoC_mul; congr RtoC; field.
Qed.
