(** Properties of whole solves (NumPy backend): energy, signs, stack composition, pseudo-inverse, polarisation,
    well-posedness.  Each theorem is closed by a lemma of the Proof*.v files; the examples show inputs meeting the
    hypotheses. *)
From Coq Require Import Reals Lra.
From mathcomp Require Import all_ssreflect ssralg matrix.
From Coquelicot Require Import Complex.
From Verif Require Import Cplx ModelTM Spec SpecSolve ProofSetup ProofEff ProofCompose ProofPinv ProofWellSolve ExampleKit.

Set Implicit Arguments.
Unset Strict Implicit.
Unset Printing Implicit Defensive.
Local Open Scope ring_scope.

(** ** C01 *)
Theorem C01_energy_1d pinv eig : eigen_oracle eig -> forall s w (convs : seq (conv3 (ff_x s))) r T1 infos,
  physical s -> phi s = None ->
  (forall c, List.In c (used s convs) -> lossless_convs c) ->
  solve_1d pinv eig false s w convs = Some (r, T1, infos) ->
  power_conserved r.
Proof. exact (@energy_solve_1d pinv eig). Qed.
Print Assumptions C01_energy_1d.

Example C01_ex ps pl ts : pl = 0%coqR \/ pl = 1%coqR ->
  exists r T1 infos,
  [/\ solve_1d pinv_ex eig_ex false (s_ex None ps pl ts) 1 (nseq (size ts) conv_ex) = Some (r, T1, infos),
      physical (s_ex None ps pl ts) & power_conserved r].
Proof.
move=> h; have [r [T1 [infos e]]] := solve_1d_ex pinv_ex ps ts h; exists r, T1, infos.
have hp : physical (s_ex None ps pl ts) by apply: physical_ex.
split=> //; apply: (C01_energy_1d eig_ex_ok hp _ _ e) => // c /used_ex ->; exact: conv_ex_lossless.
Qed.

(** ** C02 *)
Theorem C02_energy_2d pinv eig : eigen_oracle eig -> forall s w (convs : seq (conv3 (ff_y s * ff_x s))) r infos,
  physical s -> is_real (psi s) ->
  (forall c, List.In c (used s convs) -> lossless_convs c) ->
  solve_2d pinv eig false s w convs = Some (r, infos) ->
  power_conserved3 r.
Proof. exact (@energy_solve_2d pinv eig). Qed.
Print Assumptions C02_energy_2d.

Theorem C02_energy_conical pinv eig : eigen_oracle eig -> forall s w (convs : seq (conv3 (ff_y s * ff_x s))) r infos,
  physical s -> is_real (psi s) ->
  (forall c, List.In c (used s convs) -> lossless_convs c /\ line_convs c) ->
  solve_1d_conical pinv eig false s w convs = Some (r, infos) ->
  power_conserved3 r.
Proof. exact (@energy_solve_conical pinv eig). Qed.
Print Assumptions C02_energy_conical.

Example C02_ex (ps pl : R) ts : exists r infos r' infos',
  [/\ solve_2d pinv_ex eig_ex false (s_ex0 (RtoC ps) pl ts) 1 (nseq (size ts) conv_ex) = Some (r, infos),
      solve_1d_conical pinv_ex eig_ex false (s_ex0 (RtoC ps) pl ts) 1 (nseq (size ts) conv_ex) = Some (r', infos'),
      power_conserved3 r & power_conserved3 r'].
Proof.
have [r [infos e]] := solve_2d_ex pinv_ex (RtoC ps) pl ts.
have [r' [infos' e']] := solve_conical_ex pinv_ex (RtoC ps) pl ts.
exists r, infos, r', infos'; have hp := physical_ex0 (RtoC ps) pl ts.
have hr : is_real (psi (s_ex0 (RtoC ps) pl ts)) by exists ps.
split=> //.
- apply: (C02_energy_2d eig_ex_ok hp hr _ e) => c /used_ex ->; exact: conv_ex_lossless.
- apply: (C02_energy_conical eig_ex_ok hp hr _ e') => c /used_ex ->; split; [exact: conv_ex_lossless|exact: conv_ex_line].
Qed.

(** ** C03 *)
Theorem C03_nonneg_1d pinv eig up s w (convs : seq (conv3 (ff_x s))) (nt th b : R) r T1 infos :
  n_top s = RtoC nt -> (0 < nt)%coqR -> theta s = RtoC th -> (0 <= th < PI / 2)%coqR -> phi s = None ->
  n_bot s = RtoC b -> (0 < b)%coqR ->
  solve_1d pinv eig up s w convs = Some (r, T1, infos) ->
  nonneg_eff r /\
  (forall i : 'I_(ff_x s),
     (nt < Rabs (tangential nt th 1 w (period_x s) (INR i - INR (fto_x s))))%coqR -> no_reflected_power r i) /\
  (forall i : 'I_(ff_x s),
     (b < Rabs (tangential nt th 1 w (period_x s) (INR i - INR (fto_x s))))%coqR -> no_transmitted_power r i).
Proof. exact (@c03_1d pinv eig up s w convs nt th b r T1 infos). Qed.
Print Assumptions C03_nonneg_1d.

Theorem C03_nonneg_2d pinv eig up s w convs (nt th f b : R) r infos :
  n_top s = RtoC nt -> (0 < nt)%coqR -> theta s = RtoC th -> (0 <= th < PI / 2)%coqR -> phi_val s = RtoC f ->
  n_bot s = RtoC b -> (0 < b)%coqR ->
  solve_2d pinv eig up s w convs = Some (r, infos) ->
  facts3 (fun d => nonneg_eff d /\
    forall i : 'I_(ff_y s * ff_x s),
      let x := tangential nt th (cos f) w (period_x s) (INR (i %% ff_x s) - INR (fto_x s)) in
      let y := tangential nt th (sin f) w (period_y s) (INR (i %/ ff_x s) - INR (fto_y s)) in
      ((nt * nt < x * x + y * y)%coqR -> no_reflected_power d i) /\
      ((b * b < x * x + y * y)%coqR -> no_transmitted_power d i)) r.
Proof.
move=> h1 h2 h3 h4 h5 h6 h7; rewrite /solve_2d; case: (layers_of _ _) => [ls|] // /rcwa_2d_inv.
exact: (c03_sp (w := w) (r := r) h1 h2 h3 h4 h5 h6 h7).
Qed.
Print Assumptions C03_nonneg_2d.

Theorem C03_nonneg_conical pinv eig up s w convs (nt th f b : R) r infos :
  n_top s = RtoC nt -> (0 < nt)%coqR -> theta s = RtoC th -> (0 <= th < PI / 2)%coqR -> phi_val s = RtoC f ->
  n_bot s = RtoC b -> (0 < b)%coqR ->
  solve_1d_conical pinv eig up s w convs = Some (r, infos) ->
  facts3 (fun d => nonneg_eff d /\
    forall i : 'I_(ff_y s * ff_x s),
      let x := tangential nt th (cos f) w (period_x s) (INR (i %% ff_x s) - INR (fto_x s)) in
      let y := tangential nt th (sin f) w (period_y s) (INR (i %/ ff_x s) - INR (fto_y s)) in
      ((nt * nt < x * x + y * y)%coqR -> no_reflected_power d i) /\
      ((b * b < x * x + y * y)%coqR -> no_transmitted_power d i)) r.
Proof.
move=> h1 h2 h3 h4 h5 h6 h7; rewrite /solve_1d_conical; case: ifP => // _; case: (layers_of _ _) => [ls|] // /rcwa_conical_inv.
exact: (c03_sp (w := w) (r := r) h1 h2 h3 h4 h5 h6 h7).
Qed.
Print Assumptions C03_nonneg_conical.

(** Together with energy conservation: every efficiency lies in [0, 1]. *)
Theorem C03_unit_interval n (r : diffraction n) : power_conserved r -> nonneg_eff r -> eff_in_unit r.
Proof. exact (@unit_eff n r). Qed.
Print Assumptions C03_unit_interval.

(** In the example grating order +1 is evanescent in the substrate. *)
Example C03_ex ps pl ts : pl = 0%coqR \/ pl = 1%coqR ->
  exists r T1 infos,
  [/\ solve_1d pinv_ex eig_ex false (s_ex None ps pl ts) 1 (nseq (size ts) conv_ex) = Some (r, T1, infos),
      nonneg_eff r, eff_in_unit r & no_transmitted_power r ord_max].
Proof.
move=> h; have [r [T1 [infos e]]] := solve_1d_ex pinv_ex ps ts h; exists r, T1, infos.
have p3 : (0 < 3)%coqR by lra.
have [h1 [_ h3]] := C03_nonneg_1d (s := s_ex None ps pl ts) erefl p3 erefl th_ex_bound erefl erefl Rlt_0_1 e.
have [r0 [t0 [i0 [e' _ hc]]]] := C01_ex ps ts h.
move: e'; rewrite e => -[er _ _]; rewrite -er in hc.
split=> //; first exact: C03_unit_interval.
apply: h3; rewrite /tangential /= sin_th_ex.
by rewrite Rabs_pos_eq; lra.
Qed.

(** ** C05 *)
Theorem C05_zero_thickness_1d pinv eig s w ts1 ts2 cs1 c cs2 r : size cs1 = size ts1 ->
  reported_1d (solve_1d pinv eig false (with_thickness s (ts1 ++ 0%coqR :: ts2)) w (cs1 ++ c :: cs2)) = Some r ->
  reported_1d (solve_1d pinv eig false (with_thickness s (ts1 ++ ts2)) w (cs1 ++ cs2)) = Some r.
Proof. exact (@zero_solve_1d pinv eig s w ts1 ts2 cs1 c cs2 r). Qed.
Print Assumptions C05_zero_thickness_1d.

Theorem C05_zero_thickness_2d pinv eig s w ts1 ts2 cs1 c cs2 r : size cs1 = size ts1 ->
  reported_sp (solve_2d pinv eig false (with_thickness s (ts1 ++ 0%coqR :: ts2)) w (cs1 ++ c :: cs2)) = Some r ->
  reported_sp (solve_2d pinv eig false (with_thickness s (ts1 ++ ts2)) w (cs1 ++ cs2)) = Some r.
Proof. exact (@zero_solve_2d pinv eig s w ts1 ts2 cs1 c cs2 r). Qed.
Print Assumptions C05_zero_thickness_2d.

Theorem C05_zero_thickness_conical pinv eig s w ts1 ts2 cs1 c cs2 r : size cs1 = size ts1 ->
  reported_sp (solve_1d_conical pinv eig false (with_thickness s (ts1 ++ 0%coqR :: ts2)) w (cs1 ++ c :: cs2)) = Some r ->
  reported_sp (solve_1d_conical pinv eig false (with_thickness s (ts1 ++ ts2)) w (cs1 ++ cs2)) = Some r.
Proof. exact (@zero_solve_conical pinv eig s w ts1 ts2 cs1 c cs2 r). Qed.
Print Assumptions C05_zero_thickness_conical.

Example C05_ex ps : exists r,
  reported_1d (solve_1d pinv_ex eig_ex false (with_thickness (s_ex None ps 0 [::]) [:: 1; 0; 2]%coqR) 1
    [:: conv_ex; conv_ex; conv_ex]) = Some r /\
  reported_1d (solve_1d pinv_ex eig_ex false (with_thickness (s_ex None ps 0 [::]) [:: 1; 2]%coqR) 1
    [:: conv_ex; conv_ex]) = Some r.
Proof.
have [r [T1 [infos e]]] := solve_1d_ex pinv_ex ps [:: 1; 0; 2]%coqR (or_introl erefl).
have e' : reported_1d (solve_1d pinv_ex eig_ex false (with_thickness (s_ex None ps 0 [::]) [:: 1; 0; 2]%coqR) 1
    [:: conv_ex; conv_ex; conv_ex]) = Some r by rewrite [solve_1d _ _ _ _ _ _]e.
exists r; split=> //.
exact: (C05_zero_thickness_1d (s := s_ex None ps 0 [::]) (ts1 := [:: 1%coqR]) (ts2 := [:: 2%coqR])
  (cs1 := [:: conv_ex]) (c := conv_ex) (cs2 := [:: conv_ex]) erefl e').
Qed.

(** ** C06 *)
Theorem C06_split_1d pinv eig s w ts1 d1 d2 ts2 cs1 c cs2 : size cs1 = size ts1 ->
  reported_1d (solve_1d pinv eig false (with_thickness s (ts1 ++ d1 :: d2 :: ts2)) w (cs1 ++ c :: c :: cs2)) =
  reported_1d (solve_1d pinv eig false (with_thickness s (ts1 ++ (d1 + d2)%coqR :: ts2)) w (cs1 ++ c :: cs2)).
Proof. exact (@split_solve_1d pinv eig s w ts1 d1 d2 ts2 cs1 c cs2). Qed.
Print Assumptions C06_split_1d.

Theorem C06_split_2d pinv eig s w ts1 d1 d2 ts2 cs1 c cs2 : size cs1 = size ts1 ->
  reported_sp (solve_2d pinv eig false (with_thickness s (ts1 ++ d1 :: d2 :: ts2)) w (cs1 ++ c :: c :: cs2)) =
  reported_sp (solve_2d pinv eig false (with_thickness s (ts1 ++ (d1 + d2)%coqR :: ts2)) w (cs1 ++ c :: cs2)).
Proof. exact (@split_solve_2d pinv eig s w ts1 d1 d2 ts2 cs1 c cs2). Qed.
Print Assumptions C06_split_2d.

Theorem C06_split_conical pinv eig s w ts1 d1 d2 ts2 cs1 c cs2 : size cs1 = size ts1 ->
  reported_sp (solve_1d_conical pinv eig false (with_thickness s (ts1 ++ d1 :: d2 :: ts2)) w (cs1 ++ c :: c :: cs2)) =
  reported_sp (solve_1d_conical pinv eig false (with_thickness s (ts1 ++ (d1 + d2)%coqR :: ts2)) w (cs1 ++ c :: cs2)).
Proof. exact (@split_solve_conical pinv eig s w ts1 d1 d2 ts2 cs1 c cs2). Qed.
Print Assumptions C06_split_conical.

Example C06_ex ps pl : exists r,
  reported_sp (solve_2d pinv_ex eig_ex false (with_thickness (s_ex0 ps pl [::]) [:: 1; 2]%coqR) 1
    [:: conv_ex; conv_ex]) = Some r /\
  reported_sp (solve_2d pinv_ex eig_ex false (with_thickness (s_ex0 ps pl [::]) [:: (1 + 2)]%coqR) 1
    [:: conv_ex]) = Some r.
Proof.
have [r [infos e]] := solve_2d_ex pinv_ex ps pl [:: 1; 2]%coqR.
have e' : reported_sp (solve_2d pinv_ex eig_ex false (with_thickness (s_ex0 ps pl [::]) [:: 1; 2]%coqR) 1
    [:: conv_ex; conv_ex]) = Some (res r, res_te_inc r, res_tm_inc r) by rewrite [solve_2d _ _ _ _ _ _]e.
have h := @C06_split_2d pinv_ex eig_ex (s_ex0 ps pl [::]) 1 [::] 1 2 [::] [::] conv_ex [::] erefl.
by eexists; split; [exact: e'|rewrite -e'; exact: esym h].
Qed.

(** ** C08 *)
Theorem C08_superposition_2d pinv eig up s w convs r infos :
  solve_2d pinv eig up s w convs = Some (r, infos) ->
  superposed (csin (psi s)) (ccos (psi s)) (res r) (res_te_inc r) (res_tm_inc r).
Proof. exact (@super_2d pinv eig up s w convs r infos). Qed.
Print Assumptions C08_superposition_2d.

Theorem C08_superposition_conical pinv eig up s w convs r infos :
  solve_1d_conical pinv eig up s w convs = Some (r, infos) ->
  superposed (csin (psi s)) (ccos (psi s)) (res r) (res_te_inc r) (res_tm_inc r).
Proof. exact (@super_conical pinv eig up s w convs r infos). Qed.
Print Assumptions C08_superposition_conical.

Theorem C08_pure_2d pinv eig up s w convs r infos :
  solve_2d pinv eig up s w convs = Some (r, infos) ->
  (psi s = RtoC (PI / 2) -> res r = res_te_inc r) /\ (psi s = RtoC 0 -> res r = res_tm_inc r).
Proof. exact (@pure_2d pinv eig up s w convs r infos). Qed.
Print Assumptions C08_pure_2d.

Theorem C08_pure_conical pinv eig up s w convs r infos :
  solve_1d_conical pinv eig up s w convs = Some (r, infos) ->
  (psi s = RtoC (PI / 2) -> res r = res_te_inc r) /\ (psi s = RtoC 0 -> res r = res_tm_inc r).
Proof. exact (@pure_conical pinv eig up s w convs r infos). Qed.
Print Assumptions C08_pure_conical.

Example C08_ex pl ts : exists r infos,
  solve_2d pinv_ex eig_ex false (s_ex0 (RtoC (PI / 3)) pl ts) 1 (nseq (size ts) conv_ex) = Some (r, infos) /\
  superposed (RtoC (sin (PI / 3))) (RtoC (cos (PI / 3))) (res r) (res_te_inc r) (res_tm_inc r).
Proof.
have [r [infos e]] := solve_2d_ex pinv_ex (RtoC (PI / 3)) pl ts; exists r, infos; split=> //.
by rewrite -csin_real -ccos_real; apply: (C08_superposition_2d e).
Qed.

(** ** C10 *)
Theorem C10_te_tm_independent_of_psi_2d pinv eig up s w convs p r infos :
  solve_2d pinv eig up s w convs = Some (r, infos) ->
  exists r', [/\ solve_2d pinv eig up (with_psi s p) w convs = Some (r', infos),
    res_te_inc r' = res_te_inc r & res_tm_inc r' = res_tm_inc r].
Proof. exact (@psi_2d pinv eig up s w convs p r infos). Qed.
Print Assumptions C10_te_tm_independent_of_psi_2d.

Theorem C10_te_tm_independent_of_psi_conical pinv eig up s w convs p r infos :
  solve_1d_conical pinv eig up s w convs = Some (r, infos) ->
  exists r', [/\ solve_1d_conical pinv eig up (with_psi s p) w convs = Some (r', infos),
    res_te_inc r' = res_te_inc r & res_tm_inc r' = res_tm_inc r].
Proof. exact (@psi_conical pinv eig up s w convs p r infos). Qed.
Print Assumptions C10_te_tm_independent_of_psi_conical.

Example C10_ex pl ts p : exists r infos r',
  [/\ solve_2d pinv_ex eig_ex false (s_ex0 (RtoC (PI / 3)) pl ts) 1 (nseq (size ts) conv_ex) = Some (r, infos),
      solve_2d pinv_ex eig_ex false (s_ex0 p pl ts) 1 (nseq (size ts) conv_ex) = Some (r', infos)
    & res_te_inc r' = res_te_inc r].
Proof.
have [r [infos e]] := solve_2d_ex pinv_ex (RtoC (PI / 3)) pl ts.
have [r' [e' h _]] := C10_te_tm_independent_of_psi_2d p e; by exists r, infos, r'.
Qed.

(** ** C32 *)
Theorem C32_pinv_1d pinv eig : pinv_oracle pinv -> forall s w convs r,
  solve_1d pinv eig false s w convs = Some r -> solve_1d pinv eig true s w convs = Some r.
Proof. exact (@solve_1d_pinv pinv eig). Qed.
Print Assumptions C32_pinv_1d.

Theorem C32_pinv_2d pinv eig : pinv_oracle pinv -> forall s w convs r,
  solve_2d pinv eig false s w convs = Some r -> solve_2d pinv eig true s w convs = Some r.
Proof. exact (@solve_2d_pinv pinv eig). Qed.
Print Assumptions C32_pinv_2d.

Theorem C32_pinv_conical pinv eig : pinv_oracle pinv -> forall s w convs r,
  solve_1d_conical pinv eig false s w convs = Some r -> solve_1d_conical pinv eig true s w convs = Some r.
Proof. exact (@solve_conical_pinv pinv eig). Qed.
Print Assumptions C32_pinv_conical.

Example C32_ex ps ts : exists r,
  solve_1d pinv_ex eig_ex false (s_ex None ps 1 ts) 1 (nseq (size ts) conv_ex) = Some r /\
  solve_1d pinv_ex eig_ex true (s_ex None ps 1 ts) 1 (nseq (size ts) conv_ex) = Some r.
Proof.
have [r [T1 [infos e]]] := solve_1d_ex pinv_ex ps ts (or_intror erefl).
exists (r, T1, infos); split=> //; exact: (C32_pinv_1d pinv_ex_ok e).
Qed.

(** ** C47 *)
Theorem C47_returns_1d pinv eig : eigen_oracle eig -> forall s w (convs : seq (conv3 (ff_x s))) (nt nb : R),
  physical s -> n_top s = RtoC nt -> n_bot s = RtoC nb -> (0 < nb)%coqR -> pol s = 0%coqR \/ pol s = 1%coqR ->
  (size (thickness s) <= size convs)%N ->
  all_orders_propagate (ff_x s) nt (kx_vector s w) ->
  (forall c, List.In c (used s convs) ->
     [/\ lossless_convs c, propagating_modes eig (helmholtz (pol s) (kx_vector s w) c)
       & pol s = 1%coqR -> c.1.1 \in unitmx /\ positive_definite c.1.1]) ->
  exists r T1 infos, solve_1d pinv eig false s w convs = Some (r, T1, infos).
Proof. exact (@well_solve_1d pinv eig). Qed.
Print Assumptions C47_returns_1d.

Theorem C47_returns_2d pinv eig : eigen_oracle eig -> forall s w (convs : seq (conv3 (ff_y s * ff_x s))) (nt nb : R),
  physical s -> n_top s = RtoC nt -> n_bot s = RtoC nb -> (0 < nb)%coqR ->
  (size (thickness s) <= size convs)%N ->
  all_orders_propagate2 (ff_y s * ff_x s) nt (kx_tiled s w) (ky_tiled s w) ->
  (forall c, List.In c (used s convs) ->
     lossless_convs c /\ propagating_layer eig (kx_tiled s w) (ky_tiled s w) c) ->
  exists r infos, solve_2d pinv eig false s w convs = Some (r, infos).
Proof. exact (@well_solve_2d pinv eig). Qed.
Print Assumptions C47_returns_2d.

Theorem C47_returns_conical pinv eig : eigen_oracle eig -> forall s w (convs : seq (conv3 (ff_y s * ff_x s))) (nt nb : R),
  physical s -> fto_y s = 0%N -> n_top s = RtoC nt -> n_bot s = RtoC nb -> (0 < nb)%coqR ->
  (size (thickness s) <= size convs)%N ->
  all_orders_propagate2 (ff_y s * ff_x s) nt (kx_tiled s w) (ky_tiled s w) ->
  (forall c, List.In c (used s convs) ->
     [/\ lossless_convs c, line_convs c & propagating_layer_conical eig (kx_tiled s w) (ky_tiled s w) c]) ->
  exists r infos, solve_1d_conical pinv eig false s w convs = Some (r, infos).
Proof. exact (@well_solve_conical pinv eig). Qed.
Print Assumptions C47_returns_conical.

(** The hypotheses hold for the example grating: this is how [solve_1d_ex], [solve_2d_ex], [solve_conical_ex] are proved. *)
Example C47_ex ps pl ts : pl = 0%coqR \/ pl = 1%coqR ->
  exists r T1 infos, solve_1d pinv_ex eig_ex false (s_ex None ps pl ts) 1 (nseq (size ts) conv_ex) = Some (r, T1, infos).
Proof. exact: solve_1d_ex. Qed.
