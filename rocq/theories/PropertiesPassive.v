(** Properties about absorbing gratings. *)
From Coq Require Import Reals Lra Psatz.
From mathcomp Require Import all_ssreflect ssralg matrix.
From Coquelicot Require Import Complex Hierarchy RInt.
From Verif Require Import Cplx Mx Spec SpecSolve SpecFilm SpecField SpecState SpecVec SpecPassive ModelTM ModelField ModelVec ModelState
  ProofFlux ProofEff ProofNormal ProofEnd ProofEnd2 ProofObjEx ProofPassive ProofPassive2 ProofPassive3 ExampleKit PropertiesFilm
  PropertiesState.

Set Implicit Arguments.
Unset Strict Implicit.
Unset Printing Implicit Defensive.
Local Open Scope ring_scope.
Import GRing.Theory.

(** ** C86: without gain in the layers, reflected and transmitted power together do not exceed the incident power *)
Theorem C86_passive_1d pinv eig : eigen_oracle eig -> forall s w (convs : seq (conv3 (ff_x s))) r T1 infos,
  physical s -> phi s = None -> (0 < w)%coqR -> (forall t, List.In t (thickness s) -> (0 <= t)%coqR) ->
  (forall c, List.In c (used s convs) -> passive_convs c) ->
  solve_1d pinv eig false s w convs = Some (r, T1, infos) -> power_bounded r.
Proof. exact (@passive_solve_1d pinv eig). Qed.
Print Assumptions C86_passive_1d.

Theorem C86_passive_2d pinv eig : eigen_oracle eig -> forall s w (convs : seq (conv3 (ff_y s * ff_x s))) r infos,
  physical s -> is_real (psi s) -> (0 < w)%coqR -> (forall t, List.In t (thickness s) -> (0 <= t)%coqR) ->
  (forall c, List.In c (used s convs) -> passive_convs c) ->
  solve_2d pinv eig false s w convs = Some (r, infos) -> power_bounded3 r.
Proof. exact (@passive_solve_2d pinv eig). Qed.
Print Assumptions C86_passive_2d.

Theorem C86_passive_conical pinv eig : eigen_oracle eig -> forall s w (convs : seq (conv3 (ff_y s * ff_x s))) r infos,
  physical s -> is_real (psi s) -> (0 < w)%coqR -> (forall t, List.In t (thickness s) -> (0 <= t)%coqR) ->
  (forall c, List.In c (used s convs) -> passive_convs c /\ line_convs c) ->
  solve_1d_conical pinv eig false s w convs = Some (r, infos) -> power_bounded3 r.
Proof. exact (@passive_solve_conical pinv eig). Qed.
Print Assumptions C86_passive_conical.

(** From the public attributes: indices whose squares have non-positive imaginary part. *)
Theorem C86_passive_object pinv eig : eigen_oracle eig -> forall o o' r,
  physical_obj o -> passive_cell_of o -> (0 < o_wavelength o)%coqR -> thick_obj o -> o_use_pinv o = false ->
  conv_solve pinv eig o = (o', Solved r) -> report_all power_bounded r.
Proof. exact (@passive_end pinv eig). Qed.
Print Assumptions C86_passive_object.

(** ... and then every efficiency lies in [0, 1], over a lossless substrate. *)
Theorem C86_unit_interval pinv eig : eigen_oracle eig -> forall o o' r (b : R),
  physical_obj o -> passive_cell_of o -> (0 < o_wavelength o)%coqR -> thick_obj o -> o_use_pinv o = false ->
  o_nbot o = RtoC b -> (0 < b)%coqR -> conv_solve pinv eig o = (o', Solved r) -> report_all eff_in_unit r.
Proof.
move=> heig o o' r b h1 h2 h3 h4 h5 h6 h7 h8; exact (unit_bounded (C86_passive_object heig h1 h2 h3 h4 h5 h8) (C50_nonneg h1 h6 h7 h8)).
Qed.
Print Assumptions C86_unit_interval.

(** ** C87: the missing power is the power dissipated in the layers by the field that calculate_field reconstructs *)
Theorem C87_balance_1d pinv eig : eigen_oracle eig -> forall s w (convs : seq (conv3 (ff_x s))) r T1 infos (nt th : R),
  physical s -> phi s = None -> n_top s = RtoC nt -> theta s = RtoC th -> (0 <= th < PI / 2)%coqR ->
  (forall t, List.In t (thickness s) -> (0 <= t)%coqR) ->
  solve_1d pinv eig false s w convs = Some (r, T1, infos) ->
  let tm := is_tm (pol s) in let kx := kx_vector s w in
  exists2 a, dissipated (joule_1d tm (k0_of w) kx) convs (thickness s)
               (field_profiles_1d (pol s) (k0_of w) kx T1 infos) a
           & power_balance (incident_power tm nt th) r a.
Proof. exact (@balance_1d pinv eig). Qed.
Print Assumptions C87_balance_1d.

Theorem C87_balance_2d pinv eig : eigen_oracle eig -> forall s w (convs : seq (conv3 (ff_y s * ff_x s))) r infos (nt th : R),
  physical s -> is_real (psi s) -> n_top s = RtoC nt -> theta s = RtoC th -> (0 <= th < PI / 2)%coqR ->
  (forall t, List.In t (thickness s) -> (0 <= t)%coqR) ->
  solve_2d pinv eig false s w convs = Some (r, infos) ->
  let kx := kx_tiled s w in let ky := ky_tiled s w in
  balance3 (joule_sp (k0_of w) kx ky) convs (thickness s) (nt * cos th)%coqR r
    (fun t => field_profiles_2d (k0_of w) kx ky t infos).
Proof. exact (@balance_solve_2d pinv eig). Qed.
Print Assumptions C87_balance_2d.

Theorem C87_balance_conical pinv eig : eigen_oracle eig -> forall s w (convs : seq (conv3 (ff_y s * ff_x s))) r infos (nt th : R),
  physical s -> is_real (psi s) -> n_top s = RtoC nt -> theta s = RtoC th -> (0 <= th < PI / 2)%coqR ->
  (forall t, List.In t (thickness s) -> (0 <= t)%coqR) ->
  (forall c, List.In c (used s convs) -> line_convs c) ->
  solve_1d_conical pinv eig false s w convs = Some (r, infos) ->
  let kx := kx_tiled s w in let ky := ky_tiled s w in
  balance3 (joule_sp (k0_of w) kx ky) convs (thickness s) (nt * cos th)%coqR r
    (fun t => field_profiles_conical (k0_of w) kx ky t infos).
Proof. exact (@balance_solve_conical pinv eig). Qed.
Print Assumptions C87_balance_conical.

(** An absorbing film of index 2 - i on a substrate of the same index. *)
Lemma uniform_passive n (e : C) : (Im e <= 0)%coqR -> e != 0 -> passive_convs (uniform_convs n e).
Proof.
move=> h e0 v.
have q (z : C) : (quad (z%:M : 'M[C]_n) v) = z * RtoC (total (fun i => nrm2 (v i ord0))).
  rewrite quadE mul_scalar_mx dotZr; congr (_ * _); rewrite sumRC /dot; apply: eq_bigr => i _.
  by rewrite mulrC mul_conj.
have t0 : (0 <= total (fun i => nrm2 (v i ord0)))%coqR by apply: total_ge0 => i; exact: nrm2_ge0.
have im (z : C) (x : R) : Im (z * RtoC x) = (Im z * x)%coqR by case: z => a b; rewrite /Im /=; ring.
have hi : (0 <= Im e^-1)%coqR.
  have n0 : (0 < nrm2 e)%coqR.
    have := nrm2_ge0 e; case: (Req_EM_T (nrm2 e) 0) => [/nrm2_eq0 ee|]; last lra.
    by rewrite ee eqxx in e0.
  have -> : e^-1 = conj e * RtoC (/ nrm2 e).
    rewrite RtoC_inv; last lra.
    by rewrite -mul_conj invfM mulrCA mulfV ?mulr1 // conj_eq0.
  rewrite im; apply: Rmult_le_pos; first by rewrite Im_conj; lra.
  by apply: Rlt_le; exact: Rinv_0_lt_compat.
by rewrite !q !im; split; nra.
Qed.

Example C86_C87_ex pinv : let s := bare 2 1 0 [:: 3%coqR] in let nb : C := (2, -(1))%coqR in
  exists r T1 infos, [/\ solve_1d pinv eig_ex false s 1 [:: uniform_convs 1 (nb * nb)] = Some (r, T1, infos),
   physical s, phi s = None, (forall t, List.In t (thickness s) -> (0 <= t)%coqR)
   & forall c, List.In c (used s [:: uniform_convs 1 (nb * nb)]) -> passive_convs c].
Proof.
move=> s nb.
have [||| r [T1 [infos e]]] := own_layer_returns pinv eig_ex_ok eig_ex_splits (nr := 2) (k := 1) (w := 1) (d := 3); try lra.
exists r, T1, infos; split=> //.
- split=> //=; try lra.
  + by exists 1%coqR => //; lra.
  + by exists 0%coqR => //; have := PI_RGT_0; lra.
- by move=> t [<-|[]]; lra.
- move=> c [<-|[]]; apply: uniform_passive; first by rewrite /nb /Im /=; lra.
  by apply/eqP => /(congr1 fst); rewrite /nb /= => h; lra.
Qed.

(** The 2D and conical solvers, for a patterned layer. *)
Example C86_C87_ex_sp pinv (ps pl : R) : let s := s_ex0 (RtoC ps) pl [:: 1; 2]%coqR in exists r infos r' infos',
  [/\ solve_2d pinv eig_ex false s 1 (nseq 2 conv_ex) = Some (r, infos),
      solve_1d_conical pinv eig_ex false s 1 (nseq 2 conv_ex) = Some (r', infos'),
      physical s /\ is_real (psi s), forall t, List.In t (thickness s) -> (0 <= t)%coqR
    & forall c, List.In c (used s (nseq 2 conv_ex)) -> passive_convs c /\ line_convs c].
Proof.
move=> s; have [r [infos e]] := solve_2d_ex pinv (RtoC ps) pl [:: 1; 2]%coqR.
have [r' [infos' e']] := solve_conical_ex pinv (RtoC ps) pl [:: 1; 2]%coqR.
exists r, infos, r', infos'; split=> //.
- by split; [exact: physical_ex0|exists ps].
- by move=> t /= [<-|[<-|[]]]; lra.
- move=> c /used_ex ->; split; [exact: lossless_passive conv_ex_lossless|exact: conv_ex_line].
Qed.

Example C86_object_ex pinv p ts : p = 0%coqR \/ p = 1%coqR -> (forall t, List.In t ts -> (0 <= t)%coqR) -> exists o' r,
  [/\ conv_solve pinv eig_ex (obj_ex p ts) = (o', Solved r), physical_obj (obj_ex p ts), passive_cell_of (obj_ex p ts),
      thick_obj (obj_ex p ts) & report_some r].
Proof.
move=> hp ht; have [o' [r [e h1 h2 h3]]] := C49_C50_ex pinv ts hp.
exists o', r; split=> //; last by move=> ts' t [<-]; exact: ht.
move=> f hf i j hi hj; have := h2 f hf i j hi hj; rewrite /passive_index expr2.
case: (f i j) => a b [h]; rewrite /Im /=; have -> : b = 0%coqR by lra.
by lra.
Qed.
