(** C115, C116: the two-dimensional scattering-matrix functions. *)
From Coq Require Import Reals Lra Psatz.
From mathcomp Require Import all_ssreflect ssralg matrix.
From Coquelicot Require Import Complex.
From Verif Require Import Cplx Mx Spec SpecSolve SpecField ModelTM ModelSMM ModelSMM2D SpecSMM2D ExampleKit ProofSMM2D ProofSMM2D2 ProofSMM2D3 ProofSMM2DEx ProofSMM2D5
  ProofSMM2D6 ProofSMM2DEx2 ProofFieldSolve.

Set Implicit Arguments.
Unset Strict Implicit.
Unset Printing Implicit Defensive.
Local Open Scope ring_scope.
Import GRing.Theory.

(** ** C115 *)
(** The modes of a layer are those of the transfer-matrix solver, with the magnetic fields negated. *)
Theorem C115_modes pinv eig n (kx ky : nat -> C) (ex ey ezi : 'M[C]_n) W V q : ezi \in unitmx ->
  smm_wv eig kx ky ex ey ezi = Some (W, V, q) <-> transfer_2d_2 pinv eig false kx ky ex ey ezi = Some (W, - V, q).
Proof. exact (@wv_iff pinv eig n kx ky ex ey ezi W V q). Qed.
Print Assumptions C115_modes.

(** A half-space: s and p waves are impressed with the admittances of plane waves, for directions off both axes. *)
Theorem C115_halfspace n (nn : R) (kx ky dc ds : nat -> C) (es ep : 'I_n -> C) :
  (forall i, (i < n)%N -> is_real (kx i) /\ is_real (ky i)) -> directions n kx ky dc ds ->
  nn <> 0%coqR -> off_axes n kx ky -> off_grazing n (RtoC nn) kx ky ->
  homog2_V n (RtoC nn ^+ 2) kx ky *m e_xy dc ds es ep =
  h_xy dc ds (fun i => - (ci * kz_of (RtoC nn) (kx i) (ky i) * es i)) (fun i => ci * RtoC nn ^+ 2 / kz_of (RtoC nn) (kx i) (ky i) * ep i).
Proof. exact (@halfspace n nn kx ky dc ds es ep). Qed.
Print Assumptions C115_halfspace.

(** The whole stack, for every number of layers and orders: the scattering-matrix fields are those of the transfer-matrix
    solver at the same wave vectors. *)
Theorem C115_agreement pinv eig n (kx ky dc ds kxa kya : nat -> C) (k0 th ph nt nb pol : R) psi (ls : seq (layer n)) r infos d :
  (0 < n)%N -> (0 < nt)%coqR -> nb <> 0%coqR -> (0 < th < PI / 2)%coqR ->
  real_waves n kx ky (nt * sin th * cos ph) (nt * sin th * sin ph) -> directions n kx ky dc ds ->
  off_axes n kx ky -> off_grazing n (RtoC nt) kx ky -> off_grazing n (RtoC nb) kx ky ->
  rcwa_2d pinv eig false kx ky k0 psi (RtoC th) (RtoC nt) (RtoC nb) ls = Some (r, infos) ->
  smm_2d eig pol kx ky kxa kya k0 (RtoC th) (RtoC ph) (RtoC nt) (RtoC nb) ls = Some d ->
  same_waves nt nb th kx ky dc ds d (if reqb pol 0 then res_te_inc r else res_tm_inc r).
Proof. exact (@agreement_dir pinv eig n kx ky dc ds kxa kya k0 th ph nt nb pol psi ls r infos d). Qed.
Print Assumptions C115_agreement.

(** With the solver's attributes, at the wave vectors the scattering-matrix code makes. *)
Theorem C115_solver pinv eig s (w nt nb th : R) (convs : seq (conv3 (ff_y s * ff_x s))) dc ds ls r infos d :
  physical s -> (0 < w)%coqR -> n_top s = RtoC nt -> n_bot s = RtoC nb -> nb <> 0%coqR -> theta s = RtoC th -> (0 < th < PI / 2)%coqR ->
  let n := (ff_y s * ff_x s)%N in let kx := smm_kx s w in let ky := smm_ky s w in
  directions n kx ky dc ds -> off_axes n kx ky -> off_grazing n (RtoC nt) kx ky -> off_grazing n (RtoC nb) kx ky ->
  layers_of convs (thickness s) = Some ls ->
  rcwa_2d pinv eig false kx ky (k0_of w) (psi s) (theta s) (n_top s) (n_bot s) ls = Some (r, infos) ->
  smm_solve_2d eig w convs = Some d ->
  same_waves nt nb th kx ky dc ds d (if reqb (pol s) 0 then res_te_inc r else res_tm_inc r).
Proof. exact (@agreement_setup pinv eig s w nt nb th convs dc ds ls r infos d). Qed.
Print Assumptions C115_solver.

(** Any number of layers of any thickness of index 1 between index 1 and index 2, azimuth and angle 45 degrees: both solvers
    answer. *)
Example C115_ex ts : let s := g2t ts in exists r infos d dc ds, [/\ physical s,
  directions (ff_y s * ff_x s) (smm_kx s 1) (smm_ky s 1) dc ds,
  rcwa_2d (n := ff_y s * ff_x s) pinv_ex eig_ex false (smm_kx s 1) (smm_ky s 1) (k0_of 1) (psi s) (theta s) (n_top s) (n_bot s)
    (map (fun t => Layer 1%:M 1%:M 1%:M t) ts) = Some (r, infos),
  smm_solve_2d eig_ex (s := s) 1 (air_convs ts) = Some d & same_waves 1 2 (PI / 4) (smm_kx s 1) (smm_ky s 1) dc ds d (res_te_inc r)].
Proof.
have [r [infos hr]] := g2t_tmm ts; have [d hd] := g2t_run ts; have [h1 h2 h3] := g2_off.
have hw : (0 < 1)%coqR by lra.
have hb : 2%coqR <> 0%coqR by lra.
have := g2_dirs; set dc := fun _ => _; set ds := fun _ => _ => hdir.
have k := C115_solver (s := g2t ts) (convs := air_convs ts) (g2t_phys ts) hw erefl erefl hb erefl g2_th hdir h1 h2 h3 (air_layers ts) hr hd.
exists r, infos, d, dc, ds; split=> //; first exact: g2t_phys.
by move: k; rewrite /reqb; case: (Req_EM_T _ _).
Qed.

(** The code numbers the orders the other way round: entry i has the wave vector of entry n - 1 - i of the solver. *)
Theorem C115_numbering s (w : R) i : physical s -> (0 < w)%coqR -> (i < ff_y s * ff_x s)%N -> let j := ((ff_y s * ff_x s).-1 - i)%N in
  smm_kx s w i = kx_tiled s w j /\ smm_ky s w i = ky_tiled s w j.
Proof. exact (@numbering_phys s w i). Qed.
Print Assumptions C115_numbering.

Example C115_numbering_ex : smm_kx g3 (1 / 2) 0%N = kx_tiled g3 (1 / 2) 2%N.
Proof. have h : (0 < 1 / 2)%coqR by lra. by have [] := C115_numbering (i := 0%N) g3_phys h erefl. Qed.

(** ** C116 *)
(** On an axis the half-space admittances are wrong: zeros on the diagonal of an invertible matrix are replaced. *)
Theorem C116_halfspace_refuted : ~ (forall n (nn : R) (kx ky dc ds : nat -> C) (es ep : 'I_n -> C),
  (forall i, (i < n)%N -> is_real (kx i) /\ is_real (ky i)) -> directions n kx ky dc ds ->
  nn <> 0%coqR -> off_grazing n (RtoC nn) kx ky ->
  homog2_V n (RtoC nn ^+ 2) kx ky *m e_xy dc ds es ep =
  h_xy dc ds (fun i => - (ci * kz_of (RtoC nn) (kx i) (ky i) * es i)) (fun i => ci * RtoC nn ^+ 2 / kz_of (RtoC nn) (kx i) (ky i) * ep i)).
Proof. exact halfspace_refuted. Qed.
Print Assumptions C116_halfspace_refuted.

(** The reported efficiencies of a lossless stack do not add up to 1. *)
Theorem C116_energy_refuted eig : ~ (forall s w (convs : seq (conv3 (ff_y s * ff_x s))) d, physical s -> pos_real (n_bot s) ->
  (forall c, List.In c (used s convs) -> lossless_convs c) -> smm_solve_2d eig w convs = Some d -> power_conserved d).
Proof. exact (@energy_refuted eig). Qed.
Print Assumptions C116_energy_refuted.

(** The weight of an order is not the kz of the wave vector of that order. *)
Theorem C116_weights_refuted : ~ (forall s w i, physical s -> (0 < w)%coqR -> (i < ff_y s * ff_x s)%N ->
  kz_2d (n_top s) (kx_tiled s w) (ky_tiled s w) i = kz_of (n_top s) (smm_kx s w i) (smm_ky s w i)).
Proof. exact weights_refuted. Qed.
Print Assumptions C116_weights_refuted.

(** The weight in the report of every solve is the kz of the opposite order. *)
Theorem C116_weights eig s (w nt nb th : R) (convs : seq (conv3 (ff_y s * ff_x s))) d : physical s -> (0 < w)%coqR ->
  n_top s = RtoC nt -> n_bot s = RtoC nb -> theta s = RtoC th ->
  smm_solve_2d eig w convs = Some d -> forall i : 'I_(ff_y s * ff_x s),
  let j := ((ff_y s * ff_x s).-1 - i)%N in
  (de_ri_s d i * (nt * cos th) = Cmod (R_s d i ord0) ^ 2 * Re (kz_of (RtoC nt) (smm_kx s w j) (smm_ky s w j)) /\
   de_ti_s d i * (nt * cos th) = Cmod (T_s d i ord0) ^ 2 * Re (kz_of (RtoC nb) (smm_kx s w j) (smm_ky s w j)) /\
   de_ri_p d i * (nt * cos th) * nt ^ 2 = Cmod (R_p d i ord0) ^ 2 * Re (kz_of (RtoC nt) (smm_kx s w j) (smm_ky s w j)) /\
   (nb <> 0 -> de_ti_p d i * (nt * cos th) * nb ^ 2 = Cmod (T_p d i ord0) ^ 2 * Re (kz_of (RtoC nb) (smm_kx s w j) (smm_ky s w j))))%coqR.
Proof. exact (@reported_weights eig s w nt nb th convs d). Qed.
Print Assumptions C116_weights.

Example C116_weights_ex ts : exists d, [/\ physical (g2t ts), n_top (g2t ts) = RtoC 1, n_bot (g2t ts) = RtoC 2, theta (g2t ts) = RtoC (PI / 4)
  & smm_solve_2d eig_ex (s := g2t ts) 1 (air_convs ts) = Some d].
Proof. by have [d hd] := g2t_run ts; exists d; split=> //; exact: g2t_phys. Qed.
