(** The scattering-matrix helpers. *)
From Coq Require Import Reals Lra Psatz.
From mathcomp Require Import all_ssreflect ssralg matrix.
From Coquelicot Require Import Complex.
From Verif Require Import Cplx Mx Spec SpecSolve SpecField ModelTM ModelSMM SpecSMM ProofSMM ProofSMM2 ProofSMM3 ProofSMMEx ProofSMM4.

Set Implicit Arguments.
Unset Strict Implicit.
Unset Printing Implicit Defensive.
Local Open Scope ring_scope.
Import GRing.Theory.

(** ** C40: the star product. *)
Theorem C40_identity n (S : smat n) : star (identity_smat n) S = Some S /\ star S (identity_smat n) = Some S.
Proof. exact (Logic.conj (star_id_l S) (star_id_r S)). Qed.
Print Assumptions C40_identity.

(** Associative, including the domain: one grouping fails exactly when the other does. *)
Theorem C40_associative n (A B D AB BD X : smat n) : star A B = Some AB -> star B D = Some BD ->
  (star AB D = Some X <-> star A BD = Some X).
Proof. exact (@star_assoc n A B D AB BD X). Qed.
Print Assumptions C40_associative.

Example C40_ex n : exists AB X, star (mirror n) (mirror n) = Some AB /\ star AB (mirror n) = Some X /\ star (mirror n) AB = Some X.
Proof.
do 2!eexists; split; [exact: mirror2|split; [exact: mirror3|]].
exact: (iffLR (C40_associative _ (mirror2 n) (mirror2 n)) (mirror3 n)).
Qed.

(** The builder: one matrix is returned as it is, two give the pair RedhefferStar returns, three or more always raise. *)
Theorem C40_builder n (l : seq (smat n)) :
  (forall A, l = [:: A] -> construct_global_scatter l = Some (Dict A)) /\
  (forall A B AB, l = [:: A; B] -> star A B = Some AB ->
     construct_global_scatter l = Some (Pair (block_mx (S11 AB) (S12 AB) (S21 AB) (S22 AB)) AB)) /\
  ((3 <= size l)%N -> construct_global_scatter l = None).
Proof. exact (builder_cases l). Qed.
Print Assumptions C40_builder.

(** So not every stack whose star products all exist can be built. *)
Theorem C40_builder_refuted : ~ (forall n (A B D AB X : smat n), star A B = Some AB -> star AB D = Some X ->
  exists v, construct_global_scatter [:: A; B; D] = Some v).
Proof.
move=> h; have [v] := h 1%N _ _ _ _ _ (mirror2 1) (mirror3 1).
by rewrite (proj2 (proj2 (C40_builder [:: mirror 1; mirror 1; mirror 1]))).
Qed.
Print Assumptions C40_builder_refuted.

(** ** C78: what the scattering matrices describe. *)
(** The star product is one component on top of the other. *)
Theorem C78_star n (A B S : smat n) : star A B = Some S -> forall u v u' v',
  scatters S u v u' v' <-> stacked (scatters A) (scatters B) u v u' v'.
Proof. exact (@star_rel n A B S). Qed.
Print Assumptions C78_star.

(** A scattering matrix is determined by the component it describes. *)
Theorem C78_determined n (S S' : smat n) : (forall u v u' v', scatters S u v u' v' -> scatters S' u v u' v') -> S = S'.
Proof. exact (@scatters_inj n S S'). Qed.
Print Assumptions C78_determined.

(** A layer: tangential fields match at both faces. *)
Theorem C78_layer n (W V Wg Vg A B : 'M[C]_n) d k0 modes S : ab W Wg V Vg = Some (A, B) -> s_layer A B d k0 modes = Some S ->
  forall u v u' v', scatters S u v u' v' <-> layer_rel Wg Vg W V (smm_X d k0 modes) u v u' v'.
Proof. exact (@layer_scatters n W V Wg Vg A B d k0 modes S). Qed.
Print Assumptions C78_layer.

(** The half-spaces. *)
Theorem C78_reflection_side n (V Vg A B : 'M[C]_n) S : ab_half V Vg = Some (A, B) -> s_rt A B true = Some S ->
  forall u v u' v', scatters S u v u' v' <-> interface_rel 1%:M V 1%:M Vg u v u' v'.
Proof. exact (@top_scatters n V Vg A B S). Qed.
Print Assumptions C78_reflection_side.
Theorem C78_transmission_side n (V Vg A B : 'M[C]_n) S : ab_half V Vg = Some (A, B) -> s_rt A B false = Some S ->
  forall u v u' v', scatters S u v u' v' <-> interface_rel 1%:M Vg 1%:M V u v u' v'.
Proof. exact (@bottom_scatters n V Vg A B S). Qed.
Print Assumptions C78_transmission_side.

(** The whole device, for any number of layers: tangential fields are continuous from the reflection region through every
    layer to the transmission region; the gap medium has disappeared. *)
Theorem C78_device n k0 (Vg Vr Vt : 'M[C]_n) ls S : device k0 1%:M Vg Vr Vt ls = Some S ->
  forall u v u' v', scatters S u v u' v' <-> between k0 Vr Vt ls u v u' v'.
Proof. exact (@device_direct n k0 Vg Vr Vt ls S). Qed.
Print Assumptions C78_device.
Theorem C78_gap_independent n k0 (Vg Vg' Vr Vt : 'M[C]_n) ls S S' : device k0 1%:M Vg Vr Vt ls = Some S ->
  device k0 1%:M Vg' Vr Vt ls = Some S' -> S = S'.
Proof. exact (@device_gap n k0 Vg Vg' Vr Vt ls S S'). Qed.
Print Assumptions C78_gap_independent.

(** A quarter-wave film of permittivity 4 on a substrate of index 2. *)
Example C78_ex n : exists A B L S, [/\ ab (1%:M : 'M[C]_n) 1%:M (k 0 2)%:M (k 0 1)%:M = Some (A, B),
  s_layer A B (1/8) (2 * PI) (const_mx (k 0 2)) = Some L, S11 L = (k (-3/5) 0)%:M,
  device (2 * PI) 1%:M (k 0 1)%:M (k 0 1)%:M (k 0 2)%:M [:: film n] = Some S & S11 S = (k (-1/3) 0)%:M].
Proof. do 4!eexists; split; [exact: film_ab|exact: film_layer|by []|exact: film_device|by []]. Qed.
Example C78_gap_ex n : exists S, [/\ device (2 * PI) 1%:M (k 0 1)%:M (k 0 1)%:M (k 0 2)%:M [:: film n] = Some S &
  device (2 * PI) 1%:M (k 0 2)%:M (k 0 1)%:M (k 0 2)%:M [:: film n] = Some S].
Proof.
have [S' e] := film_gap2 n; eexists; split; first exact: film_device.
by rewrite e; congr Some; exact: (C78_gap_independent e (film_device n)).
Qed.

(** ** C79: the scattering-matrix method gives the amplitudes and efficiencies of the transfer-matrix method (1D, TE and TM,
    lossless surroundings, no order exactly at grazing). *)
Theorem C79_smm_is_tmm pinv eig s w (convs : seq (conv3 (ff_x s))) r T1 infos Rv Tv a b (nb : R) :
  physical s -> phi s = None -> n_bot s = RtoC nb -> (0 < nb)%coqR ->
  (forall i, (i < ff_x s)%N -> kx_vector s w i ^+ 2 <> n_top s ^+ 2 /\ kx_vector s w i ^+ 2 <> n_bot s ^+ 2) ->
  solve_1d pinv eig false s w convs = Some (r, T1, infos) ->
  smm_1d (pol s) (kx_vector s w) (k0_of w) (theta s) (n_top s) (n_bot s) (map (@slab_of (ff_x s)) (rev infos)) = Some (Rv, Tv, a, b) ->
  [/\ co_R (is_tm (pol s)) r = Rv, co_T (is_tm (pol s)) r = Tv, de_ri r =1 a & de_ti r =1 b].
Proof. exact (@solve_smm_is_tmm pinv eig s w convs r T1 infos Rv Tv a b nb). Qed.
Print Assumptions C79_smm_is_tmm.

(** The film again, by both methods: 1/9 reflected, 8/9 transmitted. *)
Example C79_ex pinv : exists r T1 infos, solve_1d pinv eig1 false s_film 1 film_convs = Some (r, T1, infos) /\
  de_ri r ord0 = (1/9)%coqR /\ de_ti r ord0 = (8/9)%coqR.
Proof.
have [r [T1 [infos [h1 h2]]]] := film_solve pinv; exists r, T1, infos; split=> //.
have [Rv [Tv [a [b [h3 [_ _ ha hb]]]]]] := film_smm.
rewrite -h2 in h3.
have hk : forall i, (i < ff_x s_film)%N -> kx_vector s_film 1 i ^+ 2 <> n_top s_film ^+ 2 /\ kx_vector s_film 1 i ^+ 2 <> n_bot s_film ^+ 2.
  move=> [|i] // _; rewrite film_kx /= expr0n /= expr1n expr2 -RtoC_mul.
  by split=> /(congr1 fst) e; [change (0%coqR = 1%coqR) in e|change (0%coqR = (2 * 2)%coqR) in e]; lra.
have h2' : (0 < 2)%coqR by lra.
have [_ _ e1 e2] := C79_smm_is_tmm film_physical (erefl None) (erefl (RtoC 2)) h2' hk h1 h3.
by rewrite e1 e2.
Qed.

(** At grazing the half-space admittance of homogeneous_1D is i instead of (nearly) 0. *)
Theorem C79_at_grazing : exists (nn : R) (kx : nat -> C), (0 < nn)%coqR /\ kx 0%N = RtoC nn /\
  kz_of (RtoC nn) (kx 0%N) 0 = 0 /\ homog_v false (RtoC nn) kx 0%N = ci.
Proof. exact grazing_admittance. Qed.
Print Assumptions C79_at_grazing.
