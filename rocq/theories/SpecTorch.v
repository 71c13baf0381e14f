(** Vocabulary for comparing the two backends. *)
From Coq Require Import Reals.
From mathcomp Require Import all_ssreflect ssralg matrix.
From Coquelicot Require Import Complex.
From Verif Require Import Cplx Spec ModelTM SpecSolve.

Set Implicit Arguments.
Unset Strict Implicit.
Unset Printing Implicit Defensive.
Local Open Scope ring_scope.

(** The six efficiency arrays agree. *)
Definition same_efficiencies n (a b : diffraction n) : Prop :=
  forall i : 'I_n,
  [/\ de_ri_s a i = de_ri_s b i, de_ri_p a i = de_ri_p b i & de_ri a i = de_ri b i] /\
  [/\ de_ti_s a i = de_ti_s b i, de_ti_p a i = de_ti_p b i & de_ti a i = de_ti b i].

(** +1 if the two wave numbers point to the same side (zero counts as positive), -1 otherwise. *)
Definition side (a b : C) : C :=
  match Rlt_dec (Re a) 0, Rlt_dec (Re b) 0 with
  | left _, left _ | right _, right _ => 1
  | _, _ => -1
  end.

(** The amplitudes of [a] are those of [b] conjugated, times [sg] of the order; the p amplitudes carry an extra factor
    [fr] in reflection and [ft] in transmission. *)
Definition conjugated n (sg : 'I_n -> C) (gs fr ft : C) (a b : diffraction n) : Prop :=
  forall i : 'I_n,
  [/\ R_s a i ord0 = sg i * (gs * conj (R_s b i ord0)), R_p a i ord0 = sg i * (fr * conj (R_p b i ord0)),
      T_s a i ord0 = sg i * (gs * conj (T_s b i ord0)) & T_p a i ord0 = sg i * (ft * conj (T_p b i ord0))].

(** Reflected amplitudes conjugated, transmitted amplitudes not. *)
Definition half_conjugated n (sg : 'I_n -> C) (gs fr ft : C) (a b : diffraction n) : Prop :=
  forall i : 'I_n,
  [/\ R_s a i ord0 = sg i * (gs * conj (R_s b i ord0)), R_p a i ord0 = sg i * (fr * conj (R_p b i ord0)),
      T_s a i ord0 = gs * T_s b i ord0 & T_p a i ord0 = ft * T_p b i ord0].

(** No mode of the layer is (nearly) constant in z: every propagation constant is at least 1e-10 in modulus. *)
Definition no_flat_mode (W : Type) n (infos : seq (info_sp W n)) : Prop :=
  forall f, List.In f infos -> forall j, (/ 10000000000 <= Cmod (is_q f ord0 j))%coqR.

(** The superposition law that the PyTorch amplitudes do obey: [a] times the first result plus [b] times the second,
    negated for the reflected p amplitudes; for the transmitted amplitudes also conjugated and multiplied by [sg] of the
    order. *)
Definition torch_superposed n (sg : 'I_n -> C) (a b : C) (r r1 r2 : diffraction n) : Prop :=
  forall i : 'I_n,
  [/\ R_s r i ord0 = a * R_s r1 i ord0 + b * R_s r2 i ord0,
      R_p r i ord0 = - (a * R_p r1 i ord0 + b * R_p r2 i ord0),
      T_s r i ord0 = sg i * conj (a * T_s r1 i ord0 + b * T_s r2 i ord0)
    & T_p r i ord0 = - sg i * conj (a * T_p r1 i ord0 + b * T_p r2 i ord0)].

(** The index of a passive medium, in the sign convention n - ik. *)
Definition passive_index (nb : C) : Prop := (0 < Re nb)%coqR /\ (Im nb <= 0)%coqR.
