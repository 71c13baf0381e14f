(** What scattering matrices mean: waves on the two sides of a component, and tangential fields at interfaces. *)
From Coq Require Import Reals.
From mathcomp Require Import all_ssreflect ssralg matrix.
From Coquelicot Require Import Complex.
From Verif Require Import Cplx Mx ModelSMM.

Set Implicit Arguments.
Unset Strict Implicit.
Unset Printing Implicit Defensive.
Local Open Scope ring_scope.
Import GRing.Theory.

Section Waves.
Variable n : nat.
(** A component: which down-going and up-going waves above ([u], [v]) and below ([u'], [v']) can coexist. *)
Definition component_rel := 'cV[C]_n -> 'cV[C]_n -> 'cV[C]_n -> 'cV[C]_n -> Prop.
(** The component a scattering matrix describes: outgoing waves from incoming ones. *)
Definition scatters (S : smat n) : component_rel := fun u v u' v' =>
  v = S11 S *m u + S12 S *m v' /\ u' = S21 S *m u + S22 S *m v'.
(** One component on top of another. *)
Definition stacked (P Q : component_rel) : component_rel := fun u v u'' v'' => exists u' v', P u v u' v' /\ Q u' v' u'' v''.

(** Tangential fields of down-going and up-going waves in a medium with mode matrices W (electric), V (magnetic). *)
Definition same_tangential (W V W' V' : 'M[C]_n) (u v u' v' : 'cV[C]_n) : Prop :=
  W *m (u + v) = W' *m (u' + v') /\ V *m (u - v) = V' *m (u' - v').
(** A layer with propagator X between two sheets of the gap medium: fields match at both faces; the down-going wave
    decays by X on its way down, the up-going wave by X on its way up. *)
Definition layer_rel (Wg Vg W V X : 'M[C]_n) : component_rel := fun u v u' v' => exists p q,
  same_tangential Wg Vg W V u v p (X *m q) /\ same_tangential W V Wg Vg (X *m p) q u' v'.
(** An interface. *)
Definition interface_rel (W V W' V' : 'M[C]_n) : component_rel := fun u v u' v' => same_tangential W V W' V' u v u' v'.

(** The whole device: reflection region, layers, transmission region, with gap sheets in between. *)
Definition layers_rel (k0 : R) (Wg Vg : 'M[C]_n) (ls : seq (slab n)) (P : component_rel) : component_rel :=
  foldl (fun Q l => let '(W, V, modes, d) := l in stacked Q (layer_rel Wg Vg W V (smm_X d k0 modes))) P ls.
Definition device_rel (k0 : R) (Wg Vg Vr Vt : 'M[C]_n) (ls : seq (slab n)) : component_rel :=
  stacked (layers_rel k0 Wg Vg ls (interface_rel 1%:M Vr 1%:M Vg)) (interface_rel 1%:M Vg 1%:M Vt).

Definition identity_smat : smat n := Smat 0 1%:M 1%:M 0.
End Waves.

(** Fields through a stack of layers, with no gap sheets: tangential fields (e, h) at the top and (e', h') at the bottom. *)
Fixpoint through n (k0 : R) (ls : seq (slab n)) (e h e' h' : 'cV[C]_n) : Prop :=
  match ls with
  | [::] => e = e' /\ h = h'
  | (W, V, modes, d) :: ls' => let X := smm_X d k0 modes in exists p q,
      [/\ e = W *m (p + X *m q), h = V *m (p - X *m q) & through k0 ls' (W *m (X *m p + q)) (V *m (X *m p - q)) e' h']
  end.
(** The stack between a medium with admittances Vr above and one with Vt below. *)
Definition between n (k0 : R) (Vr Vt : 'M[C]_n) (ls : seq (slab n)) : component_rel n := fun u v u' v' =>
  through k0 ls (u + v) (Vr *m (u - v)) (u' + v') (Vt *m (u' - v')).
