(** Specification vocabulary for the symmetries of the diffraction problem: change of length unit, translation and
    reflection of the unit cell. *)
From Coq Require Import Reals.
From mathcomp Require Import all_ssreflect ssralg matrix.
From Coquelicot Require Import Complex.
From Verif Require Import Cplx Mx ModelTM ModelState.

Set Implicit Arguments.
Unset Strict Implicit.
Unset Printing Implicit Defensive.
Local Open Scope ring_scope.
Import GRing.Theory.

(** The same object in other units of length: every length multiplied by [c]. *)
Definition rescale_array (c : R) (a : farray) : farray :=
  match a with A0 r => A0 (c * r)%coqR | A1 rs => A1 (map (Rmult c) rs) | AMany => AMany end.
Definition rescale (c : R) (o : obj) : obj :=
  set_thickness (rescale_array c (o_thickness o)) (set_wavelength (c * o_wavelength o)%coqR
    (set_period (rescale_array c (o_period o)) o)).

(** ** Relabelled orders *)

Definition unimodular (z : C) : Prop := z * conj z = 1.

(** [A'] is [A] with the orders relabelled by [sg] and the harmonics multiplied by [ph]. *)
Definition moved n (sg : 'I_n -> 'I_n) (ph : 'I_n -> C) (A A' : 'M[C]_n) : Prop :=
  forall i j, A' (sg i) (sg j) * ph j = ph i * A i j.
Definition moved3 n sg ph (c c' : conv3 n) : Prop :=
  let '(ex, ey, ez) := c in let '(ex', ey', ez') := c' in
  [/\ moved sg ph ex ex', moved sg ph ey ey' & moved sg ph ez ez'].
Fixpoint all2p (A B : Type) (P : A -> B -> Prop) (s : seq A) (t : seq B) : Prop :=
  match s, t with
  | [::], [::] => True
  | a :: s', b :: t' => P a b /\ all2p P s' t'
  | _, _ => False
  end.

(** Amplitudes of [r'] in order [sg i]: those of [r] in order [i] times [a i] (s components) and [b i] (p components). *)
Definition moved_amps n (sg : 'I_n -> 'I_n) (a b : 'I_n -> C) (r r' : diffraction n) : Prop :=
  forall i, [/\ R_s r' (sg i) ord0 = a i * R_s r i ord0, R_p r' (sg i) ord0 = b i * R_p r i ord0,
                T_s r' (sg i) ord0 = a i * T_s r i ord0 & T_p r' (sg i) ord0 = b i * T_p r i ord0].
(** Every efficiency of order [sg i] in [r'] is the one of order [i] in [r]. *)
Definition moved_effs n (sg : 'I_n -> 'I_n) (r r' : diffraction n) : Prop :=
  forall i, [/\ de_ri_s r' (sg i) = de_ri_s r i, de_ri_p r' (sg i) = de_ri_p r i & de_ri r' (sg i) = de_ri r i] /\
            [/\ de_ti_s r' (sg i) = de_ti_s r i, de_ti_p r' (sg i) = de_ti_p r i & de_ti r' (sg i) = de_ti r i].

(** ** Moved unit cells *)

(** What happens along one axis: nothing, [np.roll] by [-d] pixels, or reversal. *)
Inductive motion := Keep | Roll (d : nat) | Reverse.
Definition source (m : motion) (n a : nat) : nat :=
  match m with Keep => a | Roll d => ((a + d) %% n)%N | Reverse => (n - a.+1)%N end.
Definition flips (m : motion) : bool := if m is Reverse then true else false.
Definition moved_cell (my mx : motion) (c : cell) : cell :=
  match c with
  | CRaster ny nx ls => CRaster ny nx [seq (fun i j => l (source my ny i) (source mx nx j)) | l : nat -> nat -> C <- ls]
  | _ => c
  end.

(** Place of diffraction order [i] (of [ff]) after the motion. *)
Definition order_place (m : motion) (ff i : nat) : nat := if m is Reverse then (ff - i.+1)%N else i.
Definition order_place2 (my mx : motion) (ffx ffy i : nat) : nat :=
  (order_place my ffy (i %/ ffx) * ffx + order_place mx ffx (i %% ffx))%N.

(** The phase [exp(-2 pi i m d / n)] of order [m = i - fto] when the cell of [n] pixels moves by [-d]. *)
Definition order_phase (m : motion) (n fto i : nat) : C :=
  if m is Roll d then cexp (- ci * RtoC (2 * PI * (INR i - INR fto) * INR d / INR n)%coqR) else 1.

(** The illumination of the reversed cell: azimuth reflected, polarisation angle of the other sign when orientation changes. *)
Definition sgn (b : bool) : C := if b then -1 else 1.
Definition turned_phi (my mx : motion) (p : option C) : option C :=
  let v := if p is Some z then z else 0 in
  match flips my, flips mx with
  | false, false => p
  | false, true => Some (RtoC PI - v)
  | true, false => Some (- v)
  | true, true => Some (RtoC PI + v)
  end.
Definition turned_psi (my mx : motion) (p : C) : C := if flips my (+) flips mx then - p else p.

(** ** Moved objects and their reports *)

(** The object with its cell moved. *)
Definition move_cell (my mx : motion) (o : obj) : obj := set_cell (moved_cell my mx (o_cell o)) (o_mtype o) o.
(** ... and illuminated from the mirrored direction, with the attribute [pol] set to anything. *)
Definition mirror_sp (my mx : motion) (pol : C) (o : obj) : obj :=
  set_angles (o_theta o) (turned_phi my mx (o_phi o)) (set_polar (turned_psi my mx (o_psi o)) pol (move_cell my mx o)).
(** ... or from the other side of the normal. *)
Definition mirror_classical (o : obj) : obj :=
  set_angles (omap (fun t => - t) (o_theta o)) (o_phi o) (move_cell Keep Reverse o).

Inductive both (A : Type) (P : A -> A -> Prop) : option A -> option A -> Prop :=
  | BothNone : both P None None
  | BothSome a b : P a b -> both P (Some a) (Some b).
Inductive reports (P : forall n, diffraction n -> diffraction n -> Prop) : report -> report -> Prop :=
  | Reports n a b c a' b' c' : both (P n) a a' -> both (P n) b b' -> both (P n) c c' ->
      reports P (Report a b c) (Report a' b' c').

(** Amplitudes of order [i] multiplied by [ph i], efficiencies the same. *)
Definition translated (ph : nat -> C) n (d d' : diffraction n) : Prop :=
  moved_amps id (fun i : 'I_n => ph i) (fun i : 'I_n => ph i) d d' /\ moved_effs id d d'.
(** Order [pl i] now has the moduli and the efficiencies that order [i] had. *)
Definition mirrored (pl : nat -> nat) n (d d' : diffraction n) : Prop :=
  forall i j : 'I_n, j = pl i :> nat ->
  [/\ [/\ Cmod (R_s d' j ord0) = Cmod (R_s d i ord0), Cmod (R_p d' j ord0) = Cmod (R_p d i ord0),
          Cmod (T_s d' j ord0) = Cmod (T_s d i ord0) & Cmod (T_p d' j ord0) = Cmod (T_p d i ord0)],
      [/\ de_ri_s d' j = de_ri_s d i, de_ri_p d' j = de_ri_p d i & de_ri d' j = de_ri d i]
    & [/\ de_ti_s d' j = de_ti_s d i, de_ti_p d' j = de_ti_p d i & de_ti d' j = de_ti d i]].

(** The phases of all orders: the rows count upwards for the discrete transform and downwards for the continuous one. *)
Definition cell_phase (conti : bool) (my mx : motion) (ny nx fx fy i : nat) : C :=
  let p := order_phase my ny fy (i %/ fx.*2.+1)%N in
  (if conti then conj p else p) * order_phase mx nx fx (i %% fx.*2.+1)%N.

(** Layers of non-negative thickness. *)
Definition thick_enough (o : obj) : Prop := forall ts, o_thickness o = A1 ts -> forall t, List.In t ts -> (0 <= t)%coqR.
