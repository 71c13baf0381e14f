(** Vocabulary about power that is lost for certain. *)
From Coq Require Import Reals.
From mathcomp Require Import all_ssreflect ssralg matrix.
From Coquelicot Require Import Complex.
From Verif Require Import Cplx Spec SpecSolve SpecAbsorb SpecPassive ModelTM ModelVec ModelState.

Set Implicit Arguments.
Unset Strict Implicit.
Unset Printing Implicit Defensive.
Local Open Scope ring_scope.

(** Some power is neither reflected nor transmitted. *)
Definition power_lost n (r : diffraction n) : Prop := (total (de_ri r) + total (de_ti r) < 1)%coqR.
Definition power_lost3 n (r : sp_result n) : Prop :=
  [/\ power_lost (res r), power_lost (res_te_inc r) & power_lost (res_tm_inc r)].

(** Some layer of positive thickness absorbs. *)
Definition has_absorber n (cs : seq (conv3 n)) (ts : seq R) : Prop := exists k c t,
  [/\ List.nth_error cs k = Some c, List.nth_error ts k = Some t, (0 < t)%coqR & absorbing_convs c].

(** In the attributes of the solver: layer [k] of the cell is made of absorbing materials only and has positive thickness. *)
Definition absorbing_layer_of (o : obj) : Prop := exists k ts t,
  [/\ o_thickness o = A1 ts, List.nth_error ts k = Some t, (0 < t)%coqR &
  match o_cell o with
  | CRaster ny nx layers => exists2 f, List.nth_error layers k = Some f &
      forall i j, (i < ny)%N -> (j < nx)%N -> absorbing_index (f i j)
  | CVector ins => exists b objs, [/\ List.nth_error ins k = Some (b, objs), absorbing_index b
      & forall ob r, List.In ob objs -> List.In r (draw_object ob) -> absorbing_index (r_index r)]
  | _ => False
  end].
