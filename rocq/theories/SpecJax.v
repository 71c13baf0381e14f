(** Vocabulary for comparing the JAX solver with the NumPy solver. *)
From Coq Require Import Reals ZArith.
From mathcomp Require Import all_ssreflect ssralg matrix.
From Coquelicot Require Import Complex.
From Verif Require Import Cplx Spec SpecLayer ModelTM ModelFourier ModelVec ModelState SpecState.

Set Implicit Arguments.
Unset Strict Implicit.
Unset Printing Implicit Defensive.
Local Open Scope ring_scope.

(** The squared indices of every layer of the raster cell lie in an open half plane through the origin (any lossless or lossy
    dielectric, and metals). *)
Definition half_plane_cell (o : obj) : Prop :=
  forall ny nx layers f, o_cell o = CRaster ny nx layers -> List.In f layers ->
  exists2 u : C, nrm2 u = 1%coqR & forall i j, (i < ny)%N -> (j < nx)%N -> (0 < Re (u * f i j ^+ 2)%R)%coqR.

(** The settings under which the two backends invert the z-permittivity in the same way: ordinary inverses, or a cell that does
    not go through the discrete transform, or a cell for which the two kinds of inverse coincide. *)
Definition same_inverses (pinv : forall n, 'M[C]_n -> 'M[C]_n) (o : obj) : Prop :=
  [\/ o_use_pinv o = false, o_mtype o = Some true, o_fourier_type o <> 0%Z | pinv_oracle pinv /\ half_plane_cell o].

(** A fact about every operation of a history and the object it meets. *)
Fixpoint along (step : op -> obj -> obj * outcome) (P : op -> obj -> Prop) (h : seq op) (o : obj) : Prop :=
  match h with
  | [::] => True
  | a :: h' => P a o /\ along step P h' (step a o).1
  end.

(** The operation raises nothing, and a solve meets the settings above. *)
Definition quiet pinv (step : op -> obj -> obj * outcome) (a : op) (o : obj) : Prop :=
  (step a o).2 <> Raised /\ (a = ConvSolve -> same_inverses pinv o).

(** The same object with its last layer repeated until there are [k] layers. *)
Definition repeat_last (A : Type) (k : nat) (s : seq A) : seq A :=
  if s is x :: s' then s ++ nseq (k - size s) (last x s') else s.
Definition pad_layers (k : nat) (o : obj) : obj :=
  set_cell (match o_cell o with
            | CRaster ny nx layers => CRaster ny nx (repeat_last k layers)
            | CVector ins => CVector (repeat_last k ins)
            | c => c
            end) (o_mtype o) o.
