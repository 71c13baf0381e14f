(** Absorbing cells of the PyTorch solver object. *)
From Coq Require Import Reals.
From mathcomp Require Import all_ssreflect ssralg matrix.
From Coquelicot Require Import Complex.
From Verif Require Import Cplx Spec SpecVec SpecPassive SpecTorchObj ModelTM ModelVec ModelState ModelTorchObj.

Set Implicit Arguments.
Unset Strict Implicit.
Unset Printing Implicit Defensive.
Local Open Scope ring_scope.

(** The four Penrose equations for [torch.linalg.pinv]. *)
Definition moore_penrose (pinv : forall n, 'M[C]_n -> 'M[C]_n) : Prop := forall n (A : 'M[C]_n),
  [/\ A *m pinv n A *m A = A, pinv n A *m A *m pinv n A = pinv n A, hermitian (A *m pinv n A) & hermitian (pinv n A *m A)].

(** The objects of every vector layer lie in the period and no two of their edges coincide. *)
Definition t_general_position (o : tobj) : Prop :=
  if t_cell o is TVector ins then
    forall b objs p, List.In (b, objs) ins -> period_of (t_attrs o) = Some p ->
    general_position p.1 p.2 (map fst (flatten (map t_draw objs)))
  else True.
