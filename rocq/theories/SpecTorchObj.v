(** Vocabulary for the PyTorch solver object. *)
From Coq Require Import Reals ZArith.
From mathcomp Require Import all_ssreflect ssralg matrix.
From Coquelicot Require Import Complex.
From Verif Require Import Cplx Spec SpecSolve SpecLayer SpecTorch ModelTM ModelFourier ModelVec ModelField ModelState ModelTorch
  ModelTorchObj SpecState SpecJax.

Set Implicit Arguments.
Unset Strict Implicit.
Unset Printing Implicit Defensive.
Local Open Scope ring_scope.
Import GRing.Theory.

(** ** The same cell in the two backends *)

(** A shape filled with one index. *)
Definition recolor (c : C) (r : rect) : rect := Rect (r_top r) (r_left r) (r_bottom r) (r_right r) c.
Definition fill (c : C) (o : vobject) : vobject :=
  match o with
  | VRect cx cy lx ly _ a approx => VRect cx cy lx ly c a (map (recolor c) approx)
  | VShape rs => VShape (map (recolor c) rs)
  end.

(** Isotropic cells: an array, or layers of a background number and shapes with a number each. *)
Inductive same_cell : tcell -> cell -> Prop :=
  | SameRaster ny nx layers : same_cell (TRaster3 ny nx layers) (CRaster ny nx layers)
  | SameVector (ins : seq (C * seq (vobject * C))) :
      same_cell (TVector [seq (I1 p.1, [seq (o.1, I1 o.2) | o <- p.2]) | p <- ins])
                (CVector [seq (p.1, [seq fill o.2 o.1 | o <- p.2]) | p <- ins]).

(** The NumPy object with the same settings; the backends count psi in opposite directions (C62). *)
Definition numpy_twin (c : cell) (o : tobj) : obj :=
  let a := t_attrs o in set_polar (- o_psi a) (o_pol a) (set_cell c (o_mtype a) a).

(** Two reports with the same blocks and the same efficiencies in them. *)
Definition same_block n (a b : option (diffraction n)) : Prop :=
  match a, b with Some x, Some y => same_efficiencies x y | None, None => True | _, _ => False end.
Inductive same_report : report -> report -> Prop :=
  | SameReport n (a b c a' b' c' : option (diffraction n)) : same_block a a' -> same_block b b' -> same_block c c' ->
      same_report (Report a b c) (Report a' b' c').

(** No layer of a 2D solve has a mode that is constant in z (C62). *)
Definition no_flat_memo (m : memo) : Prop := match m with M2d _ _ infos => no_flat_mode infos | _ => True end.

(** ** Diagonal anisotropy *)

(** Cells that differ only in how isotropic materials are written: a pixel value against three equal components, a number
    against a triple of equal numbers, object by object. *)
Fixpoint each2 (A B : Type) (P : A -> B -> Prop) (s : seq A) (t : seq B) : Prop :=
  match s, t with [::], [::] => True | x :: s', y :: t' => P x y /\ each2 P s' t' | _, _ => False end.
Definition same_index (i i' : tindex) : Prop := to_index_vector i = to_index_vector i'.
Inductive promoted : tcell -> tcell -> Prop :=
  | PromRaster ny nx layers :
      promoted (TRaster3 ny nx layers) (TRaster4 ny nx [seq (fun i j => (f i j, f i j, f i j)) | f : nat -> nat -> C <- layers])
  | PromVector ins ins' :
      each2 (fun p p' : t_instruction => same_index p.1 p'.1 /\
               each2 (fun q q' : vobject * tindex => q.1 = q'.1 /\ same_index q.2 q'.2) p.2 p'.2) ins ins' ->
      promoted (TVector ins) (TVector ins').

(** A property of all three components. *)
Definition comp3 (P : C -> Prop) (z : C * C * C) : Prop := [/\ P z.1.1, P z.1.2 & P z.2].

(** All indices satisfy [P]. *)
Definition cell_all (P : C -> Prop) (c : tcell) : Prop :=
  match c with
  | TRaster3 ny nx layers => forall f, List.In f layers -> forall i j, (i < ny)%N -> (j < nx)%N -> P (f i j)
  | TRaster4 ny nx layers => forall f, List.In f layers -> forall i j, (i < ny)%N -> (j < nx)%N -> comp3 P (f i j)
  | TVector ins => forall b objs, List.In (b, objs) ins ->
      comp3 P (to_index_vector b) /\ forall ob, List.In ob objs -> comp3 P (to_index_vector ob.2)
  | _ => True
  end.

(** The pixels of a raster cell have three equal components (the functions that represent the arrays do). *)
Definition isotropic (c : tcell) : Prop :=
  match c with
  | TRaster4 _ _ layers => forall f, List.In f layers -> forall i j, (f i j).1.1 = (f i j).1.2 /\ (f i j).1.2 = (f i j).2
  | _ => True
  end.

(** Some pixel has two components that differ by more than the tolerance of [torch.allclose]. *)
Definition far (a b : C) : Prop := (1 / 10 ^ 8 + 1 / 10 ^ 5 * Cmod b < Cmod (a - b)%R)%coqR.
Definition anisotropic (c : tcell) : Prop :=
  exists ny nx layers f i j, [/\ c = TRaster4 ny nx layers, List.In f layers, (i < ny)%N, (j < nx)%N
    & far (f i j).1.1 (f i j).1.2 \/ far (f i j).1.2 (f i j).2].

(** The squared indices of every component of every layer lie in an open half plane through the origin. *)
Definition half_plane_of (ny nx : nat) (f : nat -> nat -> C) : Prop :=
  exists2 u : C, nrm2 u = 1%coqR & forall i j, (i < ny)%N -> (j < nx)%N -> (0 < Re (u * f i j ^+ 2)%R)%coqR.
Definition half_plane_tcell (c : tcell) : Prop :=
  match c with
  | TRaster3 ny nx layers => forall f, List.In f layers -> half_plane_of ny nx f
  | TRaster4 ny nx layers => forall f, List.In f layers ->
      [/\ half_plane_of ny nx (fun i j => (f i j).1.1), half_plane_of ny nx (fun i j => (f i j).1.2)
        & half_plane_of ny nx (fun i j => (f i j).2)]
  | _ => False
  end.

(** The run in which no inversion falls back on the pseudo-inverse: NumPy's solver, on the matrices and with the grating type of
    the PyTorch object, returns [m] and [r]. *)
Definition plain_run (pinv : forall n, 'M[C]_n -> 'M[C]_n) (eig : forall n, 'M[C]_n -> 'rV[C]_n * 'M[C]_n) (o : tobj)
  (m : memo) (r : report) : Prop :=
  let a := t_attrs o in
  exists fx fy cs g th p,
  [/\ fto_of a = Some (fx, fy), t_convs_of pinv o fx fy = Some cs, t_grating o fy = Some g, o_theta a = Some th
    & period_of a = Some p] /\
  [/\ o_wavelength a <> 0%coqR, g < 3 & solve_with pinv eig (numpy_twin CNone o) th p cs (Some g) = (m, Solved r)].

(** Objects with the same settings: everything except the grating type, the layer infos and [is_aniso] of earlier solves. *)
Definition same_tsettings (o1 o2 : tobj) : Prop := same_settings (t_attrs o1) (t_attrs o2) /\ t_cell o1 = t_cell o2.

(** Running a list of operations; whether one of them raised. *)
Fixpoint t_run pinv eig (h : seq t_op) (o : tobj) : tobj * seq outcome :=
  match h with
  | [::] => (o, [::])
  | a :: h' => let (o1, r) := t_do_op pinv eig a o in let (o2, rs) := t_run pinv eig h' o1 in (o2, r :: rs)
  end.

(** Whether an operation is a solve. *)
Definition t_is_solve (a : t_op) : bool := if a is TOp ConvSolve then true else false.

(** The pseudo-inverse of a Hermitian matrix is Hermitian. *)
Definition hermitian_pinv (pinv : forall n, 'M[C]_n -> 'M[C]_n) : Prop :=
  forall n (A : 'M[C]_n), hermitian A -> hermitian (pinv n A).

(** A real index other than zero. *)
Definition real_nonzero (z : C) : Prop := conj z = z /\ z <> 0.

(** Two results with the same efficiencies order by order (the second may use another order numbering type). *)
Definition same_eff_orders (n m : nat) (a : diffraction n) (b : diffraction m) : Prop :=
  forall (i : 'I_n) (j : 'I_m), i = j :> nat ->
  [/\ de_ri_s b j = de_ri_s a i, de_ri_p b j = de_ri_p a i & de_ri b j = de_ri a i] /\
  [/\ de_ti_s b j = de_ti_s a i, de_ti_p b j = de_ti_p a i & de_ti b j = de_ti a i].
