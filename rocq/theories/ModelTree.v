(** Model of the JAX solver object as a pytree: /repo/meent/on_jax/mee.py:14-34 (_tree_flatten, _tree_unflatten), the
    constructor /repo/meent/on_jax/emsolver/rcwa.py:51-86 and _base.py:27-64, and the setters _base.py:66-235, rcwa.py:91-117.
    The setters that are the same as those of the NumPy object are those of ModelState.v; only [pol] and [ucell] differ.
    Not modelled: [backend], [device] and [ucell_materials], which are stored and passed on unchanged; the device setter, whose
    test depends on the version of jaxlib; tracers; a [pol] that is a Python complex number (it only arises from assigning a
    Python complex number to [psi], and cannot be compared); lists with complex entries as period or thickness, which
    [jnp.array] accepts and [np.array] does not. *)
From Coq Require Import Reals ZArith.
From mathcomp Require Import all_ssreflect ssralg matrix.
From Coquelicot Require Import Complex.
From Verif Require Import Cplx Mx ModelTM ModelFourier ModelVec ModelState.

Set Implicit Arguments.
Unset Strict Implicit.
Unset Printing Implicit Defensive.
Local Open Scope ring_scope.
Import GRing.Theory.

(** Lexicographic [<] of arrays of complex numbers. *)
Definition clt (a b : C) : bool := rltb (Re a) (Re b) || (reqb (Re a) (Re b) && rltb (Im a) (Im b)).
Definition room : R := (/ 10 ^ 6)%coqR.

(** _base.py:160-174: values just outside [0, 1] are clamped first. *)
Definition clamp_pol (c : C) : C :=
  if clt 1 c && clt c (RtoC (1 + room)) then 1 else if clt (RtoC (0 - room)) c && clt c 0 then 0 else c.
Definition assign_pol_jax (v : pyval) (o : obj) : obj * bool :=
  match v with
  | VNum (NCplx _) => (o, true)
  | _ => if scalar v is Some x then
           (let c := clamp_pol (cnum x) in if in_unit c then (set_polar (psi_of c) c o, false) else (o, true))
         else (o, true)
  end.

(** rcwa.py:96-117: an array of another dtype is silently not stored. *)
Definition assign_ucell_jax (v : pyval) (o : obj) : obj * bool :=
  match v with
  | VArr3 DOther _ _ _ => (set_cell (o_cell o) (Some false) o, false)
  | _ => assign_ucell v o
  end.

(** rcwa.py:51-86, _base.py:27-64.  The attribute [_ucell] does not exist before it is assigned: [CJunk]. *)
Definition construct_jax (a : ctor_args) : option obj :=
  if ctor_precision (a_type_complex a) is Some b then
    let o := Obj b (a_pert a) (a_ntop a) (a_nbot a) None None 0 0 FtoJunk AMany (a_wavelength a) AMany
               (a_algo a) (a_use_pinv a) CJunk None (a_fourier_type a) (a_enhanced a) None MNone in
    assign_all [:: assign_theta (a_theta a); assign_phi (a_phi a); assign_pol_jax (a_pol a); assign_psi (a_psi a);
                   assign_fto (a_fto a); assign_period (a_period a); assign_thickness (a_thickness a);
                   assign_ucell_jax (a_ucell a)] o
  else None.

(** mee.py:14-30. *)
Record tree_children := Children { c_ntop : C; c_nbot : C; c_theta : pyval; c_phi : pyval; c_psi : pyval; c_period : pyval;
  c_wavelength : R; c_ucell : pyval; c_thickness : pyval }.
Record tree_aux := Aux { x_pol : pyval; x_fto : pyval; x_algo : algo; x_pert : C; x_type_complex : pyval;
  x_fourier_type : Z; x_enhanced : bool }.
Definition val_cell (c : cell) : pyval :=
  match c with CNone => VNone | CRaster ny nx l => VArr3 DCplx ny nx l | CVector ins => VInstr ins | CJunk => VOther end.
Definition tree_flatten (o : obj) : tree_children * tree_aux :=
  (Children (o_ntop o) (o_nbot o) (val_angle (o_theta o)) (val_angle (o_phi o)) (VArr0 (NCplx (o_psi o)))
     (val_farray (o_period o)) (o_wavelength o) (val_cell (o_cell o)) (val_farray (o_thickness o)),
   Aux (VArr0 (NCplx (o_pol o))) (val_fto (o_fto o)) (o_algo o) (o_pert o) (VType (o_single o))
     (o_fourier_type o) (o_enhanced o)).
(** mee.py:32-34: keywords that are not in the dictionary take their defaults. *)
Definition tree_unflatten (t : tree_children * tree_aux) : option obj :=
  let (c, x) := t in
  construct_jax (CtorArgs (c_ntop c) (c_nbot c) (c_theta c) (c_phi c) (c_psi c) (x_pol x) (c_period c)
    (c_wavelength c) (c_ucell c) (c_thickness c) (x_fto x) (x_algo x) (x_pert x) (x_type_complex x)
    (x_fourier_type x) (x_enhanced x) (a_use_pinv ctor_defaults)).

(** Histories: assignments with caught exceptions; a solve only changes the memo ([JMemo]). *)
Inductive jop := JTheta (v : pyval) | JPhi (v : pyval) | JPsi (v : pyval) | JPol (v : pyval) | JFto (v : pyval)
  | JPeriod (v : pyval) | JThickness (v : pyval) | JTypeComplex (v : pyval) | JUcell (v : pyval)
  | JPerturbation (c : C) | JIndices (n_top n_bot : C) | JWavelength (w : R)
  | JOptions (al : algo) (use_pinv : bool) (fourier_type : Z) (enhanced_dfs : bool) | JMemo (g : option nat) (m : memo).
Definition do_jop (a : jop) (o : obj) : obj :=
  match a with
  | JTheta v => (assign_theta v o).1
  | JPhi v => (assign_phi v o).1
  | JPsi v => (assign_psi v o).1
  | JPol v => (assign_pol_jax v o).1
  | JFto v => (assign_fto v o).1
  | JPeriod v => (assign_period v o).1
  | JThickness v => (assign_thickness v o).1
  | JTypeComplex v => (assign_type_complex v o).1
  | JUcell v => (assign_ucell_jax v o).1
  | JPerturbation c => set_pert c o
  | JIndices nt nb => set_indices nt nb o
  | JWavelength w => set_wavelength w o
  | JOptions al up ft en => set_options al up ft en o
  | JMemo g m => set_memo g m o
  end.
Definition after_jax (h : seq jop) (o : obj) : obj := foldl (fun o a => do_jop a o) o h.
