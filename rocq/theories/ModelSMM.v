(** Model of the scattering-matrix helpers.  Source: /repo/meent/on_numpy/emsolver/smm_util.py (the code marks the method as
    "currently not supported"; the same functions are in on_jax and on_torch) and the three calls that assemble a device in
    scattering_method.py.
    Modelled: A_B_matrices_half_space (15-21), A_B_matrices (24-40), S_layer (43-71), S_RT (74-90), RedhefferStar (281-312),
    construct_global_scatter (315-327), homogeneous_1D (136-177) and scattering_1d_1, _2, _3.
    homogeneous_module, K_matrix_cubic_2D, P_Q_kz, initial_conditions and scattering_2d_* are in ModelSMM2D.v.
    [inv] of a singular matrix raises: [None]. *)
From Coq Require Import Reals.
From mathcomp Require Import all_ssreflect ssralg matrix.
From Coquelicot Require Import Complex.
From Verif Require Import Cplx Mx ModelTM.

Set Implicit Arguments.
Unset Strict Implicit.
Unset Printing Implicit Defensive.
Local Open Scope ring_scope.
Import GRing.Theory.

(** [np.linalg.inv] *)
Definition np_inv n (A : 'M[C]_n) : option 'M[C]_n := if A \in unitmx then Some (invmx A) else None.

(** The dictionary with keys 'S11', 'S12', 'S21', 'S22'. *)
Record smat n := Smat { S11 : 'M[C]_n; S12 : 'M[C]_n; S21 : 'M[C]_n; S22 : 'M[C]_n }.
Arguments Smat {n} _ _ _ _.

(** smm_util.py:15-21 *)
Definition ab_half n (V_layer Vg : 'M[C]_n) : option ('M[C]_n * 'M[C]_n) :=
  if np_inv Vg is Some Vg_i then Some (1%:M + Vg_i *m V_layer, 1%:M - Vg_i *m V_layer) else None.

(** smm_util.py:24-40 *)
Definition ab n (W_layer Wg V_layer Vg : 'M[C]_n) : option ('M[C]_n * 'M[C]_n) :=
  if np_inv W_layer is Some W_i then if np_inv V_layer is Some V_i then
    Some (W_i *m Wg + V_i *m Vg, W_i *m Wg - V_i *m Vg) else None else None.

(** smm_util.py:43-71; [modes] is the vector on the diagonal of the argument of that name. *)
Definition smm_X n (d k0 : R) (modes : 'rV[C]_n) : 'M[C]_n :=
  diag_mx (map_mx (fun q => cexp (- q * RtoC d * RtoC k0)) modes).
Definition s_layer n (A B : 'M[C]_n) (d k0 : R) (modes : 'rV[C]_n) : option (smat n) :=
  let X := smm_X d k0 modes in
  if np_inv A is Some A_i then
    if np_inv (A - X *m B *m A_i *m X *m B) is Some term_i then
      let s11 := term_i *m (X *m B *m A_i *m X *m A - B) in
      let s12 := term_i *m X *m (A - B *m A_i *m B) in
      Some (Smat s11 s12 s12 s11)
    else None
  else None.

(** smm_util.py:74-90 *)
Definition s_rt n (A B : 'M[C]_n) (ref_mode : bool) : option (smat n) :=
  if np_inv A is Some A_i then
    let s11 := - A_i *m B in
    let s12 := RtoC 2 *: A_i in
    let s21 := RtoC (/ 2)%coqR *: (A - B *m A_i *m B) in
    let s22 := B *m A_i in
    Some (if ref_mode then Smat s11 s12 s21 s22 else Smat s22 s21 s12 s11)
  else None.

(** smm_util.py:281-312; the dictionary of the returned pair. *)
Definition star n (SA SB : smat n) : option (smat n) :=
  if np_inv (1%:M - S11 SB *m S22 SA) is Some D_i then
    if np_inv (1%:M - S22 SA *m S11 SB) is Some F_i then
      Some (Smat (S11 SA + S12 SA *m D_i *m S11 SB *m S21 SA) (S12 SA *m D_i *m S12 SB)
        (S21 SB *m F_i *m S21 SA) (S22 SB + S21 SB *m F_i *m S22 SA *m S12 SB))
    else None
  else None.

(** Python values: a dictionary, or the pair (matrix, dictionary) RedhefferStar returns. *)
Inductive value n := Dict of smat n | Pair of 'M[C]_(n + n) & smat n.
Arguments Dict {n} _.
Arguments Pair {n} _ _.
Definition redheffer n (a b : value n) : option (value n) :=
  match a, b with
  | Dict x, Dict y =>
      if star x y is Some s then Some (Pair (block_mx (S11 s) (S12 s) (S21 s) (S22 s)) s) else None
  | _, _ => None (* assert type(SA) == dict, 'not dict' *)
  end.
(** smm_util.py:315-327 *)
Definition construct_global_scatter n (l : seq (smat n)) : option (value n) :=
  match l with
  | [::] => None (* IndexError *)
  | s :: l' => foldl (fun acc x => if acc is Some a then redheffer a (Dict x) else None) (Some (Dict s)) l'
  end.

(** The assembly in scattering_method.py: the reflection region (scattering_1d_1:30-31), each layer (scattering_1d_2:39-42),
    the transmission region (scattering_1d_3:50-52); the same in scattering_2d_1, _2, _3.  A layer is (W, V, modes, d). *)
Definition slab n := ('M[C]_n * 'M[C]_n * 'rV[C]_n * R)%type.
Definition add_layer n (k0 : R) (Wg Vg : 'M[C]_n) (acc : option (smat n)) (l : slab n) : option (smat n) :=
  let '(W, V, modes, d) := l in
  if acc is Some Sg then
    if ab W Wg V Vg is Some (A, B) then if s_layer A B d k0 modes is Some Sl then star Sg Sl else None else None
  else None.
Definition device n (k0 : R) (Wg Vg Vr Vt : 'M[C]_n) (ls : seq (slab n)) : option (smat n) :=
  if ab_half Vr Vg is Some (Ar, Br) then
    if foldl (add_layer k0 Wg Vg) (s_rt Ar Br true) ls is Some Sg then
      if ab_half Vt Vg is Some (At, Bt) then if s_rt At Bt false is Some St then star Sg St else None else None
    else None
  else None.

(** homogeneous_1D, smm_util.py:136-177, with m_r = 1: the diagonals of V and Kz; W is the identity.  [tm] is "if pol:"
    (None for the gap medium). *)
Definition perturbation : C := RtoC (/ 10 ^ 10)%coqR.
Definition orp (x : C) : C := if x == 0 then perturbation else x.
Definition homog_kz (tm : bool) (nn : C) (kx : nat -> C) : nat -> C := fun i =>
  let kz := orp (conj (csqrt (nn ^+ 2 - kx i ^+ 2))) in if tm then kz * nn ^+ 2 else kz.
Definition homog_v (tm : bool) (nn : C) (kx : nat -> C) : nat -> C := fun i =>
  orp (nn ^+ 2 - kx i ^+ 2) / (- ci * homog_kz tm nn kx i).

(** scattering_1d_1, _2 for each layer, _3 (scattering_method.py:12-75) with the modes of the layers given: the amplitudes
    and efficiencies of every order.  The incident amplitude is 1 in the central order.  [pol] other than 0, 1: ValueError. *)
Definition smm_1d (pol : R) n (kx : nat -> C) (k0 : R) (theta n_top n_bot : C) (ls : seq (slab n))
  : option ('cV[C]_n * 'cV[C]_n * ('I_n -> R) * ('I_n -> R)) :=
  let tm := ~~ reqb pol 0 in
  let Vg := diagf n (homog_v false 1 kx) in
  let Vr := diagf n (homog_v tm n_top kx) in
  let Vt := diagf n (homog_v tm n_bot kx) in
  if device k0 1%:M Vg Vr Vt ls is Some Sg then
    let inc := delta_i0 n in
    let reflected := S11 Sg *m inc in
    let transmitted := S21 Sg *m inc in
    let rsq := fun i : 'I_n => (Cmod (reflected i ord0) ^ 2)%coqR in
    let tsq := fun i : 'I_n => (Cmod (transmitted i ord0) ^ 2)%coqR in
    let kinc := Re (n_top * ccos theta) in
    let a := fun i : 'I_n => (Re (homog_kz tm n_top kx i) * rsq i / kinc)%coqR in
    let b := fun i : 'I_n => (Re (homog_kz tm n_bot kx i) * tsq i / kinc)%coqR in
    if reqb pol 0 then Some (reflected, transmitted, a, b)
    else if reqb pol 1 then
      (* de_ri and de_ti are arrays of the complex type when the indices are: the real part is what is compared *)
      Some (reflected, transmitted, fun i => Re (RtoC (a i) / n_top ^+ 2),
        fun i => Re (RtoC (b i) * n_top ^+ 2 / n_bot ^+ 4))
    else None
  else None.
