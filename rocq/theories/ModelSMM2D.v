(** Model of the two-dimensional scattering-matrix functions.  Source: /repo/meent/on_numpy/emsolver/smm_util.py and
    scattering_method.py (marked "currently SMM is not supported"; solve_2d raises ValueError for 'SMM' and keeps the calls as
    comments, _base.py:357-411).
    Modelled: homogeneous_module (smm_util.py:93-133), K_matrix_cubic_2D (180-204), P_Q_kz (207-233), delta_vector and
    initial_conditions (236-278), scattering_2d_1, _2, _3, _wv (scattering_method.py:78-219).  The layers are chained from
    the first to the last, as scattering_2d_2 stacks them below what has been assembled.
    Simplifications: exact arithmetic; m_r = 1 and mu_conv = None (their defaults); prints dropped; the unused kz_inc, I, O,
    Kz of P_Q_kz are dropped, but the inverse P_Q_kz takes for its Kz is kept because it can raise; nan from a zero norm is
    a failure. *)
From Coq Require Import Reals.
From mathcomp Require Import all_ssreflect ssralg matrix.
From Coquelicot Require Import Complex.
From Verif Require Import Cplx Mx ModelTM ModelSMM.

Set Implicit Arguments.
Unset Strict Implicit.
Unset Printing Implicit Defensive.
Local Open Scope ring_scope.
Import GRing.Theory.

(** homogeneous_module (smm_util.py:93-133): Q = (e_r / m_r) P = (e_r / m_r) (1 / e_r) [[...]] with the zeros of its main
    diagonal replaced; [Kx * Ky] is the elementwise product of diagonal matrices. *)
Definition homog2_Q n (e_r : C) (kx ky : nat -> C) : 'M[C]_(n + n) :=
  let q x := orp (e_r * (e_r^-1 * x)) in
  let p x := e_r * (e_r^-1 * x) in
  block_mx (diagf n (fun i => q (kx i * ky i))) (diagf n (fun i => p (e_r - kx i ^+ 2)))
           (diagf n (fun i => p (ky i ^+ 2 - e_r))) (diagf n (fun i => q (- (ky i * kx i)))).
Definition homog2_kz (e_r : C) (kx ky : nat -> C) : nat -> C := fun i => orp (conj (csqrt (e_r - kx i ^+ 2 - ky i ^+ 2))).
(** W is the identity.  The inverted matrix is diagonal and, after the replacement, has no zero on its diagonal. *)
Definition homog2_V n (e_r : C) (kx ky : nat -> C) : 'M[C]_(n + n) :=
  let D := diagf n (fun i => (ci * homog2_kz e_r kx ky i)^-1) in
  homog2_Q n e_r kx ky *m block_mx D 0 0 D.

(** K_matrix_cubic_2D (smm_util.py:180-204), flattened by meshgrid: entry iy * (2 N_p + 1) + ix is (k_x[ix], k_y[iy]). *)
Definition smm_k (beta : C) (k0 a : R) (fto : nat) : nat -> C := fun i =>
  beta - RtoC (2 * PI * order fto i / (k0 * a)).
Definition smm_kx (s : setup) (w : R) : nat -> C :=
  tile_x (ff_x s) (smm_k (n_top s * csin (theta s) * ccos (phi_val s)) (k0_of w) (period_x s) (fto_x s)).
Definition smm_ky (s : setup) (w : R) : nat -> C :=
  tile_y (ff_x s) (smm_k (n_top s * csin (theta s) * csin (phi_val s)) (k0_of w) (period_y s) (fto_y s)).

(** P_Q_kz (smm_util.py:207-233) and scattering_2d_wv (scattering_method.py:195-219). *)
Definition smm_P n (Kx Ky ezi : 'M[C]_n) : 'M[C]_(n + n) := block_mx
  (Kx *m ezi *m Ky) (- Kx *m ezi *m Kx + 1%:M)
  (Ky *m ezi *m Ky - 1%:M) (- Ky *m ezi *m Kx).
Definition smm_Q n (Kx Ky ex ey mu_i : 'M[C]_n) : 'M[C]_(n + n) := block_mx
  (Kx *m mu_i *m Ky) (- Kx *m mu_i *m Kx + ey)
  (- ex + Ky *m mu_i *m Ky) (- Ky *m mu_i *m Kx).
Section Eig.
Variable eig : forall n, 'M[C]_n -> 'rV[C]_n * 'M[C]_n.
Definition smm_wv n (kx ky : nat -> C) (ex ey ezi : 'M[C]_n) : option ('M[C]_(n + n) * 'M[C]_(n + n) * 'rV[C]_(n + n)) :=
  let Kx := diagf n kx in let Ky := diagf n ky in
  if np_inv ezi is Some _ then
    if np_inv (1%:M : 'M[C]_n) is Some mu_i then
      let P := smm_P Kx Ky ezi in
      let Q := smm_Q Kx Ky ex ey mu_i in
      let (Lambda, W) := eig (P *m Q) in
      let q := sqrtv Lambda in
      if np_inv (diag_mx q) is Some L_i then Some (W, Q *m W *m L_i, q) else None
    else None
  else None.
Fixpoint smm_slabs n (kx ky : nat -> C) (ls : seq (layer n)) : option (seq (slab (n + n))) :=
  match ls with
  | [::] => Some [::]
  | l :: ls' =>
      if smm_wv kx ky (epx l) (epy l) (epzi l) is Some (W, V, q) then
        if smm_slabs kx ky ls' is Some sl then Some ((W, V, q, thick l) :: sl) else None
      else None
  end.

(** initial_conditions (smm_util.py:252-278): the x and y components of the incident field; [te] is pol == 0.
    K = n_top (sin theta cos phi, sin theta sin phi, cos theta), normal vector (0, 0, 1). *)
Definition norm3 (v : C * C * C) : R := let '(a, b, c) := v in sqrt (nrm2 a + nrm2 b + nrm2 c).
Definition cross (u v : C * C * C) : C * C * C :=
  let '(a, b, c) := u in let '(x, y, z) := v in (b * z - c * y, c * x - a * z, a * y - b * x).
Definition unit3 (v : C * C * C) : option (C * C * C) :=
  if reqb (norm3 v) 0 then None else let k := RtoC (/ norm3 v)%coqR in let '(a, b, c) := v in Some (a * k, b * k, c * k).
Definition smm_source (te : bool) (n_top theta phi : C) : option (C * C) :=
  let K := (n_top * (csin theta * ccos phi), n_top * (csin theta * csin phi), n_top * ccos theta) in
  let ate := if theta != 0 then unit3 (cross K (0, 0, 1)) else Some (0, 1, 0) in
  if ate is Some a then
    if unit3 (cross a K) is Some m then
      let '(x, y, _) := if te then a else m in Some (x, y)
    else None
  else None.

(** scattering_2d_1, _2 for each layer, _3 (scattering_method.py:78-193).  [kx], [ky] are the wave vectors the functions
    compute; [kx_arg], [ky_arg] those the caller passes to scattering_2d_1, from which kz_top and kz_bot are made.
    delta_vector has its 1 at int(P/2) * Q + int(Q/2) = (n - 1) / 2 for n = P Q, both odd. *)
Definition smm_2d n (pol : R) (kx ky kx_arg ky_arg : nat -> C) (k0 : R) (theta phi n_top n_bot : C) (ls : seq (layer n))
  : option (diffraction n) :=
  let Vg := homog2_V n 1 kx ky in
  let Vr := homog2_V n (n_top ^+ 2) kx ky in
  let Vt := homog2_V n (n_bot ^+ 2) kx ky in
  let kz_top := kz_2d n_top kx_arg ky_arg in
  let kz_bot := kz_2d n_bot kx_arg ky_arg in
  if smm_slabs kx ky ls is Some sl then
    if device k0 1%:M Vg Vr Vt sl is Some Sg then
      if reqb pol 0 || reqb pol 1 then
        if smm_source (reqb pol 0) n_top theta phi is Some (px, py) then
          let c_inc := col_mx (px *: delta_i0 n) (py *: delta_i0 n) in
          let reflected := S11 Sg *m c_inc in
          let transmitted := S21 Sg *m c_inc in
          let de (A : 'cV[C]_n) (w : nat -> C) := fun i : 'I_n => Re (A i ord0 * conj (A i ord0) * RtoC (Re (w i))) in
          let Rs := usubmx reflected in let Rp := dsubmx reflected in
          let Ts := usubmx transmitted in let Tp := dsubmx transmitted in
          let ri_s := de Rs (fun i => kz_top i / (n_top * ccos theta)) in
          let ri_p := de Rp (fun i => kz_top i / n_top ^+ 2 / (n_top * ccos theta)) in
          let ti_s := de Ts (fun i => kz_bot i / (n_top * ccos theta)) in
          let ti_p := de Tp (fun i => kz_bot i / n_bot ^+ 2 / (n_top * ccos theta)) in
          Some (Diffraction Rs Rp Ts Tp ri_s ri_p (fun i => (ri_s i + ri_p i)%coqR) ti_s ti_p (fun i => (ti_s i + ti_p i)%coqR))
        else None
      else None
    else None
  else None.

(** With the attributes of the solver (the commented calls, _base.py:360-361, 392-393, 409-411). *)
Definition smm_solve_2d (s : setup) (w : R) (convs : seq (conv3 (ff_y s * ff_x s))) : option (diffraction (ff_y s * ff_x s)) :=
  if layers_of convs (thickness s) is Some ls then
    smm_2d (pol s) (smm_kx s w) (smm_ky s w) (kx_tiled s w) (ky_tiled s w) (k0_of w) (theta s) (phi_val s) (n_top s) (n_bot s) ls
  else None.
End Eig.
