(** Model of the near-field reconstruction.
    Source: /repo/meent/on_numpy/emsolver/field_distribution.py (field_dist_1d, field_dist_1d_conical, field_dist_2d).
    A returned array is an index function; its shape is carried by the arguments res_x, res_y, res_z. *)
From Coq Require Import Reals.
From mathcomp Require Import all_ssreflect ssralg matrix.
From Coquelicot Require Import Complex.
From Verif Require Import Cplx Mx ModelTM.

Set Implicit Arguments.
Unset Strict Implicit.
Unset Printing Implicit Defensive.
Local Open Scope ring_scope.

(** [np.linspace(0, stop, num)[i]]: the single point 0 when num = 1. *)
Definition linspace (stop : R) (num i : nat) : R :=
  if (num <= 1)%N then 0%coqR else (INR i * (stop / (INR num - 1)))%coqR.

(** [z_1d = np.linspace(0, res_z, res_z) / res_z * d] (field_distribution.py:23, 100, 205). *)
Definition z_point (res_z : nat) (d : R) (i : nat) : R := (linspace (INR res_z) res_z i / INR res_z * d)%coqR.

(** [d_exp(a * Q * z)] for a diagonal Q: the diagonal of exponentials (field_distribution.py:306-310). *)
Definition dexp n (q : 'rV[C]_n) (z : C) : 'M[C]_n := diag_mx (\row_j cexp (q ord0 j * z)).

(** Forward and backward mode amplitudes at depth z (the bracketed sums of field_distribution.py:25-26, 110-116,
    217-238). [sgn] is +1 for the W profiles and -1 for the V profiles. *)
Definition profile n (k0 d : R) (q : 'rV[C]_n) (c1 c2 : 'cV[C]_n) (z : R) (sgn : C) : 'cV[C]_n :=
  sgn *: (dexp q (RtoC (- k0 * z)) *m c1) + dexp q (RtoC (k0 * (z - d))) *m c2.

(** ** 1D *)

(** field_distribution.py:18-31: the mode coefficients of the three components at depth z in one layer. *)
Definition modes_1d (pol : R) n (k0 : R) (kx : nat -> C) (l : info_1d n) (T_layer : 'cV[C]_n) (z : R)
  : 'cV[C]_n * 'cV[C]_n * 'cV[C]_n :=
  let X := Xmat k0 (i1_q l) (i1_d l) in
  let c1 := T_layer in
  let c2 := i1_B l *m i1_Ai l *m X *m T_layer in
  let My := i1_W l *m profile k0 (i1_d l) (i1_q l) c1 c2 z 1 in
  let Mx := i1_V l *m profile k0 (i1_d l) (i1_q l) c1 c2 z (-1) in
  let Kx := diagf n kx in
  let Mz := if reqb pol 0 then (- ci) *: (Kx *m My) else (- ci) *: (i1_epzi l *m Kx *m My) in
  (My, Mx, Mz).

(** [T_layer = A_i @ X @ T_layer] at the end of each iteration (field_distribution.py:56). *)
Definition next_1d n (k0 : R) (l : info_1d n) (T_layer : 'cV[C]_n) : 'cV[C]_n :=
  i1_Ai l *m Xmat k0 (i1_q l) (i1_d l) *m T_layer.

(** [enumerate(layer_info_list[::-1])]: the layers from the top, each with the T_layer it is entered with. *)
Fixpoint descend (L T : Type) (next : L -> T -> T) (t : T) (ls : seq L) : seq (L * T) :=
  match ls with
  | [::] => [::]
  | l :: ls' => (l, t) :: descend next (next l t) ls'
  end.

(** [inv_fourier @ M]: the sum over the orders at the point (x, y) (field_distribution.py:36-52). *)
Definition synth n (ph : nat -> C) (M : 'cV[C]_n) : C := \sum_(j < n) cexp (ph j) * M j ord0.

(** A field sample: the components in the order they are concatenated. *)
Definition sample_1d (pol : R) n (k0 : R) (kx : nat -> C) (x : R) (M : 'cV[C]_n * 'cV[C]_n * 'cV[C]_n)
  : C * C * C :=
  let '(My, Mx, Mz) := M in
  let ph := fun j => - ci * (RtoC x * kx j * RtoC k0) in
  let s := if reqb pol 0 then ci else - ci in
  (synth ph My, s * synth ph Mx, s * synth ph Mz).

(** field_distribution.py:4-58: entry (layer, iz, ix); the result does not depend on iy.  The flattened first axis of the
    returned array is res_z * layer + iz. *)
Definition field_1d (wavelength : R) n (kx : nat -> C) (T1 : 'cV[C]_n) (infos : seq (info_1d n)) (period_x pol : R)
  (res_x res_z : nat) : seq (nat -> nat -> C * C * C) :=
  let k0 := k0_of wavelength in
  [seq (fun iz ix => sample_1d pol k0 kx (linspace period_x res_x ix)
                       (modes_1d pol k0 kx lt.1 lt.2 (z_point res_z (i1_d lt.1) iz)))
  | lt <- descend (next_1d k0) T1 (rev infos)].

(** ** Conical and 2D *)

(** The six mode vectors Sx, Sy, Sz, Ux, Uy, Uz of one layer at one depth. *)
Record modes n := Modes { m_Sx : 'cV[C]_n; m_Sy : 'cV[C]_n; m_Sz : 'cV[C]_n;
                          m_Ux : 'cV[C]_n; m_Uy : 'cV[C]_n; m_Uz : 'cV[C]_n }.

(** field_distribution.py:98, 203: [c = [[I], [B A_i X]] @ T_layer]; its four quarters. *)
Definition back_sp (Wt : Type) n (bigX : 'M[C]_(n + n)) (l : info_sp Wt n) (T_layer : 'cV[C]_(n + n)) : 'cV[C]_(n + n) :=
  is_B l *m is_Ai l *m bigX *m T_layer.

(** field_distribution.py:117-118, 241-242. *)
Definition complete n (kxt kyt : nat -> C) (epzi : 'M[C]_n) (Sx Sy Ux Uy : 'cV[C]_n) : modes n :=
  let Kx := diagf n kxt in
  let Ky := diagf n kyt in
  Modes Sx Sy ((- ci) *: (epzi *m (Kx *m Uy - Ky *m Ux)))
        Ux Uy ((- ci) *: (Kx *m Sy - Ky *m Sx)).

(** field_distribution.py:82-118. *)
Definition modes_conical n (k0 : R) (kxt kyt : nat -> C) (l : info_sp 'M[C]_(n, n + n) n) (T_layer : 'cV[C]_(n + n))
  (z : R) : modes n :=
  let W_1 := lsubmx (is_W l) in let W_2 := rsubmx (is_W l) in
  let V_11 := ulsubmx (is_V l) in let V_12 := ursubmx (is_V l) in
  let V_21 := dlsubmx (is_V l) in let V_22 := drsubmx (is_V l) in
  let q_1 := lsubmx (is_q l) in let q_2 := rsubmx (is_q l) in
  let c2 := back_sp (big_X k0 (is_q l) (is_d l)) l T_layer in
  let P1 s := profile k0 (is_d l) q_1 (usubmx T_layer) (usubmx c2) z s in
  let P2 s := profile k0 (is_d l) q_2 (dsubmx T_layer) (dsubmx c2) z s in
  complete kxt kyt (is_epzi l)
    (W_2 *m P2 1) (V_11 *m P1 1 + V_12 *m P2 1)
    (W_1 *m P1 (-1)) (V_21 *m P1 (-1) + V_22 *m P2 (-1)).

(** field_distribution.py:186-242. *)
Definition modes_2d n (k0 : R) (kxt kyt : nat -> C) (l : info_sp 'M[C]_(n + n) n) (T_layer : 'cV[C]_(n + n))
  (z : R) : modes n :=
  let W_11 := ulsubmx (is_W l) in let W_12 := ursubmx (is_W l) in
  let W_21 := dlsubmx (is_W l) in let W_22 := drsubmx (is_W l) in
  let V_11 := ulsubmx (is_V l) in let V_12 := ursubmx (is_V l) in
  let V_21 := dlsubmx (is_V l) in let V_22 := drsubmx (is_V l) in
  let q_1 := lsubmx (is_q l) in let q_2 := rsubmx (is_q l) in
  let c2 := back_sp (Xmat k0 (is_q l) (is_d l)) l T_layer in
  let P1 s := profile k0 (is_d l) q_1 (usubmx T_layer) (usubmx c2) z s in
  let P2 s := profile k0 (is_d l) q_2 (dsubmx T_layer) (dsubmx c2) z s in
  complete kxt kyt (is_epzi l)
    (W_11 *m P1 1 + W_12 *m P2 1) (W_21 *m P1 1 + W_22 *m P2 1)
    (V_11 *m P1 (-1) + V_12 *m P2 (-1)) (V_21 *m P1 (-1) + V_22 *m P2 (-1)).

(** [T_layer = big_A_i @ big_X @ T_layer] (field_distribution.py:160, 263). *)
Definition next_conical n (k0 : R) (l : info_sp 'M[C]_(n, n + n) n) (T_layer : 'cV[C]_(n + n)) : 'cV[C]_(n + n) :=
  is_Ai l *m big_X k0 (is_q l) (is_d l) *m T_layer.
Definition next_2d n (k0 : R) (l : info_sp 'M[C]_(n + n) n) (T_layer : 'cV[C]_(n + n)) : 'cV[C]_(n + n) :=
  is_Ai l *m Xmat k0 (is_q l) (is_d l) *m T_layer.

(** Ex, Ey, Ez, Hx, Hy, Hz at the point (x, y) (field_distribution.py:121-157, 244-261). *)
Definition sample_sp n (k0 : R) (kxt kyt : nat -> C) (x y : R) (m : modes n) : seq C :=
  let ph := fun j => - ci * (RtoC x * kxt j * RtoC k0) + - ci * (RtoC y * kyt j * RtoC k0) in
  [:: synth ph (m_Sx m); synth ph (m_Sy m); synth ph (m_Sz m);
      ci * synth ph (m_Ux m); ci * synth ph (m_Uy m); ci * synth ph (m_Uz m)].

(** [np.linspace(0, period[1], res_y)[::-1]] (field_distribution.py:129, 247). *)
Definition y_point (period_y : R) (res_y iy : nat) : R := linspace period_y res_y (res_y - iy.+1).

(** The array for one of the selected incidences: entry (layer, iz, iy, ix). *)
Definition field_conical (wavelength : R) n (kxt kyt : nat -> C) (T1 : 'cV[C]_(n + n))
  (infos : seq (info_sp 'M[C]_(n, n + n) n)) (period_x period_y : R) (res_x res_y res_z : nat)
  : seq (nat -> nat -> nat -> seq C) :=
  let k0 := k0_of wavelength in
  [seq (fun iz iy ix => sample_sp k0 kxt kyt (linspace period_x res_x ix) (y_point period_y res_y iy)
                          (modes_conical k0 kxt kyt lt.1 lt.2 (z_point res_z (is_d lt.1) iz)))
  | lt <- descend (next_conical k0) T1 (rev infos)].
Definition field_2d (wavelength : R) n (kxt kyt : nat -> C) (T1 : 'cV[C]_(n + n))
  (infos : seq (info_sp 'M[C]_(n + n) n)) (period_x period_y : R) (res_x res_y res_z : nat)
  : seq (nat -> nat -> nat -> seq C) :=
  let k0 := k0_of wavelength in
  [seq (fun iz iy ix => sample_sp k0 kxt kyt (linspace period_x res_x ix) (y_point period_y res_y iy)
                          (modes_2d k0 kxt kyt lt.1 lt.2 (z_point res_z (is_d lt.1) iz)))
  | lt <- descend (next_2d k0) T1 (rev infos)].

(** [T1[list(set_field_input)]]: the selected rows of the stacked T1 (field_distribution.py:77, 180), in the order
    requested psi, TE, TM. *)
Definition selected n (r : sp_result n) (sel : bool * bool * bool) : seq 'cV[C]_(n + n) :=
  let '(a, b, c) := sel in
  (if a then [:: T1_res r] else [::]) ++ (if b then [:: T1_te r] else [::]) ++ (if c then [:: T1_tm r] else [::]).
