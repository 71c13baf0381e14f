(** Model of the PyTorch enhanced-transmittance-matrix solver.
    Sources (all under /repo/meent/on_torch/emsolver): primitives.py, transfer_method.py, _base.py, rcwa.py.
    Conventions as in ModelTM.v.  Bodies that are line for line those of the NumPy solver are taken from ModelTM.v
    (transfer_1d_2, transfer_1d_3, transfer_1d_conical_2, transfer_1d_conical_3, transfer_2d_3, final_A); what differs is
    defined here. *)
From Coq Require Import Reals.
From mathcomp Require Import all_ssreflect ssralg matrix.
From Coquelicot Require Import Complex.
From Verif Require Import Cplx Mx ModelTM.

Set Implicit Arguments.
Unset Strict Implicit.
Unset Printing Implicit Defensive.
Local Open Scope ring_scope.
Import GRing.Theory.

(** [branch_sign] (transfer_method.py:6-20): -1 where the real part is negative, 1 elsewhere. *)
Definition branch_sign (v : C) : C := if Rlt_dec (Re v) 0 then -1 else 1.

(** [phase_conv = branch_sign(kx) * branch_sign(kx[ff_x // 2])] (transfer_method.py:144, 428, 709). *)
Definition phase_conv (fx : nat) (kx : nat -> C) (i : nat) : C := branch_sign (kx i) * branch_sign (kx (fx %/ 2)%N).

(** kz in a half-space (transfer_method.py:26-37): the principal root, replaced by [-1j * (kx**2 - n**2) ** 0.5] where
    [abs(kx) > abs(n.real)]. *)
Definition t_kz_1d (nn : C) (kx : nat -> C) : nat -> C := fun i =>
  if Rlt_dec (Rabs (Re nn)) (Cmod (kx i)) then - ci * csqrt (kx i ^+ 2 - nn ^+ 2)
  else csqrt (nn ^+ 2 - kx i ^+ 2).

(** transfer_method.py:210-221 and 518-529, on tiled wave vectors. *)
Definition t_kz_2d (nn : C) (kxt kyt : nat -> C) : nat -> C := fun i =>
  if Rlt_dec (Rabs (Re nn ^ 2)) (Cmod (kxt i ^+ 2 + kyt i ^+ 2))
  then - ci * csqrt (kxt i ^+ 2 + kyt i ^+ 2 - nn ^+ 2)
  else csqrt (nn ^+ 2 - kxt i ^+ 2 - kyt i ^+ 2).

(** [torch.where(q.abs() < 1E-10, torch.full_like(q, 1E-10), q)] (transfer_method.py:578). *)
Definition q_min : R := (/ 10000000000)%coqR.
Definition q_floor (q : C) : C := if Rlt_dec (Cmod q) q_min then RtoC q_min else q.

Section Torch.

(** [torch.linalg.pinv] and [torch.linalg.eig] are oracles, as in ModelTM.v. *)
Variable pinv : forall n, 'M[C]_n -> 'M[C]_n.
Variable eig : forall n, 'M[C]_n -> 'rV[C]_n * 'M[C]_n.
Variable use_pinv : bool.

(** [meeinv] (primitives.py:92-105): unlike NumPy's it never raises on a singular matrix, it falls back to pinv.
    (The NumPy fallback of [RobustPinv.forward], lines 71-78, is the same mathematical function.) *)
Definition t_inv n (x : 'M[C]_n) : 'M[C]_n :=
  if use_pinv then pinv x else if x \in unitmx then invmx x else pinv x.

(** transfer_method.py:23-52. *)
Definition t_transfer_1d_1 (pol : R) n (kx : nat -> C) (n_top n_bot : C)
  : option ((nat -> C) * (nat -> C) * 'M[C]_n * 'M[C]_n * 'M[C]_n) :=
  let kz_top := t_kz_1d n_top kx in
  let kz_bot := t_kz_1d n_bot kx in
  if reqb pol 0 then
    Some (kz_top, kz_bot, 1%:M, ci *: diagf n kz_bot, 1%:M)
  else if reqb pol 1 then
    Some (kz_top, kz_bot, 1%:M, ci *: diagf n (fun i => kz_bot i / n_bot ^+ 2), 1%:M)
  else None.

(** transfer_method.py:111-187. *)
Definition t_transfer_1d_4 (pol : R) n (F G T : 'M[C]_n) (kx kz_top kz_bot : nat -> C) (theta n_top n_bot : C)
  : option (diffraction n * 'cV[C]_n) :=
  let Kz_top := diagf n kz_top in
  let d0 := delta_i0 n in
  let mk (T1 : 'cV[C]_n) (wt : 'I_n -> R) :=
    let R := \col_i (conj ((F *m T1 - d0) i ord0) * phase_conv n kx i) in
    let T := \col_i (conj ((T *m T1) i ord0) * phase_conv n kx i) in
    let de_r := fun i : 'I_n =>
      Re (R i ord0 * conj (R i ord0) * RtoC (Re (kz_top i / (n_top * ccos theta)))) in
    let de_t := fun i : 'I_n => Re (T i ord0 * conj (T i ord0) * RtoC (wt i)) in
    (R, T, de_r, de_t) in
  if reqb pol 0 then
    let inc_term := (ci * n_top * ccos theta) *: d0 in
    let T1 := t_inv (G + ci *: Kz_top *m F) *m ((ci *: Kz_top) *m d0 + inc_term) in
    let '(R, T, de_r, de_t) := mk T1 (fun i => Re (kz_bot i / (n_top * ccos theta))) in
    Some (Diffraction R 0 T 0 de_r (fun _ => 0%coqR) de_r de_t (fun _ => 0%coqR) de_t, T1)
  else if reqb pol 1 then
    let inc_term := (ci * ccos theta / n_top) *: d0 in
    let T1 := t_inv (G + ((ci / n_top ^+ 2) *: Kz_top) *m F) *m (((ci / n_top ^+ 2) *: Kz_top) *m d0 + inc_term) in
    let '(R, T, de_r, de_t) := mk T1 (fun i => Re (kz_bot i / n_bot ^+ 2 / (ccos theta / n_top))) in
    Some (Diffraction 0 R 0 T (fun _ => 0%coqR) de_r de_r (fun _ => 0%coqR) de_t de_t, T1)
  else None.

(** _base.py:271-332.  The loop body calls transfer_1d_2 (transfer_method.py:55-86) and transfer_1d_3 (89-108), whose
    bodies are NumPy's with the inversion [t_inv]; an inversion never raises. *)
Definition t_rcwa_1d (pol : R) n (kx : nat -> C) (k0 : R) (theta n_top n_bot : C) (ls : seq (layer n))
  : option (diffraction n * 'cV[C]_n * seq (info_1d n)) :=
  if t_transfer_1d_1 pol n kx n_top n_bot is Some (kz_top, kz_bot, F, G, T) then
    if stack_with (step_1d t_inv eig true pol kx k0) ls (F, G, T, [::]) is Some (F', G', T', infos) then
      if t_transfer_1d_4 pol F' G' T' kx kz_top kz_bot theta n_top n_bot is Some (res, T1) then
        Some (res, T1, infos)
      else None
    else None
  else None.

(** transfer_method.py:190-251 and 510-550 (identical bodies up to comments).  [varphi] as in ModelTM.v. *)
Definition t_transfer_sp_1 n (kxt kyt : nat -> C) (n_top n_bot : C) :=
  let kz_top := t_kz_2d n_top kxt kyt in
  let kz_bot := t_kz_2d n_bot kxt kyt in
  let Kz_bot := diagf n kz_bot in
  if varphi_ok n kxt kyt then
    Some (kz_top, kz_bot,
          (fun i => cos_varphi (kxt i) (kyt i)), (fun i => sin_varphi (kxt i) (kyt i)),
          block_mx (1%:M : 'M[C]_n) 0 0 ((ci / n_bot ^+ 2) *: Kz_bot),
          block_mx (ci *: Kz_bot) 0 0 (1%:M : 'M[C]_n),
          (1%:M : 'M[C]_(n + n)))
  else None.

(** transfer_method.py:553-590.  No matrix inversion: q is floored and [Q_i = diag(1 / q)]. *)
Definition t_transfer_2d_2 n (kxt kyt : nat -> C) (epx_conv epy_conv epz_conv_i : 'M[C]_n) :=
  let Kx := diagf n kxt in
  let Ky := diagf n kyt in
  let B := Kx *m epz_conv_i *m Kx - 1%:M in
  let D := Ky *m epz_conv_i *m Ky - 1%:M in
  let Omega2_LR : 'M[C]_(n + n) := block_mx
      (Ky *m Ky + B *m epx_conv) (Kx *m (epz_conv_i *m Ky *m epy_conv - Ky))
      (Ky *m (epz_conv_i *m Kx *m epx_conv - Kx)) (Kx *m Kx + D *m epy_conv) in
  let (eigenvalues, W) := eig Omega2_LR in
  let q := map_mx q_floor (sqrtv eigenvalues) in
  let Q_i := diag_mx (map_mx (fun x => x^-1) q) in
  let Omega_R : 'M[C]_(n + n) := block_mx
      (- Kx *m Ky) (Kx *m Kx - epy_conv)
      (epx_conv - Ky *m Ky) (Ky *m Kx) in
  (W, Omega_R *m W *m Q_i, q).

(** [final_B] for a given psi (transfer_method.py:407-414, 454-473, 694-701, 736-754).  The two cos(psi) rows have the
    opposite sign to NumPy's. *)
Definition t_final_B n (psi theta n_top : C) : 'cV[C]_((n + n) + (n + n)) :=
  let d0 := delta_i0 n in
  col_mx (col_mx ((- csin psi) *: d0) ((- ccos psi * ccos theta) *: d0))
         (col_mx ((- ci * csin psi * n_top * ccos theta) *: d0) ((ci * n_top * ccos psi) *: d0)).

(** The efficiencies, all with the s weights (transfer_method.py:441-448, 487-494, 722-729, 768-775). *)
Definition t_efficiencies n (Rs Rp Ts Tp : 'cV[C]_n) (kz_top kz_bot : nat -> C) (theta n_top : C) : diffraction n :=
  let de (A : 'cV[C]_n) (kz : nat -> C) := fun i : 'I_n =>
    Re (A i ord0 * conj (A i ord0) * RtoC (Re (kz i / (n_top * ccos theta)))) in
  let ri_s := de Rs kz_top in
  let ri_p := de Rp kz_top in
  let ti_s := de Ts kz_bot in
  let ti_p := de Tp kz_bot in
  Diffraction Rs Rp Ts Tp ri_s ri_p (fun i => (ri_s i + ri_p i)%coqR) ti_s ti_p (fun i => (ti_s i + ti_p i)%coqR).

(** ['res'] (transfer_method.py:428-452, 709-733): amplitudes conjugated and multiplied by [phase_conv] of the column,
    p amplitudes scaled by i / n. *)
Definition t_extract n (fx : nat) (kx : nat -> C) (RT : 'cV[C]_((n + n) + (n + n))) (big_T : 'M[C]_(n + n))
  (kz_top kz_bot : nat -> C) (theta n_top n_bot : C) : diffraction n * 'cV[C]_(n + n) :=
  let T1 := dsubmx RT in
  let T := big_T *m T1 in
  let out (z : 'cV[C]_n) (a : C) : 'cV[C]_n := \col_i (conj (a * z i ord0) * phase_conv fx kx (i %% fx)%N) in
  (t_efficiencies (out (usubmx (usubmx RT)) 1) (out (dsubmx (usubmx RT)) (ci / n_top))
                  (out (usubmx T) 1) (out (dsubmx T) (ci / n_bot)) kz_top kz_bot theta n_top, T1).

(** ['res_te_inc'] and ['res_tm_inc'] (transfer_method.py:478-502, 759-783): the factor of the p amplitudes is -i / n and
    the transmitted amplitudes are neither conjugated nor multiplied by [phase_conv]. *)
Definition t_extract_inc n (fx : nat) (kx : nat -> C) (RT : 'cV[C]_((n + n) + (n + n))) (big_T : 'M[C]_(n + n))
  (kz_top kz_bot : nat -> C) (theta n_top n_bot : C) : diffraction n * 'cV[C]_(n + n) :=
  let T1 := dsubmx RT in
  let T := big_T *m T1 in
  let out (z : 'cV[C]_n) (a : C) : 'cV[C]_n := \col_i (conj (a * z i ord0) * phase_conv fx kx (i %% fx)%N) in
  (t_efficiencies (out (usubmx (usubmx RT)) 1) (out (dsubmx (usubmx RT)) (- ci / n_top))
                  (usubmx T) ((- ci / n_bot) *: dsubmx T) kz_top kz_bot theta n_top, T1).

(** transfer_method.py:372-507 and 659-789 (identical bodies up to comments). *)
Definition t_transfer_sp_4 n (fx : nat) (kx : nat -> C) (big_F big_G big_T : 'M[C]_(n + n)) (kz_top kz_bot : nat -> C)
  (psi theta n_top n_bot : C) : sp_result n :=
  let final_A_inv := t_inv (final_A big_F big_G kz_top n_top) in
  let RT psi := final_A_inv *m t_final_B n psi theta n_top in
  let (r, t1) := t_extract fx kx (RT psi) big_T kz_top kz_bot theta n_top n_bot in
  let (r_te, t1_te) := t_extract_inc fx kx (RT (RtoC (PI / 2))) big_T kz_top kz_bot theta n_top n_bot in
  let (r_tm, t1_tm) := t_extract_inc fx kx (RT (RtoC 0)) big_T kz_top kz_bot theta n_top n_bot in
  SpResult r r_te r_tm t1 t1_te t1_tm.

(** Loop body of _base.py:417-442; transfer_2d_3 is transfer_method.py:593-656. *)
Definition t_step_2d n (kxt kyt : nat -> C) (c s : nat -> C) (k0 : R) (l : layer n)
  (st : 'M[C]_(n + n) * 'M[C]_(n + n) * 'M[C]_(n + n) * seq (info_sp 'M[C]_(n + n) n)) :=
  let '(F, G, T, infos) := st in
  let '(W, V, q) := t_transfer_2d_2 kxt kyt (epx l) (epy l) (epzi l) in
  if transfer_2d_3 t_inv true k0 W V q (thick l) c s F G T is Some (F', G', T', A_i, B) then
    Some (F', G', T', rcons infos (InfoSp (epzi l) W V q (thick l) A_i B))
  else None.

(** _base.py:334-392; the loop body calls transfer_1d_conical_2 and _3 (transfer_method.py:258-303, 308-369). *)
Definition t_rcwa_conical n (fx : nat) (kx kxt kyt : nat -> C) (k0 : R) (psi theta n_top n_bot : C) (ls : seq (layer n))
  : option (sp_result n * seq (info_sp 'M[C]_(n, n + n) n)) :=
  if t_transfer_sp_1 n kxt kyt n_top n_bot is Some (kz_top, kz_bot, c, s, F, G, T) then
    if stack_with (step_conical t_inv eig true kxt kyt c s k0) ls (F, G, T, [::]) is Some (F', G', T', infos) then
      Some (t_transfer_sp_4 fx kx F' G' T' kz_top kz_bot psi theta n_top n_bot, infos)
    else None
  else None.

(** _base.py:394-473. *)
Definition t_rcwa_2d n (fx : nat) (kx kxt kyt : nat -> C) (k0 : R) (psi theta n_top n_bot : C) (ls : seq (layer n))
  : option (sp_result n * seq (info_sp 'M[C]_(n + n) n)) :=
  if t_transfer_sp_1 n kxt kyt n_top n_bot is Some (kz_top, kz_bot, c, s, F, G, T) then
    if stack_with (t_step_2d kxt kyt c s k0) ls (F, G, T, [::]) is Some (F', G', T', infos) then
      Some (t_transfer_sp_4 fx kx F' G' T' kz_top kz_bot psi theta n_top n_bot, infos)
    else None
  else None.

(** ** Object level: the attributes are those of ModelTM's [setup]. *)

(** _base.py:244-269: no clamp on theta. *)
Definition t_kx_vector (s : setup) (wavelength : R) : nat -> C := fun i =>
  conj (n_top s * csin (theta s) * ccos (phi_val s)
        + RtoC (order (fto_x s) i) * RtoC (wavelength / period_x s)).
Definition t_ky_vector (s : setup) (wavelength : R) : nat -> C := fun i =>
  conj (n_top s * csin (theta s) * csin (phi_val s)
        + RtoC (order (fto_y s) i) * RtoC (wavelength / period_y s)).
Definition t_kx_tiled (s : setup) (wavelength : R) : nat -> C := tile_x (ff_x s) (t_kx_vector s wavelength).
Definition t_ky_tiled (s : setup) (wavelength : R) : nat -> C := tile_y (ff_x s) (t_ky_vector s wavelength).

(** _base.py:271-332. *)
Definition t_solve_1d (s : setup) (wavelength : R) (convs : seq (conv3 (ff_x s))) :=
  if layers_of convs (thickness s) is Some ls then
    t_rcwa_1d (pol s) (t_kx_vector s wavelength) (k0_of wavelength) (theta s) (n_top s) (n_bot s) ls
  else None.

(** The runs of [t_solve_1d] in which no inversion takes the pinv fallback of primitives.py:98-105: None as soon as one
    matrix is singular.  (NumPy's transfer_1d_4 inverts the same matrix as [t_transfer_1d_4].) *)
Definition t_direct_1d (s : setup) (wavelength : R) (convs : seq (conv3 (ff_x s))) :=
  let kx := t_kx_vector s wavelength in
  if layers_of convs (thickness s) is Some ls then
    if t_transfer_1d_1 (pol s) (ff_x s) kx (n_top s) (n_bot s) is Some (kz_top, kz_bot, F, G, T) then
      if stack_with (step_1d pinv eig false (pol s) kx (k0_of wavelength)) ls (F, G, T, [::])
        is Some (F', G', T', infos) then
        if transfer_1d_4 pinv false (pol s) F' G' T' kz_top kz_bot (theta s) (n_top s) (n_bot s) is Some _ then
          if t_transfer_1d_4 (pol s) F' G' T' kx kz_top kz_bot (theta s) (n_top s) (n_bot s) is Some (res, T1) then
            Some (res, T1, infos)
          else None
        else None
      else None
    else None
  else None.

(** _base.py:334-392 ([ff_y = 1]: the reshape at transfer_method.py:378 raises when fto_y <> 0). *)
Definition t_solve_1d_conical (s : setup) (wavelength : R) (convs : seq (conv3 (ff_y s * ff_x s))) :=
  if fto_y s == 0%N then
    if layers_of convs (thickness s) is Some ls then
      t_rcwa_conical (ff_x s) (t_kx_vector s wavelength) (t_kx_tiled s wavelength) (t_ky_tiled s wavelength)
        (k0_of wavelength) (psi s) (theta s) (n_top s) (n_bot s) ls
    else None
  else None.

(** _base.py:394-473. *)
Definition t_solve_2d (s : setup) (wavelength : R) (convs : seq (conv3 (ff_y s * ff_x s))) :=
  if layers_of convs (thickness s) is Some ls then
    t_rcwa_2d (ff_x s) (t_kx_vector s wavelength) (t_kx_tiled s wavelength) (t_ky_tiled s wavelength)
      (k0_of wavelength) (psi s) (theta s) (n_top s) (n_bot s) ls
  else None.

End Torch.

Arguments t_solve_1d pinv eig use_pinv s wavelength convs : clear implicits.
Arguments t_direct_1d pinv eig use_pinv s wavelength convs : clear implicits.
Arguments t_solve_1d_conical pinv eig use_pinv s wavelength convs : clear implicits.
Arguments t_solve_2d pinv eig use_pinv s wavelength convs : clear implicits.

(** ** Dispatch *)

(** [_assign_grating_type] (rcwa.py:136-158).  [ny] is the number of raster rows, [aniso] the flag [is_aniso], [phi] the
    stored azimuth.  None means that the modelling type is not set and the old value is kept. *)
Definition t_grating_of (mtype : option bool) (ny : nat) (aniso : bool) (phi : option C) (pol : C) (fy : nat)
  (old : option nat) : option nat :=
  match mtype with
  | Some false =>
      if ny == 1%N then
        if ((pol == 0) || (pol == 1)) && (if phi is Some p then p == 0 else true) && (fy == 0%N) then Some 0%N
        else if aniso then Some 2%N else Some 1%N
      else Some 2%N
  | Some true => Some 2%N
  | None => old
  end.
