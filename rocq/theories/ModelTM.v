(** Model of the NumPy enhanced-transmittance-matrix solver.
    Sources (all under /repo/meent/on_numpy/emsolver):
      primitives.py, transfer_method.py, _base.py (get_kx_ky_vector, solve_1d, solve_1d_conical, solve_2d).
    Conventions
      - a 1-D numpy array of length n is an index function [nat -> C] together with n, or a row/column vector;
      - a raised exception (ValueError, LinAlgError, IndexError) is [None];
      - numbers are exact (see DESIGN.md section 1). *)
From Coq Require Import Reals.
From mathcomp Require Import all_ssreflect ssralg matrix.
From Coquelicot Require Import Complex.
From Verif Require Import Cplx Mx.

Set Implicit Arguments.
Unset Strict Implicit.
Unset Printing Implicit Defensive.
Local Open Scope ring_scope.
Import GRing.Theory.

(** Equality test of a real with a literal, as in [pol == 0]. *)
Definition reqb (x y : R) : bool := if Req_EM_T x y then true else false.

(** The literal 0.5. *)
Definition half : C := RtoC (1 / 2).

(** One layer of the stack as the solver sees it: [epx_conv], [epy_conv], [epz_conv_i] and the thickness [d]
    (_base.py:248-252, 308-312, 368-372). *)
Record layer (n : nat) := Layer {
  epx : 'M[C]_n; epy : 'M[C]_n; epzi : 'M[C]_n; thick : R }.

(** The dictionary ['res'] / ['res_te_inc'] / ['res_tm_inc'] (transfer_method.py:128-131, 323-325, 369-375,
    568-570, 614-620).  Arrays of shape (ff_y, ff_x) are kept flattened in C (row-major) order. *)
Record diffraction (n : nat) := Diffraction {
  R_s : 'cV[C]_n; R_p : 'cV[C]_n; T_s : 'cV[C]_n; T_p : 'cV[C]_n;
  de_ri_s : 'I_n -> R; de_ri_p : 'I_n -> R; de_ri : 'I_n -> R;
  de_ti_s : 'I_n -> R; de_ti_p : 'I_n -> R; de_ti : 'I_n -> R }.

(** [delta_i0]: 1 at index ff // 2, 0 elsewhere (transfer_method.py:86-87, 280-281, 524-525). *)
Definition delta_i0 n : 'cV[C]_n := \col_(i < n) (if i == (n %/ 2)%N :> nat then 1 else 0).

Section Solver.

(** [np.linalg.pinv] and [np.linalg.eig] are oracles: universally quantified functions.  What is assumed about them is
    stated in each theorem. *)
Variable pinv : forall n, 'M[C]_n -> 'M[C]_n.
Variable eig : forall n, 'M[C]_n -> 'rV[C]_n * 'M[C]_n.
Variable use_pinv : bool.

(** primitives.py:4-10.  [np.linalg.inv] raises LinAlgError on a singular matrix. *)
Definition meeinv n (x : 'M[C]_n) : option 'M[C]_n :=
  if use_pinv then Some (pinv x)
  else if x \in unitmx then Some (invmx x) else None.

(** [(n ** 2 - kx ** 2) ** 0.5] then [.conj()] (transfer_method.py:9-13). *)
Definition kz_1d (nn : C) (kx : nat -> C) : nat -> C :=
  fun i => conj (csqrt (nn ^+ 2 - kx i ^+ 2)).

(** [np.exp(-k0 * q * d)] on the diagonal (transfer_method.py:64, 222-223, 465-466). *)
Definition Xmat n (k0 : R) (q : 'rV[C]_n) (d : R) : 'M[C]_n :=
  diag_mx (\row_j cexp (- RtoC k0 * q ord0 j * RtoC d)).

(** [eigenvalues ** 0.5] entrywise (transfer_method.py:38, 48, 184-185, 429). *)
Definition sqrtv n (v : 'rV[C]_n) : 'rV[C]_n := map_mx csqrt v.

(** ** 1D, TE or TM *)

(** transfer_method.py:6-28. *)
Definition transfer_1d_1 (pol : R) n (kx : nat -> C) (n_top n_bot : C)
  : option ((nat -> C) * (nat -> C) * 'M[C]_n * 'M[C]_n * 'M[C]_n) :=
  let kz_top := kz_1d n_top kx in
  let kz_bot := kz_1d n_bot kx in
  if reqb pol 0 then
    Some (kz_top, kz_bot, 1%:M, ci *: diagf n kz_bot, 1%:M)
  else if reqb pol 1 then
    Some (kz_top, kz_bot, 1%:M, ci *: diagf n (fun i => kz_bot i / n_bot ^+ 2), 1%:M)
  else None.

(** transfer_method.py:31-56.  [Kx ** 2] is an elementwise square of a diagonal matrix. *)
Definition transfer_1d_2 (pol : R) n (kx : nat -> C) (epx_conv epy_conv epz_conv_i : 'M[C]_n)
  : option ('M[C]_n * 'M[C]_n * 'rV[C]_n) :=
  let Kx := diagf n kx in
  if reqb pol 0 then
    let A := Kx *m Kx - epy_conv in
    let (eigenvalues, W) := eig A in
    let q := sqrtv eigenvalues in
    Some (W, W *m diag_mx q, q)
  else if reqb pol 1 then
    let B := Kx *m epz_conv_i *m Kx - 1%:M in
    let (eigenvalues, W) := eig (epx_conv *m B) in
    let q := sqrtv eigenvalues in
    if meeinv epx_conv is Some Ei then Some (W, Ei *m W *m diag_mx q, q) else None
  else None.

(** The layer update shared verbatim by the three solvers:
    transfer_method.py:66-78, 242-255, 486-499.  Returns F, G, T, A_i, B. *)
Definition layer_update m (W V X F G T : 'M[C]_m)
  : option ('M[C]_m * 'M[C]_m * 'M[C]_m * 'M[C]_m * 'M[C]_m) :=
  if meeinv W is Some W_i then
  if meeinv V is Some V_i then
    let A := half *: (W_i *m F + V_i *m G) in
    let B := half *: (W_i *m F - V_i *m G) in
    if meeinv A is Some A_i then
      let F' := W *m (1%:M + X *m B *m A_i *m X) in
      let G' := V *m (1%:M - X *m B *m A_i *m X) in
      let T' := T *m A_i *m X in
      Some (F', G', T', A_i, B)
    else None
  else None else None.

(** transfer_method.py:59-78 (X is recomputed by the caller from q when needed). *)
Definition transfer_1d_3 n (k0 : R) (W V : 'M[C]_n) (q : 'rV[C]_n) (d : R) (F G T : 'M[C]_n) :=
  layer_update W V (Xmat k0 q d) F G T.

(** transfer_method.py:81-135. *)
Definition transfer_1d_4 (pol : R) n (F G T : 'M[C]_n) (kz_top kz_bot : nat -> C) (theta n_top n_bot : C)
  : option (diffraction n * 'cV[C]_n) :=
  let Kz_top := diagf n kz_top in
  let d0 := delta_i0 n in
  let mk (T1 : 'cV[C]_n) (wt : 'I_n -> R) :=
    let R := F *m T1 - d0 in
    let T := T *m T1 in
    let de_r := fun i : 'I_n =>
      Re (R i ord0 * conj (R i ord0) * RtoC (Re (kz_top i / (n_top * ccos theta)))) in
    let de_t := fun i : 'I_n => Re (T i ord0 * conj (T i ord0) * RtoC (wt i)) in
    (R, T, de_r, de_t) in
  if reqb pol 0 then
    let inc_term := (ci * n_top * ccos theta) *: d0 in
    if meeinv (G + ci *: Kz_top *m F) is Some M then
      let T1 := M *m ((ci *: Kz_top) *m d0 + inc_term) in
      let '(R, T, de_r, de_t) := mk T1 (fun i => Re (kz_bot i / (n_top * ccos theta))) in
      Some (Diffraction R 0 T 0 de_r (fun _ => 0%coqR) de_r de_t (fun _ => 0%coqR) de_t, T1)
    else None
  else if reqb pol 1 then
    let inc_term := (ci * ccos theta / n_top) *: d0 in
    if meeinv (G + ((ci / n_top ^+ 2) *: Kz_top) *m F) is Some M then
      let T1 := M *m (((ci / n_top ^+ 2) *: Kz_top) *m d0 + inc_term) in
      let '(R, T, de_r, de_t) := mk T1 (fun i => Re (kz_bot i / n_bot ^+ 2 / (ccos theta / n_top))) in
      Some (Diffraction 0 R 0 T (fun _ => 0%coqR) de_r de_r (fun _ => 0%coqR) de_t de_t, T1)
    else None
  else None.

(** What [layer_info_list] stores per layer, in 1D (_base.py:261): [epz_conv_i, W, V, q, d, A_i, B]. *)
Record info_1d n := Info1d {
  i1_epzi : 'M[C]_n; i1_W : 'M[C]_n; i1_V : 'M[C]_n; i1_q : 'rV[C]_n; i1_d : R; i1_Ai : 'M[C]_n; i1_B : 'M[C]_n }.

(** Loop body of _base.py:246-262. *)
Definition step_1d (pol : R) n (kx : nat -> C) (k0 : R) (l : layer n)
  (st : 'M[C]_n * 'M[C]_n * 'M[C]_n * seq (info_1d n)) :=
  let '(F, G, T, infos) := st in
  if transfer_1d_2 pol kx (epx l) (epy l) (epzi l) is Some (W, V, q) then
    if transfer_1d_3 k0 W V q (thick l) F G T is Some (F', G', T', A_i, B) then
      Some (F', G', T', rcons infos (Info1d (epzi l) W V q (thick l) A_i B))
    else None
  else None.

(** The loop [for layer_index in range(len(self.thickness))[::-1]] (_base.py:246, 306, 366) runs from the last layer to
    the first, so the head of the list is processed last.  Failure of one iteration aborts the loop. *)
Fixpoint stack_with (L S : Type) (step : L -> S -> option S) (ls : seq L) (st : S) : option S :=
  match ls with
  | [::] => Some st
  | l :: ls' => if stack_with step ls' st is Some st' then step l st' else None
  end.

(** _base.py:224-284 after kx and k0 have been computed, [connecting_algo == 'TMM']. *)
Definition rcwa_1d (pol : R) n (kx : nat -> C) (k0 : R) (theta n_top n_bot : C) (ls : seq (layer n))
  : option (diffraction n * 'cV[C]_n * seq (info_1d n)) :=
  if transfer_1d_1 pol n kx n_top n_bot is Some (kz_top, kz_bot, F, G, T) then
    if stack_with (step_1d pol kx k0) ls (F, G, T, [::]) is Some (F', G', T', infos) then
      if transfer_1d_4 pol F' G' T' kz_top kz_bot theta n_top n_bot is Some (res, T1) then
        Some (res, T1, infos)
      else None
    else None
  else None.

(** ** Conical 1D and 2D *)

(** Flattened index helpers.  [np.tile(kx, ff_y)] and [np.tile(ky.reshape(-1,1), ff_x).flatten()]
    (transfer_method.py:169-170, 414-415): entry iy * ff_x + ix is kx[ix], resp. ky[iy]. *)
Definition tile_x (fx : nat) (kx : nat -> C) : nat -> C := fun i => kx (i %% fx)%N.
Definition tile_y (fx : nat) (ky : nat -> C) : nat -> C := fun i => ky (i %/ fx)%N.

(** transfer_method.py:146-150, 391-395. *)
Definition kz_2d (nn : C) (kxt kyt : nat -> C) : nat -> C :=
  fun i => conj (csqrt (nn ^+ 2 - kxt i ^+ 2 - kyt i ^+ 2)).

(** [varphi = np.arctan(ky / kx)] is only ever used through cos and sin (transfer_method.py:152, 225-226, 397, 468-469):
    cos(arctan t) = 1 / sqrt(1 + t^2), sin(arctan t) = t / sqrt(1 + t^2).
    For kx = 0 and ky <> 0 numpy's division gives an infinity and arctan gives +-pi/2; for kx = ky = 0 it gives nan
    (modelled as failure, see [varphi_ok]). *)
Definition cos_varphi (kx ky : C) : C :=
  if kx == 0 then 0 else (csqrt (1 + (ky / kx) ^+ 2))^-1.
Definition sin_varphi (kx ky : C) : C :=
  if kx == 0 then (if Rlt_dec (Re ky) 0 then -1 else 1)
  else (ky / kx) / csqrt (1 + (ky / kx) ^+ 2).
Definition varphi_ok n (kxt kyt : nat -> C) : bool :=
  [forall i : 'I_n, (kxt i != 0) || (kyt i != 0)].

(** transfer_method.py:138-159 and 383-404 (the two functions have identical bodies).
    Returns kz_top, kz_bot, (cos varphi, sin varphi), big_F, big_G, big_T. *)
Definition transfer_sp_1 n (kxt kyt : nat -> C) (n_top n_bot : C) :=
  let kz_top := kz_2d n_top kxt kyt in
  let kz_bot := kz_2d n_bot kxt kyt in
  let Kz_bot := diagf n kz_bot in
  if varphi_ok n kxt kyt then
    Some (kz_top, kz_bot,
          (fun i => cos_varphi (kxt i) (kyt i)), (fun i => sin_varphi (kxt i) (kyt i)),
          block_mx (1%:M : 'M[C]_n) 0 0 ((ci / n_bot ^+ 2) *: Kz_bot),
          block_mx (ci *: Kz_bot) 0 0 (1%:M : 'M[C]_n),
          (1%:M : 'M[C]_(n + n)))
  else None.

(** transfer_method.py:162-203.  Returns W_1, W_2 ([W = np.block([W_1, W_2])]), V (2n x 2n), q_1, q_2. *)
Definition transfer_1d_conical_2 n (kxt kyt : nat -> C) (epx_conv epy_conv epz_conv_i : 'M[C]_n) :=
  let Kx := diagf n kxt in
  let Ky := diagf n kyt in
  let A := Kx *m Kx - epy_conv in
  let B := Kx *m epz_conv_i *m Kx - 1%:M in
  let Omega2_RL := Ky *m Ky + A in
  let Omega2_LR := Ky *m Ky + B *m epx_conv in
  let (eigenvalues_1, W_1) := eig Omega2_RL in
  let (eigenvalues_2, W_2) := eig Omega2_LR in
  let q_1 := sqrtv eigenvalues_1 in
  let q_2 := sqrtv eigenvalues_2 in
  if meeinv A is Some A_i then
  if meeinv B is Some B_i then
    let V_11 := A_i *m W_1 *m diag_mx q_1 in
    let V_12 := Ky *m A_i *m Kx *m W_2 in
    let V_21 := Ky *m B_i *m Kx *m epz_conv_i *m W_1 in
    let V_22 := B_i *m W_2 *m diag_mx q_2 in
    Some (row_mx W_1 W_2, block_mx V_11 V_12 V_21 V_22, row_mx q_1 q_2)
  else None else None.

(** transfer_method.py:206-255.  Slices of W, V, q are block projections. *)
Definition conical_big n (W : 'M[C]_(n, n + n)) (V : 'M[C]_(n + n)) (c s : nat -> C)
  : 'M[C]_(n + n) * 'M[C]_(n + n) :=
  let W_1 := lsubmx W in let W_2 := rsubmx W in
  let V_11 := ulsubmx V in let V_12 := ursubmx V in
  let V_21 := dlsubmx V in let V_22 := drsubmx V in
  let F_c := diagf n c in let F_s := diagf n s in
  let V_ss := F_c *m V_11 in
  let V_sp := F_c *m V_12 - F_s *m W_2 in
  let W_ss := F_c *m W_1 + F_s *m V_21 in
  let W_sp := F_s *m V_22 in
  let W_ps := F_s *m V_11 in
  let W_pp := F_c *m W_2 + F_s *m V_12 in
  let V_ps := F_c *m V_21 - F_s *m W_1 in
  let V_pp := F_c *m V_22 in
  (block_mx V_ss V_sp W_ps W_pp, block_mx W_ss W_sp V_ps V_pp).

(** [big_X = np.block([[X_1, O], [O, X_2]])] with X_j = diag(exp(-k0 q_j d)) (transfer_method.py:222-223, 238). *)
Definition big_X n (k0 : R) (q : 'rV[C]_(n + n)) (d : R) : 'M[C]_(n + n) :=
  block_mx (Xmat k0 (lsubmx q) d) 0 0 (Xmat k0 (rsubmx q) d).

Definition transfer_1d_conical_3 n (k0 : R) (W : 'M[C]_(n, n + n)) (V : 'M[C]_(n + n)) (q : 'rV[C]_(n + n)) (d : R)
  (c s : nat -> C) (big_F big_G big_T : 'M[C]_(n + n)) :=
  let (big_W, big_V) := conical_big W V c s in
  layer_update big_W big_V (big_X k0 q d) big_F big_G big_T.

(** transfer_method.py:407-443. *)
Definition transfer_2d_2 n (kxt kyt : nat -> C) (epx_conv epy_conv epz_conv_i : 'M[C]_n) :=
  let Kx := diagf n kxt in
  let Ky := diagf n kyt in
  let B := Kx *m epz_conv_i *m Kx - 1%:M in
  let D := Ky *m epz_conv_i *m Ky - 1%:M in
  let Omega2_LR : 'M[C]_(n + n) := block_mx
      (Ky *m Ky + B *m epx_conv) (Kx *m (epz_conv_i *m Ky *m epy_conv - Ky))
      (Ky *m (epz_conv_i *m Kx *m epx_conv - Kx)) (Kx *m Kx + D *m epy_conv) in
  let (eigenvalues, W) := eig Omega2_LR in
  let q := sqrtv eigenvalues in
  if meeinv (diag_mx q) is Some Q_i then
    let Omega_R : 'M[C]_(n + n) := block_mx
      (- Kx *m Ky) (Kx *m Kx - epy_conv)
      (epx_conv - Ky *m Ky) (Ky *m Kx) in
    Some (W, Omega_R *m W *m Q_i, q)
  else None.

(** transfer_method.py:446-484. *)
Definition big_2d n (W V : 'M[C]_(n + n)) (c s : nat -> C) : 'M[C]_(n + n) * 'M[C]_(n + n) :=
  let W_11 := ulsubmx W in let W_12 := ursubmx W in
  let W_21 := dlsubmx W in let W_22 := drsubmx W in
  let V_11 := ulsubmx V in let V_12 := ursubmx V in
  let V_21 := dlsubmx V in let V_22 := drsubmx V in
  let F_c := diagf n c in let F_s := diagf n s in
  let W_ss := F_c *m W_21 - F_s *m W_11 in
  let W_sp := F_c *m W_22 - F_s *m W_12 in
  let W_ps := F_c *m W_11 + F_s *m W_21 in
  let W_pp := F_c *m W_12 + F_s *m W_22 in
  let V_ss := F_c *m V_11 + F_s *m V_21 in
  let V_sp := F_c *m V_12 + F_s *m V_22 in
  let V_ps := F_c *m V_21 - F_s *m V_11 in
  let V_pp := F_c *m V_22 - F_s *m V_12 in
  (block_mx W_ss W_sp W_ps W_pp, block_mx V_ss V_sp V_ps V_pp).

Definition transfer_2d_3 n (k0 : R) (W V : 'M[C]_(n + n)) (q : 'rV[C]_(n + n)) (d : R)
  (c s : nat -> C) (big_F big_G big_T : 'M[C]_(n + n)) :=
  let (big_W, big_V) := big_2d W V c s in
  layer_update big_W big_V (big_X k0 q d) big_F big_G big_T.

(** [final_A] (transfer_method.py:284-291, 528-535).  The blocks -big_F_ij / -big_G_ij assemble to -big_F, -big_G. *)
Definition final_A n (big_F big_G : 'M[C]_(n + n)) (kz_top : nat -> C) (n_top : C)
  : 'M[C]_((n + n) + (n + n)) :=
  let Kz_top := diagf n kz_top in
  block_mx (block_mx (1%:M : 'M[C]_n) 0 0 ((- ci / n_top ^+ 2) *: Kz_top)) (- big_F)
           (block_mx ((- ci) *: Kz_top) 0 0 (1%:M : 'M[C]_n)) (- big_G).

(** [final_B] for a given psi (transfer_method.py:292-299, 328-346, 537-544, 573-591). *)
Definition final_B n (psi theta n_top : C) : 'cV[C]_((n + n) + (n + n)) :=
  let d0 := delta_i0 n in
  col_mx (col_mx ((- csin psi) *: d0) ((ccos psi * ccos theta) *: d0))
         (col_mx ((- ci * csin psi * n_top * ccos theta) *: d0) ((- ci * n_top * ccos psi) *: d0)).

(** Extraction of amplitudes and efficiencies from one solution column
    (transfer_method.py:304-321, 351-367, 549-566, 596-612). *)
Definition extract_sp n (RT : 'cV[C]_((n + n) + (n + n))) (big_T : 'M[C]_(n + n))
  (kz_top kz_bot : nat -> C) (theta n_top n_bot : C) : diffraction n * 'cV[C]_(n + n) :=
  let Rs := usubmx (usubmx RT) in
  let Rp := dsubmx (usubmx RT) in
  let T1 := dsubmx RT in
  let T := big_T *m T1 in
  let Ts := usubmx T in
  let Tp := dsubmx T in
  let de (A : 'cV[C]_n) (w : nat -> C) := fun i : 'I_n =>
    Re (A i ord0 * conj (A i ord0) * RtoC (Re (w i))) in
  let ri_s := de Rs (fun i => kz_top i / (n_top * ccos theta)) in
  let ri_p := de Rp (fun i => kz_top i / n_top ^+ 2 / (n_top * ccos theta)) in
  let ti_s := de Ts (fun i => kz_bot i / (n_top * ccos theta)) in
  let ti_p := de Tp (fun i => kz_bot i / n_bot ^+ 2 / (n_top * ccos theta)) in
  (Diffraction Rs Rp Ts Tp ri_s ri_p (fun i => (ri_s i + ri_p i)%coqR)
                           ti_s ti_p (fun i => (ti_s i + ti_p i)%coqR), T1).

(** The three results of a 2D / conical solve: for the requested psi, for TE incidence (psi = pi/2) and for TM incidence
    (psi = 0), and the stacked T1 vectors in that order (transfer_method.py:377-380, 622-625). *)
Record sp_result n := SpResult {
  res : diffraction n; res_te_inc : diffraction n; res_tm_inc : diffraction n;
  T1_res : 'cV[C]_(n + n); T1_te : 'cV[C]_(n + n); T1_tm : 'cV[C]_(n + n) }.

(** transfer_method.py:258-380 and 502-625 (identical bodies). *)
Definition transfer_sp_4 n (big_F big_G big_T : 'M[C]_(n + n)) (kz_top kz_bot : nat -> C)
  (psi theta n_top n_bot : C) : option (sp_result n) :=
  if meeinv (final_A big_F big_G kz_top n_top) is Some final_A_inv then
    let go psi := extract_sp (final_A_inv *m final_B n psi theta n_top) big_T kz_top kz_bot theta n_top n_bot in
    let (r, t1) := go psi in
    let (r_te, t1_te) := go (RtoC (PI / 2)) in
    let (r_tm, t1_tm) := go (RtoC 0) in
    Some (SpResult r r_te r_tm t1 t1_te t1_tm)
  else None.

(** [layer_info] (_base.py:322, 382).  In the conical case W is n x 2n, in 2D 2n x 2n. *)
Record info_sp (W : Type) n := InfoSp {
  is_epzi : 'M[C]_n; is_W : W; is_V : 'M[C]_(n + n); is_q : 'rV[C]_(n + n); is_d : R;
  is_Ai : 'M[C]_(n + n); is_B : 'M[C]_(n + n) }.

(** Loop bodies (_base.py:306-328 and 366-395). *)
Definition step_conical n (kxt kyt : nat -> C) (c s : nat -> C) (k0 : R) (l : layer n)
  (st : 'M[C]_(n + n) * 'M[C]_(n + n) * 'M[C]_(n + n) * seq (info_sp 'M[C]_(n, n + n) n)) :=
  let '(F, G, T, infos) := st in
  if transfer_1d_conical_2 kxt kyt (epx l) (epy l) (epzi l) is Some (W, V, q) then
    if transfer_1d_conical_3 k0 W V q (thick l) c s F G T is Some (F', G', T', A_i, B) then
      Some (F', G', T', rcons infos (InfoSp (epzi l) W V q (thick l) A_i B))
    else None
  else None.

Definition step_2d n (kxt kyt : nat -> C) (c s : nat -> C) (k0 : R) (l : layer n)
  (st : 'M[C]_(n + n) * 'M[C]_(n + n) * 'M[C]_(n + n) * seq (info_sp 'M[C]_(n + n) n)) :=
  let '(F, G, T, infos) := st in
  if transfer_2d_2 kxt kyt (epx l) (epy l) (epzi l) is Some (W, V, q) then
    if transfer_2d_3 k0 W V q (thick l) c s F G T is Some (F', G', T', A_i, B) then
      Some (F', G', T', rcons infos (InfoSp (epzi l) W V q (thick l) A_i B))
    else None
  else None.

(** _base.py:286-341 (TMM), for tiled wave vectors. *)
Definition rcwa_conical n (kxt kyt : nat -> C) (k0 : R) (psi theta n_top n_bot : C) (ls : seq (layer n))
  : option (sp_result n * seq (info_sp 'M[C]_(n, n + n) n)) :=
  if transfer_sp_1 n kxt kyt n_top n_bot is Some (kz_top, kz_bot, c, s, F, G, T) then
    if stack_with (step_conical kxt kyt c s k0) ls (F, G, T, [::]) is Some (F', G', T', infos) then
      if transfer_sp_4 F' G' T' kz_top kz_bot psi theta n_top n_bot is Some r then Some (r, infos) else None
    else None
  else None.

(** _base.py:343-418 (TMM). *)
Definition rcwa_2d n (kxt kyt : nat -> C) (k0 : R) (psi theta n_top n_bot : C) (ls : seq (layer n))
  : option (sp_result n * seq (info_sp 'M[C]_(n + n) n)) :=
  if transfer_sp_1 n kxt kyt n_top n_bot is Some (kz_top, kz_bot, c, s, F, G, T) then
    if stack_with (step_2d kxt kyt c s k0) ls (F, G, T, [::]) is Some (F', G', T', infos) then
      if transfer_sp_4 F' G' T' kz_top kz_bot psi theta n_top n_bot is Some r then Some (r, infos) else None
    else None
  else None.

(** ** Object level *)

(** The attributes of the solver object read by the solve methods (_base.py:11-47).  [fto] entries are naturals here
    (a negative fto gives empty order ranges in numpy). *)
Record setup := Setup {
  n_top : C; n_bot : C; theta : C; phi : option C; psi : C; pol : R;
  fto_x : nat; fto_y : nat; period_x : R; period_y : R; thickness : seq R }.

Definition ff_x (s : setup) : nat := (fto_x s).*2.+1.
Definition ff_y (s : setup) : nat := (fto_y s).*2.+1.

(** float32(pi/2) and its predecessor, exactly (_base.py:208-210). *)
Definition pi32 : R := (13176795 / 8388608)%coqR.
Definition pi32_pred : R := (13176794 / 8388608)%coqR.

(** _base.py:203-222. *)
Definition sin_theta (s : setup) : C :=
  if Rle_dec pi32 (Re (theta s)) then csin (RtoC pi32_pred + RtoC (Im (theta s)) * ci)
  else csin (theta s).

Definition phi_val (s : setup) : C := if phi s is Some p then p else 0.

Definition order (fto i : nat) : R := (INR i - INR fto)%coqR.

Definition kx_vector (s : setup) (wavelength : R) : nat -> C := fun i =>
  conj (n_top s * sin_theta s * ccos (phi_val s)
        + RtoC (order (fto_x s) i) * RtoC (wavelength / period_x s)).

Definition ky_vector (s : setup) (wavelength : R) : nat -> C := fun i =>
  conj (n_top s * sin_theta s * csin (phi_val s)
        + RtoC (order (fto_y s) i) * RtoC (wavelength / period_y s)).

(** A triple [epx_conv_all[i], epy_conv_all[i], epz_conv_i_all[i]]. *)
Definition conv3 n := ('M[C]_n * 'M[C]_n * 'M[C]_n)%type.

(** Pairing of the convolution arrays with the thickness list: the loop runs over the thickness indices, extra arrays are
    ignored and missing ones raise IndexError (_base.py:246-252, 306-312, 366-372). *)
Fixpoint layers_of n (convs : seq (conv3 n)) (ts : seq R) : option (seq (layer n)) :=
  match ts, convs with
  | [::], _ => Some [::]
  | t :: ts', (ex, ey, ez) :: cs' =>
      if layers_of cs' ts' is Some ls then Some (Layer ex ey ez t :: ls) else None
  | _ :: _, [::] => None
  end.

(** [k0 = 2 * np.pi / wavelength] (_base.py:230, 293, 350). *)
Definition k0_of (wavelength : R) : R := (2 * PI / wavelength)%coqR.

(** _base.py:224-284. *)
Definition solve_1d (s : setup) (wavelength : R) (convs : seq (conv3 (ff_x s))) :=
  if layers_of convs (thickness s) is Some ls then
    rcwa_1d (pol s) (kx_vector s wavelength) (k0_of wavelength) (theta s) (n_top s) (n_bot s) ls
  else None.

Definition kx_tiled (s : setup) (wavelength : R) : nat -> C := tile_x (ff_x s) (kx_vector s wavelength).
Definition ky_tiled (s : setup) (wavelength : R) : nat -> C := tile_y (ff_x s) (ky_vector s wavelength).

(** _base.py:286-341.  [ff_y = 1] while [ky] has 2 fto_y + 1 entries: the final reshape raises when fto_y <> 0. *)
Definition solve_1d_conical (s : setup) (wavelength : R) (convs : seq (conv3 (ff_y s * ff_x s))) :=
  if fto_y s == 0%N then
    if layers_of convs (thickness s) is Some ls then
      rcwa_conical (kx_tiled s wavelength) (ky_tiled s wavelength) (k0_of wavelength)
        (psi s) (theta s) (n_top s) (n_bot s) ls
    else None
  else None.

(** _base.py:343-418. *)
Definition solve_2d (s : setup) (wavelength : R) (convs : seq (conv3 (ff_y s * ff_x s))) :=
  if layers_of convs (thickness s) is Some ls then
    rcwa_2d (kx_tiled s wavelength) (ky_tiled s wavelength) (k0_of wavelength)
      (psi s) (theta s) (n_top s) (n_bot s) ls
  else None.

End Solver.

Arguments solve_1d pinv eig use_pinv s wavelength convs : clear implicits.
Arguments solve_1d_conical pinv eig use_pinv s wavelength convs : clear implicits.
Arguments solve_2d pinv eig use_pinv s wavelength convs : clear implicits.
