(** Vocabulary about whole solves: which inputs are physical, what a result must satisfy. *)
From Coq Require Import Reals.
From mathcomp Require Import all_ssreflect ssralg matrix.
From Coquelicot Require Import Complex.
From Verif Require Import Cplx Spec ModelTM.

Set Implicit Arguments.
Unset Strict Implicit.
Unset Printing Implicit Defensive.
Local Open Scope ring_scope.

(** Lossless incidence medium, real angle of incidence below 90 degrees, real azimuth, positive periods. *)
Definition physical (s : setup) : Prop :=
  [/\ pos_real (n_top s), angle_below_90 (theta s), (forall p, phi s = Some p -> is_real p),
      (0 < period_x s)%coqR & (0 < period_y s)%coqR].

(** Convolution matrices of a lossless layer. *)
Definition lossless_convs n (c : conv3 n) : Prop :=
  let '(ex, ey, ez) := c in [/\ hermitian ex, hermitian ey & hermitian ez].

(** Convolution matrices of a layer that does not vary along y: the z-matrix is the inverse of the y-matrix. *)
Definition line_convs n (c : conv3 n) : Prop := let '(_, ey, ez) := c in ez *m ey = 1%:M.

(** The convolution matrices actually used by a solve: one triple per thickness. *)
Definition used n (s : setup) (convs : seq (conv3 n)) : seq (conv3 n) := take (size (thickness s)) convs.

(** All the incident power is found again in the reflected and transmitted orders. *)
Definition power_conserved n (r : diffraction n) : Prop :=
  Rplus (total (de_ri r)) (total (de_ti r)) = 1%coqR.

Definition power_conserved3 n (r : sp_result n) : Prop :=
  [/\ power_conserved (res r), power_conserved (res_te_inc r) & power_conserved (res_tm_inc r)].

(** All six efficiency arrays of a result are non-negative. *)
Definition nonneg_eff n (r : diffraction n) : Prop :=
  forall i : 'I_n,
  [/\ (0 <= de_ri_s r i)%coqR, (0 <= de_ri_p r i)%coqR & (0 <= de_ri r i)%coqR] /\
  [/\ (0 <= de_ti_s r i)%coqR, (0 <= de_ti_p r i)%coqR & (0 <= de_ti r i)%coqR].

(** The total of every order lies in [0, 1]. *)
Definition eff_in_unit n (r : diffraction n) : Prop :=
  forall i : 'I_n, (0 <= de_ri r i <= 1)%coqR /\ (0 <= de_ti r i <= 1)%coqR.

(** No power is reported in reflected order i, resp. transmitted order i. *)
Definition no_reflected_power n (r : diffraction n) (i : 'I_n) : Prop :=
  [/\ de_ri_s r i = 0%coqR, de_ri_p r i = 0%coqR & de_ri r i = 0%coqR].
Definition no_transmitted_power n (r : diffraction n) (i : 'I_n) : Prop :=
  [/\ de_ti_s r i = 0%coqR, de_ti_p r i = 0%coqR & de_ti r i = 0%coqR].

(** Transverse wave numbers of order [m] (grating equation), for real data: index [nt], angle [th], azimuth [ph]. *)
Definition tangential (nt th azim : R) (wavelength period : R) (m : R) : R :=
  (nt * sin th * azim + m * (wavelength / period))%coqR.

(** The same solver object with another thickness list. *)
Definition with_thickness (s : setup) (ts : seq R) : setup :=
  Setup (n_top s) (n_bot s) (theta s) (phi s) (psi s) (pol s) (fto_x s) (fto_y s) (period_x s) (period_y s) ts.

(** ... with another polarisation angle. *)
Definition with_psi (s : setup) (p : C) : setup :=
  Setup (n_top s) (n_bot s) (theta s) (phi s) p (pol s) (fto_x s) (fto_y s) (period_x s) (period_y s) (thickness s).

(** What the caller of conv_solve sees: amplitudes and efficiencies (the T1 vectors and the layer records are kept for field
    calculation only). *)
Definition reported_1d n (o : option (diffraction n * 'cV[C]_n * seq (info_1d n))) : option (diffraction n) :=
  if o is Some (r, _, _) then Some r else None.
Definition reported_sp (I : Type) n (o : option (sp_result n * I))
  : option (diffraction n * diffraction n * diffraction n) :=
  if o is Some (r, _) then Some (res r, res_te_inc r, res_tm_inc r) else None.

(** Superposition of amplitudes: all four amplitude vectors of [r] are [a] times those of [r1] plus [b] times those
    of [r2]. *)
Definition superposed n (a b : C) (r r1 r2 : diffraction n) : Prop :=
  forall i : 'I_n,
  [/\ R_s r i ord0 = a * R_s r1 i ord0 + b * R_s r2 i ord0,
      R_p r i ord0 = a * R_p r1 i ord0 + b * R_p r2 i ord0,
      T_s r i ord0 = a * T_s r1 i ord0 + b * T_s r2 i ord0
    & T_p r i ord0 = a * T_p r1 i ord0 + b * T_p r2 i ord0].

(** The truncated Helmholtz operators of a layer, written entrywise / blockwise from the transverse wave numbers [kx], [ky]
    and the convolution matrices: E'' = k0^2 A E for TE, H'' = k0^2 A H for TM, and the 2n x 2n operator of a 2D layer. *)
Definition te_operator n (kx : nat -> C) (c : conv3 n) : 'M[C]_n :=
  let '(_, ey, _) := c in \matrix_(i, j) ((if i == j then kx i ^+ 2 else 0) - ey i j).
Definition tm_operator n (kx : nat -> C) (c : conv3 n) : 'M[C]_n :=
  let '(ex, _, ez) := c in ex *m (\matrix_(i, j) (kx i * ez i j * kx j - (if i == j then 1 else 0))).
Definition helmholtz n (pol : R) kx (c : conv3 n) : 'M[C]_n :=
  if Req_EM_T pol 0 then te_operator kx c else tm_operator kx c.

(** The eigen-solver returns independent eigenvectors and strictly negative eigenvalues: every mode of the layer
    propagates. *)
Definition propagating_modes (eig : forall n, 'M[C]_n -> 'rV[C]_n * 'M[C]_n) n (A : 'M[C]_n) : Prop :=
  (eig n A).2 \in unitmx /\ forall j, exists2 x : R, (0 < x)%coqR & (eig n A).1 ord0 j = RtoC (- x).

(** Positive definite: v^H A v > 0 for every v <> 0. *)
Definition positive_definite n (A : 'M[C]_n) : Prop :=
  forall v : 'cV[C]_n, v <> 0 ->
  (0 < \big[Rplus/0%coqR]_(i < n) Re (conj (v i ord0) * (A *m v) i ord0)%R)%coqR.

(** Every order propagates in the superstrate of index [nt]. *)
Definition all_orders_propagate n (nt : R) (kx : nat -> C) : Prop :=
  forall i : 'I_n, exists2 x : R, kx i = RtoC x & (x * x < nt * nt)%coqR.

(** The two halves of Maxwell's equations for the transverse fields of a layer: (Ex, Ey)' = k0 [e_from_h] (Hx, Hy) and
    (Hx, Hy)' = k0 [h_from_e] (Ex, Ey), for flattened wave numbers [kx], [ky]. *)
Definition tk n (ka kb : nat -> C) (ez : 'M[C]_n) : 'M[C]_n := \matrix_(i, j) (ka i * ez i j * kb j).
Definition dk n (ka kb : nat -> C) : 'M[C]_n := \matrix_(i, j) (if i == j then ka i * kb i else 0).
Definition e_from_h n (kx ky : nat -> C) (c : conv3 n) : 'M[C]_(n + n) :=
  let '(_, _, ez) := c in block_mx (- tk kx ky ez) (tk kx kx ez - 1%:M) (1%:M - tk ky ky ez) (tk ky kx ez).
Definition h_from_e n (kx ky : nat -> C) (c : conv3 n) : 'M[C]_(n + n) :=
  let '(ex, ey, _) := c in block_mx (- dk n kx ky) (dk n kx kx - ey) (ex - dk n ky ky) (dk n ky kx).
Definition swap_xy n : 'M[C]_(n + n) := block_mx 0 1%:M (- 1%:M) 0.

(** All modes of the layer propagate, downwards with positive power. *)
Definition propagating_layer eig n (kx ky : nat -> C) (c : conv3 n) : Prop :=
  [/\ e_from_h kx ky c \in unitmx, positive_definite (- (swap_xy n *m invmx (e_from_h kx ky c)))
    & propagating_modes eig (e_from_h kx ky c *m h_from_e kx ky c)].

(** For the conical solver: its two separate eigenproblems. *)
Definition propagating_layer_conical eig n (kx ky : nat -> C) (c : conv3 n) : Prop :=
  let '(ex, ey, ez) := c in
  [/\ e_from_h kx ky c \in unitmx, positive_definite (- (swap_xy n *m invmx (e_from_h kx ky c))),
      dk n kx kx - ey \in unitmx /\ tk kx kx ez - 1%:M \in unitmx,
      propagating_modes eig (dk n ky ky + (dk n kx kx - ey))
    & propagating_modes eig (dk n ky ky + (tk kx kx ez - 1%:M) *m ex)].

Definition all_orders_propagate2 n (nt : R) (kx ky : nat -> C) : Prop :=
  forall i : 'I_n, exists x y : R,
  [/\ kx i = RtoC x, ky i = RtoC y, (x * x + y * y < nt * nt)%coqR & (x <> 0 \/ y <> 0)%coqR].

(** A fact about each of the three result blocks of a 2D / conical solve. *)
Definition facts3 n (P : diffraction n -> Prop) (r : sp_result n) :=
  [/\ P (res r), P (res_te_inc r) & P (res_tm_inc r)].

(** A laterally uniform layer of permittivity [e]. *)
Definition uniform_convs n (e : C) : conv3 n := (e%:M, e%:M, (e^-1)%:M).

(** Amplitudes of the polarisation that is solved ([tm] selects p), and of the other one. *)
Definition co_R n (tm : bool) (r : diffraction n) : 'cV[C]_n := if tm then R_p r else R_s r.
Definition co_T n (tm : bool) (r : diffraction n) : 'cV[C]_n := if tm then T_p r else T_s r.
Definition cross_R n (tm : bool) (r : diffraction n) : 'cV[C]_n := if tm then R_s r else R_p r.
Definition cross_T n (tm : bool) (r : diffraction n) : 'cV[C]_n := if tm then T_s r else T_p r.
Definition is_tm (pol : R) : bool := if Req_EM_T pol 1 then true else false.

(** Two results with the same reflection, and transmitted amplitudes that differ by a factor [ph i] in order [i] without
    any change of the transmitted power. *)
Definition same_reflection n (a b : diffraction n) : Prop :=
  [/\ R_s b = R_s a, R_p b = R_p a,
      (forall i, de_ri_s b i = de_ri_s a i), (forall i, de_ri_p b i = de_ri_p a i)
    & (forall i, de_ri b i = de_ri a i)].
Definition transmission_delayed n (ph : nat -> C) (a b : diffraction n) : Prop :=
  forall i : 'I_n,
  [/\ T_s b i ord0 = ph i * T_s a i ord0, T_p b i ord0 = ph i * T_p a i ord0,
      de_ti_s b i = de_ti_s a i, de_ti_p b i = de_ti_p a i & de_ti b i = de_ti a i].

(** Tangential wave number of order [i] of a classical mount. *)
Definition order_kx (nt th : R) (fto i : nat) (w period : R) : R :=
  (nt * sin th + (INR i - INR fto) * (w / period))%coqR.

(** Normal incidence from vacuum on a substrate of index nr - i k under layers of thickness [ts]; only the zeroth order
    is kept. *)
Definition bare (nr k p : R) (ts : seq R) : setup :=
  Setup (RtoC 1) (nr, (- k)%coqR) (RtoC 0) None (RtoC 0) p 0 0 1 1 ts.
