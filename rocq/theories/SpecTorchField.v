(** Maxwell's equations with time dependence exp(-i w t): the other sign than SpecMaxwell.v.  x to the right, y downwards (the
    direction in which the row index of the arrays grows), z upwards and 0 on the top face of the layer considered. *)
From Coq Require Import Reals.
From mathcomp Require Import all_ssreflect ssralg matrix.
From Coquelicot Require Import Complex.
From Verif Require Import Cplx Spec ModelTM SpecSolve SpecField SpecMaxwell SpecTorch.

Set Implicit Arguments.
Unset Strict Implicit.
Unset Printing Implicit Defensive.
Local Open Scope ring_scope.

(** [f] is the sum of the orders exp(+i k0 (kx x + ky y)). *)
Definition orders_m n (k0 : R) (kx ky : nat -> C) (f : R -> R -> C) (c : 'cV[C]_n) : Prop :=
  forall x y, f x y = \sum_(j < n) cexp (ci * RtoC k0 * (kx j * RtoC x + ky j * RtoC y)) * c j ord0.

Definition material_m n (k0 : R) (kx ky : nat -> C) (c : conv3 n) (e d : vfield) (z : R) : Prop :=
  let '(epx, epy, epzi) := c in
  exists ex ey dz : 'cV[C]_n,
  [/\ orders_m k0 kx ky (fun x y => vx (e x y z)) ex /\ orders_m k0 kx ky (fun x y => vx (d x y z)) (epx *m ex),
      orders_m k0 kx ky (fun x y => vy (e x y z)) ey /\ orders_m k0 kx ky (fun x y => vy (d x y z)) (epy *m ey)
    & orders_m k0 kx ky (fun x y => vz (d x y z)) dz /\ orders_m k0 kx ky (fun x y => vz (e x y z)) (epzi *m dz)].

(** curl E = i k0 H, curl H = - i k0 D. *)
Definition maxwell_m n (k0 : R) (kx ky : nat -> C) (c : conv3 n) (t : R) (e h : vfield) : Prop :=
  exists d : vfield, forall z, (- t < z < 0)%coqR ->
  material_m k0 kx ky c e d z /\
  forall x y, curl_at e x y z (vscale (ci * RtoC k0) (h x y z)) /\
              curl_at h x y z (vscale (- ci * RtoC k0) (d x y z)).

(** A sample array of one layer: z index downwards from the top face, y index from -py to 0, x index from 0 to px. *)
Definition sampled_m (px py t : R) (rx ry rz : nat) (a : nat -> nat -> nat -> seq C) (e h : vfield) : Prop :=
  forall iz iy ix, (iy < ry)%N ->
  let x := grid px rx ix in let y := (- grid py ry (ry.-1 - iy)%N)%coqR in let z := (- grid t rz iz)%coqR in
  a iz iy ix = [:: vx (e x y z); vy (e x y z); vz (e x y z); vx (h x y z); vy (h x y z); vz (h x y z)].

(** Order coefficients of (Ex, Ey) and (Hx, Hy) on the plane of height [z]. *)
Definition on_plane_m n (k0 : R) (kx ky : nat -> C) (e h : vfield) (z : R) (uv : 'cV[C]_(n + n) * 'cV[C]_(n + n)) : Prop :=
  [/\ orders_m k0 kx ky (fun x y => vx (e x y z)) (usubmx uv.1), orders_m k0 kx ky (fun x y => vy (e x y z)) (dsubmx uv.1),
      orders_m k0 kx ky (fun x y => vx (h x y z)) (usubmx uv.2) & orders_m k0 kx ky (fun x y => vy (h x y z)) (dsubmx uv.2)].

Fixpoint em_stack_m n (k0 : R) (kx ky : nat -> C) (px py : R) (rx ry rz : nat) (ts : seq R) (cs : seq (conv3 n))
  (arr : seq (nat -> nat -> nat -> seq C)) (top bottom : 'cV[C]_(n + n) * 'cV[C]_(n + n)) : Prop :=
  match ts, cs, arr with
  | [::], _, [::] => top = bottom
  | t :: ts', c :: cs', a :: arr' => exists e h mid,
      [/\ on_plane_m k0 kx ky e h 0 top, on_plane_m k0 kx ky e h (- t)%coqR mid, maxwell_m k0 kx ky c t e h,
          sampled_m px py t rx ry rz a e h & em_stack_m k0 kx ky px py rx ry rz ts' cs' arr' mid bottom]
  | _, _, _ => False
  end.

(** x and y components from those across (s) and along (p) the plane of incidence, of direction (dc, ds), of each order. *)
Definition xy_of n (dc ds s p : 'I_n -> C) : 'cV[C]_(n + n) :=
  col_mx (\col_i (dc i * p i - ds i * s i)) (\col_i (dc i * s i + ds i * p i)).
Definition h_xy_of n (dc ds s p : 'I_n -> C) : 'cV[C]_(n + n) :=
  col_mx (\col_i (dc i * s i - ds i * p i)) (\col_i (ds i * s i + dc i * p i)).

(** Electric fields: an incident wave of unit amplitude (sin psi across, cos psi in the plane of incidence) plus waves of
    amplitudes As, Ap going up with wave numbers kz; waves of amplitudes As, Ap going down. *)
Definition upper_m n (nt th psi : C) (kz dc ds As Ap : 'I_n -> C) : 'cV[C]_(n + n) * 'cV[C]_(n + n) :=
  let d (i : 'I_n) : C := if i == (n %/ 2)%N :> nat then 1 else 0 in
  (xy_of dc ds (fun i => csin psi * d i + As i) (fun i => - (ccos psi * ccos th * d i) + kz i / nt * Ap i),
   h_xy_of dc ds (fun i => nt * ccos th * csin psi * d i - kz i * As i) (fun i => nt * (ccos psi * d i) + nt * Ap i)).
Definition lower_m n (nb : C) (kz dc ds As Ap : 'I_n -> C) : 'cV[C]_(n + n) * 'cV[C]_(n + n) :=
  (xy_of dc ds As (fun i => - (kz i / nb * Ap i)), h_xy_of dc ds (fun i => kz i * As i) (fun i => nb * Ap i)).

(** Wave number along z, with a non-negative real part (imaginary part if the real part is 0). *)
Definition kz_m (nn kx ky : C) : C := csqrt (nn ^+ 2 - kx ^+ 2 - ky ^+ 2).

(** The arrays sample fields that obey Maxwell's equations through the stack, continuous with an incident wave and waves of
    amplitudes As, Ap above, and waves of amplitudes Bs, Bp below; [c] scales the whole. *)
Definition em_field_m n (k0 : R) (kx ky : nat -> C) (px py : R) (rx ry rz : nat) (ts : seq R) (cs : seq (conv3 n)) (c nt nb th ps : C)
  (dc ds : nat -> C) (As Ap Bs Bp : 'I_n -> C) (arr : seq (nat -> nat -> nat -> seq C)) : Prop :=
  let scale (uv : 'cV[C]_(n + n) * 'cV[C]_(n + n)) := (c *: uv.1, c *: uv.2) in
  em_stack_m k0 kx ky px py rx ry rz ts cs arr
    (scale (upper_m nt th ps (fun i : 'I_n => kz_m nt (kx i) (ky i)) (fun i : 'I_n => dc i) (fun i : 'I_n => ds i) As Ap))
    (scale (lower_m nb (fun i : 'I_n => kz_m nb (kx i) (ky i)) (fun i : 'I_n => dc i) (fun i : 'I_n => ds i) Bs Bp)).

(** Complex conjugates of the convolution matrices. *)
Definition conj3 n (c : conv3 n) : conv3 n :=
  let '(ex, ey, ez) := c in (\matrix_(i, j) conj (ex i j), \matrix_(i, j) conj (ey i j), \matrix_(i, j) conj (ez i j)).

(** The component-wise relation of the public fields of the two backends: (Ex, Ey, Ez, Hx, Hy, Hz) of PyTorch are the conjugates of
    NumPy's times (a, -a, a, -a, a, -a). *)
Definition mirrored (a : C) (v' v : seq C) : Prop :=
  exists e1 e2 e3 h1 h2 h3,
  v = [:: e1; e2; e3; h1; h2; h3] /\
  v' = [:: a * conj e1; - a * conj e2; a * conj e3; - a * conj h1; a * conj h2; - a * conj h3].
Definition mirrored_arrays (a : C) (f' f : seq (nat -> nat -> nat -> seq C)) : Prop :=
  List.Forall2 (fun g' g => forall iz iy ix, mirrored a (g' iz iy ix) (g iz iy ix)) f' f.

(** Arrays that are [a] times the second plus [b] times the third, component by component. *)
Definition combined (a b : C) (f f1 f2 : seq (nat -> nat -> nat -> seq C)) : Prop :=
  size f1 = size f /\ size f2 = size f /\
  forall k g g1 g2, List.nth_error f k = Some g -> List.nth_error f1 k = Some g1 -> List.nth_error f2 k = Some g2 ->
  forall iz iy ix, size (g1 iz iy ix) = size (g iz iy ix) /\ size (g2 iz iy ix) = size (g iz iy ix) /\
  forall c, (c < size (g iz iy ix))%N -> nth 0 (g iz iy ix) c = a * nth 0 (g1 iz iy ix) c + b * nth 0 (g2 iz iy ix) c.

(** The fields of the three results of a PyTorch solve.  kx, ky are NumPy's: y points downwards, so ky changes sign, and so does the
    second component of the direction of the plane of incidence.  The amplitudes are the reported ones times +1 or -1; for the two
    auxiliary incidences the p amplitudes are negated and the transmitted ones conjugated. *)
Definition torch_maxwell s w (convs : seq (conv3 (ff_y s * ff_x s))) (r : sp_result (ff_y s * ff_x s)) fields : Prop :=
  let n := (ff_y s * ff_x s)%N in
  let kx := kx_tiled s w in let ky := ky_tiled s w in
  let sg (i : 'I_n) := side (kx_vector s w (i %% ff_x s)%N) (kx_vector s w (fto_x s)) in
  forall dc ds, directions n kx ky dc ds -> forall px py rx ry rz,
  let em ps := em_field_m (k0_of w) kx (fun i => - ky i) px py rx ry rz (thickness s) [seq conj3 c | c <- convs] 1 (n_top s) (n_bot s) (theta s)
    ps dc (fun i => - ds i) in
  let out (v : 'cV[C]_n) i := sg i * v i ord0 in
  let inc (v : 'cV[C]_n) i := conj (v i ord0) in
  let neg (f : 'I_n -> C) i := - f i in
  [/\ em (psi s) (out (R_s (res r))) (out (R_p (res r))) (out (T_s (res r))) (out (T_p (res r))) (fields (T1_res r) px py rx ry rz),
      em (RtoC (PI / 2)) (out (R_s (res_te_inc r))) (neg (out (R_p (res_te_inc r)))) (inc (T_s (res_te_inc r))) (neg (inc (T_p (res_te_inc r))))
        (fields (T1_te r) px py rx ry rz)
    & em (RtoC 0) (out (R_s (res_tm_inc r))) (neg (out (R_p (res_tm_inc r)))) (inc (T_s (res_tm_inc r))) (neg (inc (T_p (res_tm_inc r))))
        (fields (T1_tm r) px py rx ry rz)].


(** The same in the classical mount; in TM everything is divided by n_top. *)
Definition torch_maxwell_1d s w (convs : seq (conv3 (ff_x s))) (r : diffraction (ff_x s)) (fields : R -> nat -> nat -> seq (nat -> nat -> nat -> seq C)) : Prop :=
  forall px py rx ry rz,
  let n := ff_x s in
  let kx := kx_vector s w in
  let out (v : 'cV[C]_n) (i : 'I_n) := side (kx i) (kx (fto_x s)) * v i ord0 in
  let none (i : 'I_n) : C := 0 in
  let em c ps := em_field_m (k0_of w) kx (fun _ => 0) px py rx ry rz (thickness s) [seq conj3 x | x <- convs]
    c (n_top s) (n_bot s) (theta s) ps (fun _ => 1) (fun _ => 0) in
  if is_tm (pol s) then
    em (n_top s)^-1 (RtoC 0) none (out (R_p r)) none (fun i => n_top s / n_bot s * out (T_p r) i) (fields px rx rz)
  else em 1 (RtoC (PI / 2)) (out (R_s r)) none (out (T_s r)) none (fields px rx rz).
