(** Model of the NumPy solver object: attribute setters, constructor, solver dispatch, conv_solve, calculate_field.
    Sources: /repo/meent/on_numpy/emsolver/_base.py, /repo/meent/on_numpy/emsolver/rcwa.py, /repo/meent/on_numpy/mee.py.
    An operation on the object returns the new object together with an outcome; an exception is the outcome [Raised] and
    the object returned with it is what the object looks like to a caller who catches the exception.
    Simplifications
      - numbers are exact and there is no nan or infinity: a division by zero period or wavelength is [Raised];
      - an angle given as an array is accepted only if the array has one element;
      - lists and tuples are not distinguished (the ucell setter refuses tuples);
      - list elements that int() or float() cannot convert are [None]; strings that happen to spell a number are not
        converted. *)
From Coq Require Import Reals ZArith.
From mathcomp Require Import all_ssreflect ssralg matrix.
From Coquelicot Require Import Complex.
From Verif Require Import Cplx Mx ModelTM ModelFourier ModelVec ModelField.

Set Implicit Arguments.
Unset Strict Implicit.
Unset Printing Implicit Defensive.
Local Open Scope ring_scope.

(** ** Values that can be assigned *)

Inductive num := NInt (z : Z) | NFloat (r : R) | NCplx (c : C).

(** [np.int64, np.float64, np.int32, np.float32] are accepted as real, [np.complex128, np.complex64] as complex; any other
    dtype (bool, int8, float16, object, ...) is refused (rcwa.py:92-97). *)
Inductive dtype := DReal | DCplx | DOther.

Inductive pyval :=
  | VNone
  | VNum (x : num)                        (* a Python int, float or complex *)
  | VNp (x : num)                         (* a NumPy scalar: its [type] is neither int nor float *)
  | VSeq (xs : seq (option num))          (* a Python list or tuple of numbers *)
  | VArr0 (x : num)                       (* a 0-dimensional ndarray *)
  | VArr1 (xs : seq num)                  (* a 1-dimensional ndarray *)
  | VArr3 (dt : dtype) (ny nx : nat) (layers : seq (nat -> nat -> C))   (* a 3-dimensional ndarray *)
  | VInstr (ins : seq instruction)        (* a Python list of vector instructions *)
  | VType (single : bool)                 (* np.complex64 (true) or np.complex128 (false) *)
  | VOther.                               (* anything else: str, dict, set, ... *)

Definition cnum (x : num) : C := match x with NInt z => RtoC (IZR z) | NFloat r => RtoC r | NCplx c => c end.

(** The value as a single number, as far as NumPy arithmetic treats it as one. *)
Definition scalar (v : pyval) : option num :=
  match v with VNum x | VNp x | VArr0 x | VArr1 [:: x] => Some x | _ => None end.

(** [int(x)]: truncation towards zero; TypeError on a complex number. *)
Definition py_int (x : num) : option Z :=
  match x with
  | NInt z => Some z
  | NFloat r => Some (if rltb r 0 then (- Int_part (- r))%Z else Int_part r)
  | NCplx _ => None
  end.

(** A number cast to a float dtype: a complex element of a list is a TypeError, a complex ndarray is cast by dropping the
    imaginary part. *)
Definition list_float (x : option num) : option R :=
  match x with Some (NInt z) => Some (IZR z) | Some (NFloat r) => Some r | _ => None end.
Definition arr_float (x : num) : R := Re (cnum x).

Fixpoint all_some (A B : Type) (f : A -> option B) (xs : seq A) : option (seq B) :=
  match xs with
  | [::] => Some [::]
  | x :: xs' => if f x is Some y then (if all_some f xs' is Some ys then Some (y :: ys) else None) else None
  end.

(** ** The object *)

(** A stored float array: 0-, 1- or higher-dimensional. *)
Inductive farray := A0 (r : R) | A1 (rs : seq R) | AMany.

(** [_fto]: two integers, or what a refused ndarray left behind ([tolist()] of it, _base.py:158). *)
Inductive fto_val := Fto (x y : Z) | FtoRaw (xs : seq num) | FtoJunk.

Inductive cell := CNone | CRaster (ny nx : nat) (layers : seq (nat -> nat -> C)) | CVector (ins : seq instruction)
  | CJunk.                                 (* accepted by the setter, unusable *)

Inductive algo := TMM | SMM | OtherAlgo.

(** [layer_info_list] and [T1] (_base.py:46-47, 225-226, 261-262, 274). *)
Inductive memo :=
  | MNone                                                       (* [] and None *)
  | M1d (n : nat) (T1 : 'cV[C]_n) (infos : seq (info_1d n))
  | MCon (n : nat) (r : sp_result n) (infos : seq (info_sp 'M[C]_(n, n + n) n))
  | M2d (n : nat) (r : sp_result n) (infos : seq (info_sp 'M[C]_(n + n) n)).

(** Attributes (_base.py:11-47, rcwa.py:67-82). [o_mtype] is [_modeling_type_assigned]: None, Some false for 0 (raster),
    Some true for 1 (vector). [o_grating] is [_grating_type_assigned]. *)
Record obj := Obj {
  o_single : bool; o_pert : C; o_ntop : C; o_nbot : C;
  o_theta : option C; o_phi : option C; o_psi : C; o_pol : C;
  o_fto : fto_val; o_period : farray; o_wavelength : R; o_thickness : farray;
  o_algo : algo; o_use_pinv : bool; o_cell : cell; o_mtype : option bool;
  o_fourier_type : Z; o_enhanced : bool;
  o_grating : option nat; o_memo : memo }.

(** Field updates. *)
Definition set_single v o := Obj v (o_pert o) (o_ntop o) (o_nbot o) (o_theta o) (o_phi o) (o_psi o) (o_pol o) (o_fto o)
  (o_period o) (o_wavelength o) (o_thickness o) (o_algo o) (o_use_pinv o) (o_cell o) (o_mtype o) (o_fourier_type o)
  (o_enhanced o) (o_grating o) (o_memo o).
Definition set_pert v o := Obj (o_single o) v (o_ntop o) (o_nbot o) (o_theta o) (o_phi o) (o_psi o) (o_pol o) (o_fto o)
  (o_period o) (o_wavelength o) (o_thickness o) (o_algo o) (o_use_pinv o) (o_cell o) (o_mtype o) (o_fourier_type o)
  (o_enhanced o) (o_grating o) (o_memo o).
Definition set_indices nt nb o := Obj (o_single o) (o_pert o) nt nb (o_theta o) (o_phi o) (o_psi o) (o_pol o) (o_fto o)
  (o_period o) (o_wavelength o) (o_thickness o) (o_algo o) (o_use_pinv o) (o_cell o) (o_mtype o) (o_fourier_type o)
  (o_enhanced o) (o_grating o) (o_memo o).
Definition set_angles th ph o := Obj (o_single o) (o_pert o) (o_ntop o) (o_nbot o) th ph (o_psi o) (o_pol o) (o_fto o)
  (o_period o) (o_wavelength o) (o_thickness o) (o_algo o) (o_use_pinv o) (o_cell o) (o_mtype o) (o_fourier_type o)
  (o_enhanced o) (o_grating o) (o_memo o).
Definition set_polar ps pl o := Obj (o_single o) (o_pert o) (o_ntop o) (o_nbot o) (o_theta o) (o_phi o) ps pl (o_fto o)
  (o_period o) (o_wavelength o) (o_thickness o) (o_algo o) (o_use_pinv o) (o_cell o) (o_mtype o) (o_fourier_type o)
  (o_enhanced o) (o_grating o) (o_memo o).
Definition set_fto v o := Obj (o_single o) (o_pert o) (o_ntop o) (o_nbot o) (o_theta o) (o_phi o) (o_psi o) (o_pol o) v
  (o_period o) (o_wavelength o) (o_thickness o) (o_algo o) (o_use_pinv o) (o_cell o) (o_mtype o) (o_fourier_type o)
  (o_enhanced o) (o_grating o) (o_memo o).
Definition set_period v o := Obj (o_single o) (o_pert o) (o_ntop o) (o_nbot o) (o_theta o) (o_phi o) (o_psi o) (o_pol o)
  (o_fto o) v (o_wavelength o) (o_thickness o) (o_algo o) (o_use_pinv o) (o_cell o) (o_mtype o) (o_fourier_type o)
  (o_enhanced o) (o_grating o) (o_memo o).
Definition set_wavelength v o := Obj (o_single o) (o_pert o) (o_ntop o) (o_nbot o) (o_theta o) (o_phi o) (o_psi o)
  (o_pol o) (o_fto o) (o_period o) v (o_thickness o) (o_algo o) (o_use_pinv o) (o_cell o) (o_mtype o)
  (o_fourier_type o) (o_enhanced o) (o_grating o) (o_memo o).
Definition set_thickness v o := Obj (o_single o) (o_pert o) (o_ntop o) (o_nbot o) (o_theta o) (o_phi o) (o_psi o)
  (o_pol o) (o_fto o) (o_period o) (o_wavelength o) v (o_algo o) (o_use_pinv o) (o_cell o) (o_mtype o)
  (o_fourier_type o) (o_enhanced o) (o_grating o) (o_memo o).
Definition set_options al up ft en o := Obj (o_single o) (o_pert o) (o_ntop o) (o_nbot o) (o_theta o) (o_phi o)
  (o_psi o) (o_pol o) (o_fto o) (o_period o) (o_wavelength o) (o_thickness o) al up (o_cell o) (o_mtype o)
  ft en (o_grating o) (o_memo o).
Definition set_cell c m o := Obj (o_single o) (o_pert o) (o_ntop o) (o_nbot o) (o_theta o) (o_phi o) (o_psi o) (o_pol o)
  (o_fto o) (o_period o) (o_wavelength o) (o_thickness o) (o_algo o) (o_use_pinv o) c m (o_fourier_type o)
  (o_enhanced o) (o_grating o) (o_memo o).
Definition set_memo g m o := Obj (o_single o) (o_pert o) (o_ntop o) (o_nbot o) (o_theta o) (o_phi o) (o_psi o) (o_pol o)
  (o_fto o) (o_period o) (o_wavelength o) (o_thickness o) (o_algo o) (o_use_pinv o) (o_cell o) (o_mtype o)
  (o_fourier_type o) (o_enhanced o) g m.

(** An angle may also be given as a one-element list. *)
Definition angle (v : pyval) : option num := if v is VSeq [:: Some x] then Some x else scalar v.

(** ** Setters.  The boolean says whether an exception was raised. *)

(** _base.py:94-99; zero is replaced by [self.perturbation]. *)
Definition assign_theta (v : pyval) (o : obj) : obj * bool :=
  if v is VNone then (set_angles None (o_phi o) o, false)
  else if angle v is Some x then
    (set_angles (Some (if cnum x == 0 then o_pert o else cnum x)) (o_phi o) o, false)
  else (o, true).

(** _base.py:106-111. *)
Definition assign_phi (v : pyval) (o : obj) : obj * bool :=
  if v is VNone then (set_angles (o_theta o) None o, false)
  else if angle v is Some x then (set_angles (o_theta o) (Some (cnum x)) o, false)
  else (o, true).

(** [-(2 * psi / np.pi - 1)] (_base.py:121). *)
Definition pol_of (psi : C) : C := - (RtoC 2 * psi / RtoC PI - 1).
(** [np.pi / 2 * (1 - self.pol)] (_base.py:140). *)
Definition psi_of (pol : C) : C := RtoC (PI / 2) * (1 - pol).

(** _base.py:118-122.  [None] is ignored.  [_psi] is stored before [2 * psi / np.pi] is evaluated on the raw argument; for a
    one-element Python list the conversion to an array succeeds and the division raises TypeError. *)
Definition assign_psi (v : pyval) (o : obj) : obj * bool :=
  match v with
  | VNone => (o, false)
  | VSeq [:: Some x] => (set_polar (cnum x) (o_pol o) o, true)
  | _ => if scalar v is Some x then (set_polar (cnum x) (pol_of (cnum x)) o, false) else (o, true)
  end.

(** [0 <= pol <= 1].  Python complex numbers cannot be ordered (TypeError); NumPy orders them lexicographically. *)
Definition cle (a b : C) : bool := rltb (Re a) (Re b) || (reqb (Re a) (Re b) && rleb (Im a) (Im b)).
Definition in_unit (c : C) : bool := cle 0 c && cle c 1.
Definition pol_accepts (v : pyval) : bool :=
  match v with
  | VNum (NCplx _) => false
  | _ => if scalar v is Some x then in_unit (cnum x) else false
  end.

(** _base.py:135-141. *)
Definition assign_pol (v : pyval) (o : obj) : obj * bool :=
  if pol_accepts v then
    (if scalar v is Some x then (set_polar (psi_of (cnum x)) (cnum x) o, false) else (o, true))
  else (o, true).

(** _base.py:148-173. *)
Definition assign_fto (v : pyval) (o : obj) : obj * bool :=
  let opt x := if x is Some y then py_int y else None in
  match v with
  | VSeq [:: x] => if opt x is Some a then (set_fto (Fto a 0) o, false) else (o, true)
  | VSeq [:: x; y] =>
      if (opt x, opt y) is (Some a, Some b) then (set_fto (Fto a b) o, false) else (o, true)
  | VSeq _ | VInstr _ => (o, true)
  | VArr1 [:: x] => if py_int x is Some a then (set_fto (Fto a 0) o, false) else (set_fto (FtoRaw [:: x]) o, true)
  | VArr1 [:: x; y] =>
      if (py_int x, py_int y) is (Some a, Some b) then (set_fto (Fto a b) o, false)
      else (set_fto (FtoRaw [:: x; y]) o, true)
  | VArr1 xs => (set_fto (FtoRaw xs) o, true)
  | VArr3 _ _ _ _ => (set_fto FtoJunk o, true)
  | VArr0 x => if py_int x is Some a then (set_fto (Fto a 0) o, false) else (set_fto FtoJunk o, true)
  | VNum (NInt z) => (set_fto (Fto z 0) o, false)
  | VNum (NFloat r) => if py_int (NFloat r) is Some a then (set_fto (Fto a 0) o, false) else (o, true)
  | _ => (o, true)
  end.

(** _base.py:180-188. [len()] of a 0-dimensional array is a TypeError. *)
Definition assign_period (v : pyval) (o : obj) : obj * bool :=
  match v with
  | VNum (NInt z) => (set_period (A1 [:: IZR z; IZR z]) o, false)
  | VNum (NFloat r) => (set_period (A1 [:: r; r]) o, false)
  | VSeq [:: x] => if list_float x is Some r then (set_period (A1 [:: r; r]) o, false) else (o, true)
  | VSeq xs => if all_some list_float xs is Some rs then (set_period (A1 rs) o, false) else (o, true)
  | VArr1 [:: x] =>      (* [period[0], period[0]] is a list of NumPy scalars *)
      if list_float (Some x) is Some r then (set_period (A1 [:: r; r]) o, false) else (o, true)
  | VArr1 xs => (set_period (A1 (map arr_float xs)) o, false)
  | VArr3 _ _ _ _ => (set_period AMany o, false)
  | _ => (o, true)
  end.

(** _base.py:195-201. *)
Definition assign_thickness (v : pyval) (o : obj) : obj * bool :=
  match v with
  | VNum (NInt z) => (set_thickness (A1 [:: IZR z]) o, false)
  | VNum (NFloat r) => (set_thickness (A1 [:: r]) o, false)
  | VSeq xs => if all_some list_float xs is Some rs then (set_thickness (A1 rs) o, false) else (o, true)
  | VArr0 x => (set_thickness (A0 (arr_float x)) o, false)
  | VArr1 xs => (set_thickness (A1 (map arr_float xs)) o, false)
  | VArr3 _ _ _ _ => (set_thickness AMany o, false)
  | _ => (o, true)
  end.

(** The stored values read back as values to assign. *)
Definition val_angle (a : option C) : pyval := if a is Some c then VArr0 (NCplx c) else VNone.
Definition val_fto (f : fto_val) : pyval :=
  match f with Fto x y => VSeq [:: Some (NInt x); Some (NInt y)] | FtoRaw xs => VSeq (map Some xs) | FtoJunk => VOther end.
Definition val_farray (a : farray) : pyval :=
  match a with A0 r => VArr0 (NFloat r) | A1 rs => VArr1 (map NFloat rs) | AMany => VArr3 DReal 0 0 [::] end.

(** _base.py:72-79: after the precision, theta, phi, fto and thickness are assigned to themselves. *)
Definition retype (b : bool) (o : obj) : obj * bool :=
  let o1 := set_single b o in
  let (o2, e2) := assign_theta (val_angle (o_theta o1)) o1 in
  if e2 then (o2, true) else
  let (o3, e3) := assign_phi (val_angle (o_phi o2)) o2 in
  if e3 then (o3, true) else
  let (o4, e4) := assign_fto (val_fto (o_fto o3)) o3 in
  if e4 then (o4, true) else
  assign_thickness (val_farray (o_thickness o4)) o4.

(** _base.py:62-79. *)
Definition assign_type_complex (v : pyval) (o : obj) : obj * bool :=
  match v with
  | VType b => retype b o
  | _ => if scalar v is Some x then
           (if cnum x == 0 then retype false o else if cnum x == 1 then retype true o else (o, true))
         else (o, true)
  end.

(** rcwa.py:88-108.  For an ndarray the modelling type is set before the dtype is checked. *)
Definition assign_ucell (v : pyval) (o : obj) : obj * bool :=
  match v with
  | VArr3 DOther _ _ _ => (set_cell (o_cell o) (Some false) o, true)
  | VArr3 _ ny nx layers => (set_cell (CRaster ny nx layers) (Some false) o, false)
  | VArr0 _ | VArr1 _ => (set_cell CJunk (Some false) o, false)
  | VInstr ins => (set_cell (CVector ins) (Some true) o, false)
  | VSeq _ => (set_cell CJunk (Some true) o, false)
  | VNone => (set_cell CNone (o_mtype o) o, false)
  | _ => (o, true)
  end.

(** ** Constructor (rcwa.py:45-82 calling _base.py:11-47).  Any exception means there is no object.  Tuples of the
    signature are [VSeq].  The attributes not yet written when the first setters run get placeholder values. *)
Record ctor_args := CtorArgs {
  a_ntop : C; a_nbot : C; a_theta : pyval; a_phi : pyval; a_psi : pyval; a_pol : pyval; a_period : pyval;
  a_wavelength : R; a_ucell : pyval; a_thickness : pyval; a_fto : pyval; a_algo : algo; a_pert : C;
  a_type_complex : pyval; a_fourier_type : Z; a_enhanced : bool; a_use_pinv : bool }.

(** The defaults (rcwa.py:46-65). *)
Definition ctor_defaults : ctor_args :=
  CtorArgs 1 1 (VNum (NFloat 0)) VNone VNone (VNum (NFloat 0)) (VSeq [:: Some (NFloat 1); Some (NFloat 1)]) 1 VNone
    (VSeq [:: Some (NFloat 0)]) (VSeq [:: Some (NInt 0); Some (NInt 0)]) TMM (RtoC (1 / 10 ^ 20)) (VType false) 0 true false.

Fixpoint assign_all (fs : seq (obj -> obj * bool)) (o : obj) : option obj :=
  match fs with
  | [::] => Some o
  | f :: fs' => let (o', e) := f o in if e then None else assign_all fs' o'
  end.

(** _base.py:19-24: [type_complex in (0, np.complex128)] or [in (1, np.complex64)]. *)
Definition ctor_precision (v : pyval) : option bool :=
  match v with
  | VType b => Some b
  | _ => if scalar v is Some x then (if cnum x == 0 then Some false else if cnum x == 1 then Some true else None) else None
  end.

Definition construct (a : ctor_args) : option obj :=
  if ctor_precision (a_type_complex a) is Some b then
    let o := Obj b (a_pert a) (a_ntop a) (a_nbot a) None None 0 0 FtoJunk AMany (a_wavelength a) AMany
               (a_algo a) (a_use_pinv a) CNone None (a_fourier_type a) (a_enhanced a) None MNone in
    assign_all [:: assign_theta (a_theta a); assign_phi (a_phi a); assign_pol (a_pol a); assign_psi (a_psi a);
                   assign_fto (a_fto a); assign_period (a_period a); assign_thickness (a_thickness a);
                   assign_ucell (a_ucell a)] o
  else None.

(** ** Solving *)

Section Solve.
Variable pinv : forall n, 'M[C]_n -> 'M[C]_n.
Variable eig : forall n, 'M[C]_n -> 'rV[C]_n * 'M[C]_n.

(** What conv_solve returns: a ResultNumpy (rcwa.py:8-26). *)
Inductive report := Report (n : nat) (r te tm : option (diffraction n)).

(** The field array, with or without the leading axis over the selected incidences. *)
Inductive field_cell :=
  | Field1d (f : seq (nat -> nat -> C * C * C))
  | FieldSp (f : seq (seq (nat -> nat -> nat -> seq C))).

Inductive outcome := Done | Raised | Solved (r : report) | FieldOf (f : field_cell).

(** [self.fto[0]], [self.fto[1]] as array sizes.  A negative order gives a negative array dimension (ValueError in
    [circulant], fourier_analysis.py:514-533), a float or missing entry a TypeError or IndexError. *)
Definition znat (z : Z) : option nat := if (0 <=? z)%Z then Some (Z.to_nat z) else None.
Definition fto_of (o : obj) : option (nat * nat) :=
  match o_fto o with
  | Fto x y => if (znat x, znat y) is (Some a, Some b) then Some (a, b) else None
  | FtoRaw (NInt x :: NInt y :: _) => if (znat x, znat y) is (Some a, Some b) then Some (a, b) else None
  | _ => None
  end.

(** [self.period[0]], [self.period[1]]. *)
Definition period_of (o : obj) : option (R * R) :=
  if o_period o is A1 (px :: py :: _) then (if reqb px 0 || reqb py 0 then None else Some (px, py)) else None.

(** The convolution matrices (rcwa.py:176-195).  Empty arrays make NumPy raise. *)
Definition convs_of (o : obj) (fx fy : nat) : option (seq (conv3 (fy.*2.+1 * fx.*2.+1))) :=
  match o_mtype o, o_cell o with
  | Some false, CRaster ny nx layers =>
      if (ny == 0%N) || (nx == 0%N) then None
      else if (o_fourier_type o =? 0)%Z then
        conv_all (conv_discrete pinv (o_use_pinv o) (o_enhanced o) fx fy) (map (Raster ny nx) layers)
      else if (o_fourier_type o =? 1)%Z then
        conv_all (conv_continuous pinv (o_use_pinv o) fx fy) (map (Raster ny nx) layers)
      else None
  | Some true, CVector ins =>
      if period_of o is Some (px, py) then
        if vector_layers px py ins is Some vs then conv_all (conv_vector pinv (o_use_pinv o) fx fy) vs else None
      else None
  | _, _ => None
  end.

(** [_assign_grating_type] (rcwa.py:118-145).  The modelling type None leaves the old value. *)
Definition grating_of (o : obj) (fy : nat) : option nat :=
  match o_mtype o, o_cell o with
  | Some false, CRaster ny _ _ =>
      if ny == 1%N then
        if ((o_pol o == 0) || (o_pol o == 1)) && ~~ isSome (o_phi o) && (fy == 0%N) then Some 0%N else Some 1%N
      else Some 2%N
  | Some true, _ => Some 2%N
  | _, _ => o_grating o
  end.

(** A (1 * n) x (1 * n) array used as n x n. *)
Definition crop (m n : nat) (A : 'M[C]_m) : 'M[C]_n := mat n (ent A).
Definition crop3 (m n : nat) (c : conv3 m) : conv3 n := let '(a, b, d) := c in (crop n a, crop n b, crop n d).

(** The attributes read by the solve methods. *)
Definition setup_of (o : obj) (fx fy : nat) (th : C) (p : R * R) (ts : seq R) : setup :=
  Setup (o_ntop o) (o_nbot o) th (o_phi o) (o_psi o) (Re (o_pol o)) fx fy p.1 p.2 ts.

(** The solver selected by the grating type (rcwa.py:158-163; _base.py:224-418): new [layer_info_list] and [T1], and the
    result.  The [SMM] branch of the conical solver returns the tuple (nan, nan), in which no key is found
    (_base.py:300-302, rcwa.py:165-167).  After a failure inside the layer loop NumPy keeps the infos of the layers already
    processed; they cannot be used because T1 is None, and the model drops them. *)
Definition solve_with (o : obj) (fx fy : nat) (th : C) (p : R * R) (cs : seq (conv3 (fy.*2.+1 * fx.*2.+1)))
  (g : option nat) : memo * outcome :=
  let w := o_wavelength o in
  let up := o_use_pinv o in
  if (g == Some 1%N) && (if o_algo o is SMM then true else false) then (MNone, Solved (@Report 0 None None None))
  else if o_algo o is TMM then
    if o_thickness o is A1 ts then
      let s := setup_of o fx fy th p ts in
      match g with
      | Some 0%N =>
          if solve_1d pinv eig up s w [seq crop3 fx.*2.+1 c | c <- cs] is Some (r, T1, infos)
          then (M1d T1 infos, Solved (Report (Some r) None None)) else (MNone, Raised)
      | Some 1%N =>
          if solve_1d_conical pinv eig up s w cs is Some (r, infos)
          then (MCon r infos, Solved (Report (Some (res r)) (Some (res_te_inc r)) (Some (res_tm_inc r))))
          else (MNone, Raised)
      | _ =>
          if solve_2d pinv eig up s w cs is Some (r, infos)
          then (M2d r infos, Solved (Report (Some (res r)) (Some (res_te_inc r)) (Some (res_tm_inc r))))
          else (MNone, Raised)
      end
    else (MNone, Raised)
  else (MNone, Raised).

(** [conv_solve] (rcwa.py:155-199).  An exception while the convolution matrices are built leaves the object untouched;
    afterwards the grating type is re-assigned and the solver first clears layer_info_list and T1. *)
Definition conv_solve (o : obj) : obj * outcome :=
  if fto_of o is Some (fx, fy) then
    if convs_of o fx fy is Some cs then
      let g := grating_of o fy in
      match o_theta o, period_of o, reqb (o_wavelength o) 0 with
      | Some th, Some p, false =>
          let (m, out) := solve_with o th p cs g in (set_memo g m o, out)
      | _, _, _ => (set_memo g MNone o, Raised)
      end
    else (o, Raised)
  else (o, Raised).

(** [calculate_field] (rcwa.py:201-219): wave vectors, wavelength, period and pol are read now; layer infos and T1 are
    those of the last solve.  Arrays of the wrong size make NumPy raise.  [pol == 0] selects the TE formulas. *)
Definition pol_flag (c : C) : R := if c == 0 then 0%coqR else 1%coqR.
Definition calculate_field (o : obj) (res_x res_y res_z : nat) (sel : bool * bool * bool) : outcome :=
  match fto_of o, o_theta o, period_of o, reqb (o_wavelength o) 0 with
  | Some (fx, fy), Some th, Some (px, py), false =>
      let s := setup_of o fx fy th (px, py) [::] in
      let w := o_wavelength o in
      match o_memo o with
      | MNone => if o_grating o is Some 0%N then FieldOf (Field1d [::]) else Raised
      | M1d n T1 infos =>
          if n == ff_x s then
            FieldOf (Field1d (field_1d w (kx_vector s w) T1 infos px (pol_flag (o_pol o)) res_x res_z))
          else Raised
      | MCon n r infos =>
          if n == (ff_y s * ff_x s)%N then
            FieldOf (FieldSp [seq field_conical w (kx_tiled s w) (ky_tiled s w) T1 infos px py res_x res_y res_z
                             | T1 <- selected r sel])
          else Raised
      | M2d n r infos =>
          if n == (ff_y s * ff_x s)%N then
            FieldOf (FieldSp [seq field_2d w (kx_tiled s w) (ky_tiled s w) T1 infos px py res_x res_y res_z
                             | T1 <- selected r sel])
          else Raised
      end
  | _, _, _, _ => Raised
  end.

(** ** Histories *)

Inductive op :=
  | SetTheta (v : pyval) | SetPhi (v : pyval) | SetPsi (v : pyval) | SetPol (v : pyval) | SetFto (v : pyval)
  | SetPeriod (v : pyval) | SetThickness (v : pyval) | SetTypeComplex (v : pyval) | SetUcell (v : pyval)
  | SetPerturbation (c : C) | SetIndices (n_top n_bot : C) | SetWavelength (w : R)
  | SetOptions (al : algo) (use_pinv : bool) (fourier_type : Z) (enhanced_dfs : bool)
  | ConvSolve | CalcField (res_x res_y res_z : nat) (sel : bool * bool * bool).

Definition assigned (r : obj * bool) : obj * outcome := (r.1, if r.2 then Raised else Done).
Definition do_op (a : op) (o : obj) : obj * outcome :=
  match a with
  | SetTheta v => assigned (assign_theta v o)
  | SetPhi v => assigned (assign_phi v o)
  | SetPsi v => assigned (assign_psi v o)
  | SetPol v => assigned (assign_pol v o)
  | SetFto v => assigned (assign_fto v o)
  | SetPeriod v => assigned (assign_period v o)
  | SetThickness v => assigned (assign_thickness v o)
  | SetTypeComplex v => assigned (assign_type_complex v o)
  | SetUcell v => assigned (assign_ucell v o)
  | SetPerturbation c => (set_pert c o, Done)
  | SetIndices nt nb => (set_indices nt nb o, Done)
  | SetWavelength w => (set_wavelength w o, Done)
  | SetOptions al up ft en => (set_options al up ft en o, Done)
  | ConvSolve => conv_solve o
  | CalcField rx ry rz sel => (o, calculate_field o rx ry rz sel)
  end.

(** The object after a sequence of operations whose exceptions, if any, were caught. *)
Definition after (h : seq op) (o : obj) : obj := foldl (fun o a => (do_op a o).1) o h.

End Solve.
