(** Model of the PyTorch solver object: cells with diagonal anisotropy, convolution matrices, setters, conv_solve.
    Sources (under /repo/meent/on_torch): emsolver/rcwa.py, emsolver/_base.py, emsolver/convolution_matrix.py,
    emsolver/fourier_analysis.py, modeler/modeling.py.
    The attributes are those of the NumPy record [obj] (ModelState.v) except the unit cell, which has its own type here and the
    flag [is_aniso]; the field [o_cell] of that record is not used.  Tensors and arrays are not distinguished, nor are devices.
    [cfs2d] and [dfs2d] (fourier_analysis.py:33-66, 69-104) have the bodies of NumPy's; their [torch.linalg.inv] raises on a
    singular matrix. *)
From Coq Require Import Reals ZArith.
From mathcomp Require Import all_ssreflect ssralg matrix.
From Coquelicot Require Import Complex.
From Verif Require Import Cplx Mx ModelTM ModelFourier ModelVec ModelField ModelState ModelTorch.

Set Implicit Arguments.
Unset Strict Implicit.
Unset Printing Implicit Defensive.
Local Open Scope ring_scope.
Import GRing.Theory.

(** ** Cells *)

(** A refractive index of a vector object: one number, or (nx, ny, nz) (modeling.py:13-19). *)
Inductive tindex := I1 (c : C) | I3 (x y z : C).
Definition is_vector_index (i : tindex) : bool := if i is I3 _ _ _ then true else false.
(** [_to_index_vector] (modeling.py:22-36): a scalar is repeated. *)
Definition to_index_vector (i : tindex) : C * C * C := match i with I1 c => (c, c, c) | I3 x y z => (x, y, z) end.
(** The number of an isotropic layer (modeling.py:517, 538). *)
Definition scalar_index (i : tindex) : C := match i with I1 c => c | I3 x _ _ => x end.

(** A layer handed to the Fourier analysis: a 2-D array, or an array with three components on a last axis
    (convolution_matrix.py:102-110, 133-139, 201-209). *)
Inductive t_layer := TIso (l : raster) | TAni (lx ly lz : raster).
Definition components (l : t_layer) : raster * raster * raster :=
  match l with TIso l => (l, l, l) | TAni lx ly lz => (lx, ly, lz) end.

(** A vector object is a shape and an index; [draw_object] (ModelVec.v) gives the boxes of the shape.  The number stored in
    the shape itself is not used. *)
Definition t_instruction := (tindex * seq (vobject * tindex))%type.
Definition t_draw (o : vobject * tindex) : seq (rect * tindex) := [seq (r, o.2) | r <- draw_object o.1].

(** modeling.py:522-538: the later object overwrites. *)
Definition t_paint (A : Type) (rows_l cols_l : seq R) (cell : nat -> nat -> A) (o : rect * A) : option (nat -> nat -> A) :=
  if span rows_l (r_top o.1) (r_bottom o.1) is Some (rb, re) then
  if span cols_l (r_left o.1) (r_right o.1) is Some (cb, ce) then
    Some (fun i j => if (rb <= i < re)%N && (cb <= j < ce)%N then o.2 else cell i j)
  else None else None.
Fixpoint t_paint_all (A : Type) (rows_l cols_l : seq R) (cell : nat -> nat -> A) (objs : seq (rect * A))
  : option (nat -> nat -> A) :=
  match objs with
  | [::] => Some cell
  | o :: objs' => if t_paint rows_l cols_l cell o is Some cell' then t_paint_all rows_l cols_l cell' objs' else None
  end.

(** [vector_per_layer_numeric] (modeling.py:396-554).  The grid is found as in NumPy (modeling.py:410-506, [grid_lists] and
    [close_list] of ModelVec.v).  The layer is anisotropic if its background or one of its objects has three components
    (modeling.py:510). *)
Definition t_vector_layer (period_x period_y : R) (base : tindex) (objs : seq (rect * tindex))
  : option (t_layer * seq R * seq R) :=
  let '(_, rows_l, cols_l, moved) := grid_lists (map fst objs) in
  let rows_l := close_list rows_l period_y in
  let cols_l := close_list cols_l period_x in
  let mk := Raster (size rows_l) (size cols_l) in
  if is_vector_index base || has (fun o => is_vector_index o.2) objs then
    if t_paint_all rows_l cols_l (fun _ _ => to_index_vector base)
         (zip moved [seq to_index_vector o.2 | o <- objs]) is Some cell then
      Some (TAni (mk (fun i j => (cell i j).1.1)) (mk (fun i j => (cell i j).1.2)) (mk (fun i j => (cell i j).2)), cols_l, rows_l)
    else None
  else
    if t_paint_all rows_l cols_l (fun _ _ => scalar_index base) (zip moved [seq scalar_index o.2 | o <- objs]) is Some cell then
      Some (TIso (mk cell), cols_l, rows_l)
    else None.

(** [modeling_vector_instruction] and [draw] (modeling.py:556-567, 588-617). *)
Fixpoint t_vector_layers (period_x period_y : R) (ins : seq t_instruction) : option (seq (t_layer * seq R * seq R)) :=
  match ins with
  | [::] => Some [::]
  | (base, objs) :: ins' =>
      if t_vector_layer period_x period_y base (flatten (map t_draw objs)) is Some v then
        (if t_vector_layers period_x period_y ins' is Some vs then Some (v :: vs) else None)
      else None
  end.

(** [_ucell] (rcwa.py:91-124): an array of shape (layers, H, W) or (layers, H, W, 3), or a list of instructions. *)
Inductive tcell :=
  | TNone
  | TRaster3 (ny nx : nat) (layers : seq (nat -> nat -> C))
  | TRaster4 (ny nx : nat) (layers : seq (nat -> nat -> C * C * C))
  | TVector (ins : seq t_instruction)
  | TJunk.

Definition layer3 (ny nx : nat) (f : nat -> nat -> C) : t_layer := TIso (Raster ny nx f).
Definition layer4 (ny nx : nat) (f : nat -> nat -> C * C * C) : t_layer :=
  TAni (Raster ny nx (fun i j => (f i j).1.1)) (Raster ny nx (fun i j => (f i j).1.2)) (Raster ny nx (fun i j => (f i j).2)).

(** [torch.allclose] with its default tolerances: [|a - b| <= atol + rtol * |b|] for every element. *)
Definition close (a b : C) : bool := rleb (Cmod (a - b)) (1 / 10 ^ 8 + 1 / 10 ^ 5 * Cmod b).
Definition allclose (ny nx : nat) (layers : seq (nat -> nat -> C * C)) : bool :=
  all (fun f => all (fun i => all (fun j => close (f i j).1 (f i j).2) (iota 0 nx)) (iota 0 ny)) layers.

(** [is_aniso] (rcwa.py:138-142). *)
Definition t_is_aniso (c : tcell) : bool :=
  if c is TRaster4 ny nx layers then
    ~~ (allclose ny nx [seq (fun i j => (f i j).1) | f : nat -> nat -> C * C * C <- layers] &&
        allclose ny nx [seq (fun i j => ((f i j).1.2, (f i j).2)) | f : nat -> nat -> C * C * C <- layers])
  else false.

(** [self.ucell.shape[1]]. *)
Definition t_rows (c : tcell) : nat := match c with TRaster3 ny _ _ | TRaster4 ny _ _ => ny | _ => 0%N end.

(** ** Convolution matrices *)

Section Conv.
Variable pinv : forall n, 'M[C]_n -> 'M[C]_n.
Variable use_pinv : bool.

(** convolution_matrix.py:112-118, 166-172, 211-217; the arguments are epz_conv, epy_conv and epx_conv, in the order in which
    they are computed. *)
Definition t_three_convs n (epz epy epx : option 'M[C]_n) : option (conv3 n) :=
  if epz is Some epz_conv then
  if epy is Some epy_conv then
  if epx is Some epx_conv then Some (epx_conv, epy_conv, t_inv pinv use_pinv epz_conv)
  else None else None else None.

(** convolution_matrix.py:176-217: every component is enlarged on its own. *)
Definition t_dfs (enhanced_dfs : bool) (conti_x conti_y : bool) (fto_x fto_y : nat) (l : raster) :=
  let l' := enlarge enhanced_dfs fto_x fto_y l in dfs2d (rows l') (cols l') (eps_of l') conti_x conti_y fto_x fto_y.
Definition t_conv_discrete (enhanced_dfs : bool) (fto_x fto_y : nat) (l : t_layer) :=
  let '(lx, ly, lz) := components l in
  t_three_convs (t_dfs enhanced_dfs true true fto_x fto_y lz) (t_dfs enhanced_dfs true false fto_x fto_y ly)
                (t_dfs enhanced_dfs false true fto_x fto_y lx).

(** convolution_matrix.py:123-173: every component is compressed on its own. *)
Definition t_cfs (conti_x conti_y : bool) (fto_x fto_y : nat) (l : raster) :=
  let '(n_compressed, x_list, y_list) := cell_compression l in
  cfs2d (eps_of n_compressed) x_list y_list conti_x conti_y fto_x fto_y.
Definition t_conv_continuous (fto_x fto_y : nat) (l : t_layer) :=
  let '(lx, ly, lz) := components l in
  t_three_convs (t_cfs true true fto_x fto_y lz) (t_cfs true false fto_x fto_y ly) (t_cfs false true fto_x fto_y lx).

(** convolution_matrix.py:90-120: the components share the grid. *)
Definition t_conv_vector (fto_x fto_y : nat) (v : t_layer * seq R * seq R) :=
  let '(l, x_list, y_list) := v in
  let '(lx, ly, lz) := components l in
  let four l cx cy := cfs2d (eps_of l) x_list y_list cx cy fto_x fto_y in
  t_three_convs (four lz true true) (four ly true false) (four lx false true).
End Conv.

(** ** The object *)

Record tobj := TObj { t_attrs : obj; t_cell : tcell; t_aniso : bool }.
Definition map_attrs (f : obj -> obj) (o : tobj) : tobj := TObj (f (t_attrs o)) (t_cell o) (t_aniso o).

Section Solve.
Variable pinv : forall n, 'M[C]_n -> 'M[C]_n.
Variable eig : forall n, 'M[C]_n -> 'rV[C]_n * 'M[C]_n.

(** rcwa.py:199-220.  Empty arrays make torch raise. *)
Definition t_convs_of (o : tobj) (fx fy : nat) : option (seq (conv3 (fy.*2.+1 * fx.*2.+1))) :=
  let a := t_attrs o in
  let up := o_use_pinv a in
  let raster_convs ny nx ls :=
    if (ny == 0%N) || (nx == 0%N) then None
    else if Z.eqb (o_fourier_type a) 0 then conv_all (t_conv_discrete pinv up (o_enhanced a) fx fy) ls
    else if Z.eqb (o_fourier_type a) 1 then conv_all (t_conv_continuous pinv up fx fy) ls
    else None in
  match o_mtype a, t_cell o with
  | Some false, TRaster3 ny nx layers => raster_convs ny nx (map (layer3 ny nx) layers)
  | Some false, TRaster4 ny nx layers => raster_convs ny nx (map (layer4 ny nx) layers)
  | Some true, TVector ins =>
      if period_of a is Some (px, py) then
        if t_vector_layers px py ins is Some vs then conv_all (t_conv_vector pinv up fx fy) vs else None
      else None
  | _, _ => None
  end.

(** [_assign_grating_type] (rcwa.py:136-158): the grating type and [is_aniso]. *)
Definition t_grating (o : tobj) (fy : nat) : option nat :=
  let a := t_attrs o in
  t_grating_of (o_mtype a) (t_rows (t_cell o)) (t_is_aniso (t_cell o)) (o_phi a) (o_pol a) fy (o_grating a).
Definition t_aniso_of (o : tobj) : bool := if o_mtype (t_attrs o) is Some false then t_is_aniso (t_cell o) else t_aniso o.

(** The solver selected by the grating type (rcwa.py:183-188; _base.py:271-473).  As in NumPy the conical solver returns a pair
    without any key for SMM (_base.py:348-350). *)
Definition t_solve_with (a : obj) (fx fy : nat) (th : C) (p : R * R) (cs : seq (conv3 (fy.*2.+1 * fx.*2.+1)))
  (g : option nat) : memo * outcome :=
  let w := o_wavelength a in
  let up := o_use_pinv a in
  if (g == Some 1%N) && (if o_algo a is SMM then true else false) then (MNone, Solved (@Report 0 None None None))
  else if o_algo a is TMM then
    if o_thickness a is A1 ts then
      let s := setup_of a fx fy th p ts in
      match g with
      | Some 0%N =>
          if t_solve_1d pinv eig up s w [seq crop3 fx.*2.+1 c | c <- cs] is Some (r, T1, infos)
          then (M1d T1 infos, Solved (Report (Some r) None None)) else (MNone, Raised)
      | Some 1%N =>
          if t_solve_1d_conical pinv eig up s w cs is Some (r, infos)
          then (MCon r infos, Solved (Report (Some (res r)) (Some (res_te_inc r)) (Some (res_tm_inc r))))
          else (MNone, Raised)
      | _ =>
          if t_solve_2d pinv eig up s w cs is Some (r, infos)
          then (M2d r infos, Solved (Report (Some (res r)) (Some (res_te_inc r)) (Some (res_tm_inc r))))
          else (MNone, Raised)
      end
    else (MNone, Raised)
  else (MNone, Raised).

(** [conv_solve] without keyword arguments (rcwa.py:196-224, 171-194). *)
Definition t_conv_solve (o : tobj) : tobj * outcome :=
  let a := t_attrs o in
  if fto_of a is Some (fx, fy) then
    if t_convs_of o fx fy is Some cs then
      let g := t_grating o fy in
      let put m := TObj (set_memo g m a) (t_cell o) (t_aniso_of o) in
      match o_theta a, period_of a, reqb (o_wavelength a) 0 with
      | Some th, Some p, false => let (m, out) := t_solve_with a th p cs g in (put m, out)
      | _, _, _ => (put MNone, Raised)
      end
    else (o, Raised)
  else (o, Raised).

(** ** Setters *)

Inductive tval :=
  | TV (v : pyval)
  | TArr4 (comps ny nx : nat) (layers : seq (nat -> nat -> nat -> C))   (* a 4-dimensional array, components last *)
  | TInstr (ins : seq t_instruction).                                   (* a list of vector instructions *)

(** rcwa.py:90-124.  The modelling type is set before shape and dtype are looked at.  [DOther]: a dtype torch does not have. *)
Definition t_assign_ucell (v : tval) (o : tobj) : tobj * bool :=
  let put c m := TObj (set_cell (o_cell (t_attrs o)) m (t_attrs o)) c (t_aniso o) in
  let old := o_mtype (t_attrs o) in
  match v with
  | TV (VArr3 DOther _ _ _) => (put (t_cell o) (Some false), true)
  | TV (VArr3 _ ny nx layers) => (put (TRaster3 ny nx layers) (Some false), false)
  | TArr4 comps ny nx layers =>
      if comps == 3%N then (put (TRaster4 ny nx [seq (fun i j => (f i j 0, f i j 1, f i j 2)%N)
                                                | f : nat -> nat -> nat -> C <- layers]) (Some false), false)
      else (put (t_cell o) (Some false), true)
  | TV (VArr0 _) | TV (VArr1 _) => (put (t_cell o) (Some false), true)
  | TInstr ins => (put (TVector ins) (Some true), false)
  | TV (VInstr _)                          (* NumPy's form of an instruction list; here it is [TInstr] *)
  | TV (VSeq _) => (put TJunk (Some true), false)
  | TV VNone => (put TNone old, false)
  | _ => (o, true)
  end.

(** _base.py:152-159: pol is derived from the stored tensor. *)
Definition t_assign_psi (v : pyval) (o : obj) : obj * bool :=
  if v is VNone then (o, false)
  else if angle v is Some x then (set_polar (cnum x) (pol_of (cnum x)) o, false)
  else (o, true).

(** _base.py:212-225: a tensor without dimension is stored before [len()] raises. *)
Definition t_assign_period (v : pyval) (o : obj) : obj * bool :=
  match v with
  | VNum (NInt z) => (set_period (A1 [:: IZR z; IZR z]) o, false)
  | VNum (NFloat r) => (set_period (A1 [:: r; r]) o, false)
  | VSeq xs =>
      if all_some list_float xs is Some rs then (set_period (A1 (if rs is [:: r] then [:: r; r] else rs)) o, false) else (o, true)
  | VArr0 x => (set_period (A0 (arr_float x)) o, true)
  | VArr1 xs => let rs := map arr_float xs in (set_period (A1 (if rs is [:: r] then [:: r; r] else rs)) o, false)
  | VArr3 _ _ _ _ => (set_period AMany o, false)
  | _ => (o, true)
  end.

(** What can be done to the object.  The remaining setters are those of ModelState.v: theta (_base.py:129-136), phi (143-148),
    pol (171-177), fto (184-208), thickness (232-238), type_complex (93-111). *)
Inductive t_op := TOp (a : op) | TSetUcell (v : tval).
Definition on_attrs (f : obj -> obj * bool) (o : tobj) : tobj * outcome :=
  let (a, e) := f (t_attrs o) in (TObj a (t_cell o) (t_aniso o), if e then Raised else Done).
Definition t_assigned (r : tobj * bool) : tobj * outcome := (r.1, if r.2 then Raised else Done).
Definition t_do_op (a : t_op) (o : tobj) : tobj * outcome :=
  match a with
  | TSetUcell v => t_assigned (t_assign_ucell v o)
  | TOp (SetUcell v) => t_assigned (t_assign_ucell (TV v) o)
  | TOp (SetTheta v) => on_attrs (assign_theta v) o
  | TOp (SetPhi v) => on_attrs (assign_phi v) o
  | TOp (SetPsi v) => on_attrs (t_assign_psi v) o
  | TOp (SetPol v) => on_attrs (assign_pol v) o
  | TOp (SetFto v) => on_attrs (assign_fto v) o
  | TOp (SetPeriod v) => on_attrs (t_assign_period v) o
  | TOp (SetThickness v) => on_attrs (assign_thickness v) o
  | TOp (SetTypeComplex v) => on_attrs (assign_type_complex v) o
  | TOp (SetPerturbation c) => (map_attrs (set_pert c) o, Done)
  | TOp (SetIndices nt nb) => (map_attrs (set_indices nt nb) o, Done)
  | TOp (SetWavelength w) => (map_attrs (set_wavelength w) o, Done)
  | TOp (SetOptions al up ft en) => (map_attrs (set_options al up ft en) o, Done)
  | TOp ConvSolve => t_conv_solve o
  | TOp (CalcField _ _ _ _) => (o, Done)     (* the fields are modelled in ModelTorchField.v; the object does not change *)
  end.
Definition t_after (h : seq t_op) (o : tobj) : tobj := foldl (fun o a => (t_do_op a o).1) o h.

(** [conv_solve] with keyword arguments (rcwa.py:197): the arguments are assigned one after another, then the object is solved. *)
Fixpoint t_conv_solve_kw (kw : seq t_op) (o : tobj) : tobj * outcome :=
  match kw with
  | [::] => t_conv_solve o
  | a :: kw' => let (o1, r) := t_do_op a o in if r is Raised then (o1, Raised) else t_conv_solve_kw kw' o1
  end.

End Solve.
