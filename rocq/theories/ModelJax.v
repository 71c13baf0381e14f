(** Model of the JAX solver: what differs from NumPy in /repo/meent/on_jax/emsolver (primitives.py, transfer_method.py,
    fourier_analysis.py, convolution_matrix.py, _base.py, rcwa.py).
    Differences modelled
      - [jnp.linalg.inv] never raises: a singular matrix gives inf and nan.  The model puts an arbitrary matrix [broken x]
        there, so nothing is known of the result;
      - reading an array outside its bounds never raises: the index is clamped to the nearest valid one (JAX documentation,
        "Out-of-bounds indexing");
      - [jax.lax.cond(pol.real, ..)] takes the TM branch for every non-zero polarisation;
      - [to_conv_mat_raster_discrete] ignores [use_pinv] (convolution_matrix.py:131);
      - the setters of [pol] and [ucell] (ModelTree.v).
    The bodies of the conical and 2D functions, of [calculate_field] and of the vector modeller are those of NumPy with np
    replaced by jnp; they are reused.  Not modelled: tracing, jit, vmap, pmap, device placement. *)
From Coq Require Import Reals ZArith.
From Coq Require String Ascii.
From mathcomp Require Import all_ssreflect ssralg ssrint matrix.
From Coquelicot Require Import Complex.
From Verif Require Import Cplx Mx ModelTM ModelFourier ModelVec ModelField ModelState ModelTree.

Set Implicit Arguments.
Unset Strict Implicit.
Unset Printing Implicit Defensive.
Local Open Scope ring_scope.
Import GRing.Theory.

Section Jax.
Variable pinv : forall n, 'M[C]_n -> 'M[C]_n.
Variable eig : forall n, 'M[C]_n -> 'rV[C]_n * 'M[C]_n.
Variable broken : forall n, 'M[C]_n -> 'M[C]_n.

(** [jnp.linalg.inv]. *)
Definition jnp_inv n (x : 'M[C]_n) : 'M[C]_n := if x \in unitmx then invmx x else broken x.

(** primitives.py:73-79. *)
Definition j_meeinv (use_pinv : bool) n (x : 'M[C]_n) : 'M[C]_n := if use_pinv then pinv x else jnp_inv x.

(** ** Fourier analysis *)

(** Reading entry [z] of an array of length [len]: a negative index counts from the end, then the index is clamped. *)
Definition j_idx (len : nat) (z : int) : nat :=
  match z with
  | Posz k => minn k len.-1
  | Negz k => (len - k.+1)%N
  end.

(** fourier_analysis.py:32-103: [cfs2d] and [dfs2d], with the structure of [four2d] (ModelFourier.v). *)
Definition j_four2d (tx ty : transform) (nx ny : nat) (cell : nat -> nat -> C) (conti_x conti_y : bool)
  (fto_x fto_y : nat) : option 'M[C]_(fto_y.*2.+1 * fto_x.*2.+1) :=
  let ff_x := fto_x.*2.+1 in
  let ff_y := fto_y.*2.+1 in
  let cellT a b := cell b a in
  if ~~ conti_y && has (fun a => has (fun b => cellT a b == 0) (iota 0 ny)) (iota 0 nx) then None else
  let cell1 a b := if conti_y then cellT a b else (cellT a b)^-1 in
  let gather1 a r c := t_coef ty (cell1 a) (j_idx (t_len ty) (circulant r c + t_shift ty)) in
  let conv1d a := if conti_x (+) conti_y then ent (jnp_inv (mat ff_y (gather1 a))) else gather1 a in
  let flat a p := conv1d a (p %/ ff_y)%N (p %% ff_y)%N in
  let conv2d p r c := t_coef tx (fun a => flat a p) (j_idx (t_len tx) (circulant r c + t_shift tx)) in
  let conv4 a b rx cx := conv2d (a * ff_y + b)%N rx cx in
  let moved a rx b cx := conv4 a b rx cx in
  let out := mat (ff_y * ff_x) (fun i j => moved (i %/ ff_x)%N (i %% ff_x)%N (j %/ ff_x)%N (j %% ff_x)%N) in
  Some (if conti_x then out else jnp_inv out).
Definition j_cfs2d (cell : nat -> nat -> C) (x y : seq R) (conti_x conti_y : bool) (fto_x fto_y : nat) :=
  j_four2d (cfs_transform x fto_x) (cfs_transform y fto_y) (size x) (size y) cell conti_x conti_y fto_x fto_y.
Definition j_dfs2d (ny nx : nat) (cell : nat -> nat -> C) (conti_x conti_y : bool) (fto_x fto_y : nat) :=
  j_four2d (fft_transform nx) (fft_transform ny) nx ny cell conti_x conti_y fto_x fto_y.

(** convolution_matrix.py:63-69, 86-92, 125-131; [use_pinv] is what is passed to [meeinv]. *)
Definition j_three_convs (use_pinv : bool) n (four : bool -> bool -> option 'M[C]_n) : option (conv3 n) :=
  if four true true is Some epz_conv then
  if four true false is Some epy_conv then
  if four false true is Some epx_conv then Some (epx_conv, epy_conv, j_meeinv use_pinv epz_conv)
  else None else None else None.

(** convolution_matrix.py:82-92. *)
Definition j_conv_continuous (use_pinv : bool) (fto_x fto_y : nat) (l : raster) :=
  let '(n_compressed, x_list, y_list) := cell_compression l in
  j_three_convs use_pinv (fun cx cy => j_cfs2d (eps_of n_compressed) x_list y_list cx cy fto_x fto_y).
(** convolution_matrix.py:107-131: [meeinv(epz_conv, use_pinv=False)]. *)
Definition j_conv_discrete (enhanced_dfs : bool) (fto_x fto_y : nat) (l : raster) :=
  let l' := enlarge enhanced_dfs fto_x fto_y l in
  j_three_convs false (fun cx cy => j_dfs2d (rows l') (cols l') (eps_of l') cx cy fto_x fto_y).
(** convolution_matrix.py:59-69. *)
Definition j_conv_vector (use_pinv : bool) (fto_x fto_y : nat) (v : raster * seq R * seq R) :=
  let '(l, x_list, y_list) := v in
  j_three_convs use_pinv (fun cx cy => j_cfs2d (eps_of l) x_list y_list cx cy fto_x fto_y).

(** ** 1D, TE or TM *)

Section OneD.
Variable use_pinv : bool.
Notation inv := (j_meeinv use_pinv).

(** transfer_method.py:7-32. *)
Definition j_transfer_1d_1 (pol : R) n (kx : nat -> C) (n_top n_bot : C)
  : (nat -> C) * (nat -> C) * 'M[C]_n * 'M[C]_n * 'M[C]_n :=
  let kz_top := kz_1d n_top kx in
  let kz_bot := kz_1d n_bot kx in
  let G := if reqb pol 0 then ci *: diagf n kz_bot else ci *: diagf n (fun i => kz_bot i / n_bot ^+ 2) in
  (kz_top, kz_bot, 1%:M, G, 1%:M).

(** transfer_method.py:52-80. *)
Definition j_transfer_1d_2 (pol : R) n (kx : nat -> C) (epx_conv epy_conv epz_conv_i : 'M[C]_n)
  : 'M[C]_n * 'M[C]_n * 'rV[C]_n :=
  let Kx := diagf n kx in
  if reqb pol 0 then
    let (eigenvalues, W) := eig (Kx *m Kx - epy_conv) in
    let q := sqrtv eigenvalues in
    (W, W *m diag_mx q, q)
  else
    let B := Kx *m epz_conv_i *m Kx - 1%:M in
    let (eigenvalues, W) := eig (epx_conv *m B) in
    let q := sqrtv eigenvalues in
    (W, inv epx_conv *m W *m diag_mx q, q).

(** transfer_method.py:106-128. *)
Definition j_transfer_1d_3 n (k0 : R) (W V : 'M[C]_n) (q : 'rV[C]_n) (d : R) (F G T : 'M[C]_n) :=
  let X := Xmat k0 q d in
  let W_i := inv W in
  let V_i := inv V in
  let A := half *: (W_i *m F + V_i *m G) in
  let B := half *: (W_i *m F - V_i *m G) in
  let A_i := inv A in
  (W *m (1%:M + X *m B *m A_i *m X), V *m (1%:M - X *m B *m A_i *m X), T *m A_i *m X, A_i, B).

(** transfer_method.py:131-196. *)
Definition j_transfer_1d_4 (pol : R) n (F G T : 'M[C]_n) (kz_top kz_bot : nat -> C) (theta n_top n_bot : C)
  : diffraction n * 'cV[C]_n :=
  let Kz_top := diagf n kz_top in
  let d0 := delta_i0 n in
  let power (A : 'cV[C]_n) (wt : 'I_n -> C) := fun i : 'I_n => Re (A i ord0 * conj (A i ord0) * RtoC (Re (wt i))) in
  let none := fun _ : 'I_n => 0%coqR in
  if reqb pol 0 then
    let inc_term := (ci * n_top * ccos theta) *: d0 in
    let T1 := inv (G + ci *: Kz_top *m F) *m ((ci *: Kz_top) *m d0 + inc_term) in
    let R := F *m T1 - d0 in
    let T := T *m T1 in
    let de_ri := power R (fun i => kz_top i / (n_top * ccos theta)) in
    let de_ti := power T (fun i => kz_bot i / (n_top * ccos theta)) in
    (Diffraction R 0 T 0 de_ri none de_ri de_ti none de_ti, T1)
  else
    let inc_term := (ci * ccos theta / n_top) *: d0 in
    let T1 := inv (G + ((ci / n_top ^+ 2) *: Kz_top) *m F) *m (((ci / n_top ^+ 2) *: Kz_top) *m d0 + inc_term) in
    let R := F *m T1 - d0 in
    let T := T *m T1 in
    let de_ri := power R (fun i => kz_top i / (n_top * ccos theta)) in
    let de_ti := power T (fun i => kz_bot i / n_bot ^+ 2 / (ccos theta / n_top)) in
    (Diffraction 0 R 0 T none de_ri de_ri none de_ti de_ti, T1).

(** _base.py:300-321, one layer after another from the last to the first. *)
Definition j_step_1d (pol : R) n (kx : nat -> C) (k0 : R) (l : layer n)
  (st : 'M[C]_n * 'M[C]_n * 'M[C]_n * seq (info_1d n)) :=
  let '(F, G, T, infos) := st in
  let '(W, V, q) := j_transfer_1d_2 pol kx (epx l) (epy l) (epzi l) in
  let '(F', G', T', A_i, B) := j_transfer_1d_3 k0 W V q (thick l) F G T in
  (F', G', T', rcons infos (Info1d (epzi l) W V q (thick l) A_i B)).
Definition j_rcwa_1d (pol : R) n (kx : nat -> C) (k0 : R) (theta n_top n_bot : C) (ls : seq (layer n))
  : diffraction n * 'cV[C]_n * seq (info_1d n) :=
  let '(kz_top, kz_bot, F, G, T) := j_transfer_1d_1 pol n kx n_top n_bot in
  let '(F', G', T', infos) := foldr (j_step_1d pol kx k0) (F, G, T, [::]) ls in
  let (res, T1) := j_transfer_1d_4 pol F' G' T' kz_top kz_bot theta n_top n_bot in
  (res, T1, infos).

(** The layers the loop visits (_base.py:301-307, 366-371, 435-441): [epx_conv_all[layer_index]] with a clamped index.  Only an
    array without any layer cannot be read. *)
Definition j_layers_of n (convs : seq (conv3 n)) (ts : seq R) : option (seq (layer n)) :=
  match ts, convs with
  | [::], _ => Some [::]
  | _ :: _, [::] => None
  | _ :: _, c0 :: _ =>
      Some (mkseq (fun i => let '(ex, ey, ez) := nth c0 convs (minn i (size convs).-1) in Layer ex ey ez (nth 0%coqR ts i))
                  (size ts))
  end.

(** _base.py:279-338, 341-408, 412-473. *)
Definition j_solve_1d (s : setup) (wavelength : R) (convs : seq (conv3 (ff_x s))) :=
  if j_layers_of convs (thickness s) is Some ls then
    Some (j_rcwa_1d (pol s) (kx_vector s wavelength) (k0_of wavelength) (theta s) (n_top s) (n_bot s) ls)
  else None.
Definition j_solve_1d_conical (s : setup) (wavelength : R) (convs : seq (conv3 (ff_y s * ff_x s))) :=
  if fto_y s == 0%N then
    if j_layers_of convs (thickness s) is Some ls then
      rcwa_conical (fun n => @j_meeinv use_pinv n) eig true (kx_tiled s wavelength) (ky_tiled s wavelength)
        (k0_of wavelength) (psi s) (theta s) (n_top s) (n_bot s) ls
    else None
  else None.
Definition j_solve_2d (s : setup) (wavelength : R) (convs : seq (conv3 (ff_y s * ff_x s))) :=
  if j_layers_of convs (thickness s) is Some ls then
    rcwa_2d (fun n => @j_meeinv use_pinv n) eig true (kx_tiled s wavelength) (ky_tiled s wavelength)
      (k0_of wavelength) (psi s) (theta s) (n_top s) (n_bot s) ls
  else None.
End OneD.

(** ** The object *)

(** rcwa.py:220-240. *)
Definition j_convs_of (o : obj) (fx fy : nat) : option (seq (conv3 (fy.*2.+1 * fx.*2.+1))) :=
  match o_mtype o, o_cell o with
  | Some false, CRaster ny nx layers =>
      if (ny == 0%N) || (nx == 0%N) then None
      else if Z.eqb (o_fourier_type o) 0 then
        conv_all (j_conv_discrete (o_enhanced o) fx fy) (map (Raster ny nx) layers)
      else if Z.eqb (o_fourier_type o) 1 then
        conv_all (j_conv_continuous (o_use_pinv o) fx fy) (map (Raster ny nx) layers)
      else None
  | Some true, CVector ins =>
      if period_of o is Some (px, py) then
        if vector_layers px py ins is Some vs then conv_all (j_conv_vector (o_use_pinv o) fx fy) vs else None
      else None
  | _, _ => None
  end.

(** rcwa.py:188-205. *)
Definition j_solve_with (o : obj) (fx fy : nat) (th : C) (p : R * R) (cs : seq (conv3 (fy.*2.+1 * fx.*2.+1)))
  (g : option nat) : memo * outcome :=
  let w := o_wavelength o in
  let up := o_use_pinv o in
  if (g == Some 1%N) && (if o_algo o is SMM then true else false) then (MNone, Solved (@Report 0 None None None))
  else if o_algo o is TMM then
    if o_thickness o is A1 ts then
      let s := setup_of o fx fy th p ts in
      match g with
      | Some 0%N =>
          if j_solve_1d up (s := s) w [seq crop3 fx.*2.+1 c | c <- cs] is Some (r, T1, infos)
          then (M1d T1 infos, Solved (Report (Some r) None None)) else (MNone, Raised)
      | Some 1%N =>
          if j_solve_1d_conical up (s := s) w cs is Some (r, infos)
          then (MCon r infos, Solved (Report (Some (res r)) (Some (res_te_inc r)) (Some (res_tm_inc r))))
          else (MNone, Raised)
      | _ =>
          if j_solve_2d up (s := s) w cs is Some (r, infos)
          then (M2d r infos, Solved (Report (Some (res r)) (Some (res_te_inc r)) (Some (res_tm_inc r))))
          else (MNone, Raised)
      end
    else (MNone, Raised)
  else (MNone, Raised).

(** rcwa.py:217-244. *)
Definition j_conv_solve (o : obj) : obj * outcome :=
  if fto_of o is Some (fx, fy) then
    if j_convs_of o fx fy is Some cs then
      let g := grating_of o fy in
      match o_theta o, period_of o, reqb (o_wavelength o) 0 with
      | Some th, Some p, false =>
          let (m, out) := j_solve_with o th p cs g in (set_memo g m o, out)
      | _, _, _ => (set_memo g MNone o, Raised)
      end
    else (o, Raised)
  else (o, Raised).

(** Operations on the object (ModelState.v) as JAX performs them. *)
Definition j_do_op (a : op) (o : obj) : obj * outcome :=
  match a with
  | SetPol v => assigned (assign_pol_jax v o)
  | SetUcell v => assigned (assign_ucell_jax v o)
  | ConvSolve => j_conv_solve o
  | SetTheta v => assigned (assign_theta v o)
  | SetPhi v => assigned (assign_phi v o)
  | SetPsi v => assigned (assign_psi v o)
  | SetFto v => assigned (assign_fto v o)
  | SetPeriod v => assigned (assign_period v o)
  | SetThickness v => assigned (assign_thickness v o)
  | SetTypeComplex v => assigned (assign_type_complex v o)
  | SetPerturbation c => (set_pert c o, Done)
  | SetIndices nt nb => (set_indices nt nb o, Done)
  | SetWavelength w => (set_wavelength w o, Done)
  | SetOptions al up ft en => (set_options al up ft en o, Done)
  | CalcField rx ry rz sel => (o, calculate_field o rx ry rz sel)
  end.

End Jax.

(** Keyword arguments of [conv_solve]: rcwa.py:218 of on_jax assigns them as attributes, one after another, before solving
    ([kw] lists the assignments); an exception in a setter leaves the call. *)
Definition is_assignment (a : op) : bool := match a with ConvSolve | CalcField _ _ _ _ => false | _ => true end.
Fixpoint j_conv_solve_kw pinv eig broken (kw : seq op) (o : obj) : obj * outcome :=
  match kw with
  | [::] => j_conv_solve pinv eig broken o
  | a :: kw' => let (o1, r) := j_do_op pinv eig broken a o in
                if r is Raised then (o1, Raised) else j_conv_solve_kw pinv eig broken kw' o1
  end.
(** on_numpy/emsolver/rcwa.py:173-174: accepted and ignored. *)
Definition conv_solve_kw pinv eig (kw : seq op) (o : obj) : obj * outcome := conv_solve pinv eig o.

(** The outcomes of a history, first to last, and the final object. *)
Fixpoint run (step : op -> obj -> obj * outcome) (h : seq op) (o : obj) : obj * seq outcome :=
  match h with
  | [::] => (o, [::])
  | a :: h' => let (o1, r) := step a o in let (o2, rs) := run step h' o1 in (o2, r :: rs)
  end.

(** ** The combined method *)

(** What [conv_solve_field] returns: nothing at all (None, None, None), an exception, or the report and the field. *)
Inductive both := BRaised | BNothing | BBoth (r : report) (f : field_cell).

(** on_numpy/emsolver/rcwa.py:221-224. *)
Definition conv_solve_field pinv eig (o : obj) (res_x res_y res_z : nat) (sel : bool * bool * bool) : obj * both :=
  let (o', out) := conv_solve pinv eig o in
  match out, calculate_field o' res_x res_y res_z sel with
  | Solved r, FieldOf f => (o', BBoth r f)
  | _, _ => (o', BRaised)
  end.

Module Names.
Import String.
Local Open Scope string_scope.

(** Every method, property and instance attribute that a MeeJax object has, from rcwa.py:50-323, _base.py:25-477,
    mee.py:5-34, modeling.py:13-669 and optimizer.py:8-53 of on_jax. *)
Definition attributes : seq string :=
  [:: "ucell"; "_ucell"; "modeling_type_assigned"; "_modeling_type_assigned"; "_assign_grating_type"; "grating_type_assigned";
      "_grating_type_assigned"; "solve_for_conv"; "conv_solve"; "calculate_field"; "field_plot"; "conv_solve_field";
      "conv_solve_field_no_jit"; "run_ucell_vmap"; "run_ucell_pmap"; "ucell_materials"; "backend"; "fourier_type";
      "enhanced_dfs"; "use_pinv";
      "device"; "_device"; "type_complex"; "_type_complex"; "type_float"; "_type_float"; "type_int"; "_type_int";
      "perturbation"; "n_top"; "n_bot"; "theta"; "_theta"; "phi"; "_phi"; "psi"; "_psi"; "pol"; "_pol"; "fto"; "_fto";
      "period"; "_period"; "wavelength"; "thickness"; "_thickness"; "connecting_algo"; "layer_info_list"; "T1";
      "get_kx_ky_vector"; "solve_1d"; "solve_1d_conical"; "solve_2d";
      "_tree_flatten"; "_tree_unflatten";
      "rectangle_no_approximation"; "rectangle"; "ellipse"; "vector_per_layer_numeric"; "draw"; "modeling_vector_instruction";
      "film_layer"; "ucell_info_list";
      "_grad"; "grad"; "_fit"; "fit"].
Definition called : string := "_conv_solve".
Definition callable : bool := has (String.eqb called) attributes.
End Names.

(** on_jax/emsolver/rcwa.py:284-302: [self._conv_solve()] is looked up on the object.  Were it there, its result could not be
    predicted ([found]). *)
Definition j_conv_solve_field (found : obj -> both) (jit : bool) (o : obj) : obj * both :=
  if jit && Z.eqb (o_fourier_type o) 1 then (o, BNothing)
  else (o, if Names.callable then found o else BRaised).
