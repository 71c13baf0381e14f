(** Model of the Fourier analysis of the unit cell.
    Sources (all under /repo/meent/on_numpy/emsolver): fourier_analysis.py, convolution_matrix.py.
    Conventions
      - a 1-D array of length n is an index function [nat -> C] together with its length, a 2-D array an index function of
        two indices together with its shape;
      - a raised exception (IndexError, LinAlgError) is [None].  [1 / cell] with a zero cell gives inf in numpy and nan
        results; it is modelled as failure;
      - numbers are exact (DESIGN.md section 1). *)
From Coq Require Import Reals.
From mathcomp Require Import all_ssreflect ssralg ssrint matrix.
From Coquelicot Require Import Complex.
From Verif Require Import Cplx Mx ModelTM.

Set Implicit Arguments.
Unset Strict Implicit.
Unset Printing Implicit Defensive.
Local Open Scope ring_scope.
Import GRing.Theory.

(** ** Array primitives *)

(** Python indexing of an array of length [len]: negative indices count from the end, anything else out of range is an
    IndexError. *)
Definition pyidx (len : nat) (z : int) : option nat :=
  match z with
  | Posz k => if (k < len)%N then Some k else None
  | Negz k => if (k < len)%N then Some (len - k.+1)%N else None
  end.

(** Fancy indexing [f[idx]] of a 1-D array [f] of length [len] with an n x n integer array [idx]
    (fourier_analysis.py:43, 52, 79, 88). *)
Definition fancy n (len : nat) (f : nat -> C) (idx : nat -> nat -> int) : option (nat -> nat -> C) :=
  if all (fun i => all (fun j => isSome (pyidx len (idx i j))) (iota 0 n)) (iota 0 n)
  then Some (fun i j => f (odflt 0%N (pyidx len (idx i j))))
  else None.

(** The same operation on each of the first [m] members of a family: one failure fails all. *)
Definition batch (T : Type) (d : T) (m : nat) (f : nat -> option T) : option (nat -> T) :=
  if all (fun a => isSome (f a)) (iota 0 m) then Some (fun a => odflt d (f a)) else None.

(** Square arrays as matrices and back. *)
Definition mat n (f : nat -> nat -> C) : 'M[C]_n := \matrix_(i, j) f i j.
Definition ent n (A : 'M[C]_n) (i j : nat) : C :=
  if insub i is Some i' then (if insub j is Some j' then A i' j' else 0) else 0.

(** [np.linalg.inv]. *)
Definition np_inv n (x : 'M[C]_n) : option 'M[C]_n := if x \in unitmx then Some (invmx x) else None.
Definition arr_inv n (f : nat -> nat -> C) : option (nat -> nat -> C) :=
  if np_inv (mat n f) is Some A then Some (ent A) else None.

(** [circulant(fto)]: row r is [np.arange(-r, -r + ff)] (fourier_analysis.py:514-533). *)
Definition circulant (r c : nat) : int := - r%:Z + c%:Z.

(** ** One-dimensional transforms *)

(** The [k]-th entry of [modes = np.arange(-2 * fto, 2 * fto + 1)] (fourier_analysis.py:9). *)
Definition mode (fto k : nat) : R := (INR k - INR fto.*2)%coqR.

(** One row of [_cfs] (fourier_analysis.py:4-22).  [x] holds the right ends of the pieces, the last one is the period.
    [cell_diff @ exp(..)], divided by 2 pi i m off the centre (line 19); at the centre the mean value (line 20), where
    [np.vstack((x[0], x_next[:-1]))] are the lengths of the pieces. *)
Definition piece (x : seq R) (j : nat) : R :=
  if j is j'.+1 then (nth 0%coqR x j - nth 0%coqR x j')%coqR else nth 0%coqR x 0.
Definition cfs (x : seq R) (period : R) (fto : nat) (cell : nat -> C) (k : nat) : C :=
  if k == fto.*2 then
    (\sum_(j < size x) cell j * RtoC (piece x j)) / RtoC period
  else
    (\sum_(j < size x) (cell (j.+1 %% size x)%N - cell j)
       * cexp (- ci * RtoC (2 * PI * nth 0 x j * mode fto k / period)%coqR))
    / (ci * RtoC (2 * PI * mode fto k)).

(** One row of [np.fft.fft(cell / cell.shape[1])] (fourier_analysis.py:74, 86). *)
Definition fft (n : nat) (cell : nat -> C) (k : nat) : C :=
  \sum_(j < n) cell j / RtoC (INR n) * cexp (- ci * RtoC (2 * PI * INR j * INR k / INR n)%coqR).

(** ** Two-dimensional convolution matrices *)

(** What a 1-D transform provides: number of coefficients, offset of the zeroth order, coefficients of a row. *)
Record transform := Transform { t_len : nat; t_shift : int; t_coef : (nat -> C) -> nat -> C }.
Definition cfs_transform (x : seq R) (fto : nat) : transform :=
  Transform (fto.*2.*2.+1) fto.*2%:Z (cfs x (last 0%coqR x) fto).
Definition fft_transform (n : nat) : transform := Transform n 0 (fft n).

(** The common body of [cfs2d] (fourier_analysis.py:25-60) and [dfs2d] (fourier_analysis.py:63-96).  [cell] is indexed
    (row, column) with [nx] columns and [ny] rows; [ty] transforms along the rows index (y), [tx] along x.
    - [cell.T]; [1 / cell] when [conti_y == 0];
    - coefficients along y of every column [a], gathered in [conv1d[a]];
    - inverse of every [conv1d[a]] when [conti_x ^ conti_y];
    - [conv1d.reshape((-1, ff_y ** 2))], transposed: entry p of row a is (p // ff_y, p % ff_y);
    - coefficients along x; [reshape((ff_y, ff_y, ff_x, ff_x))], [moveaxis(1, 2)], [reshape((ff_y*ff_x, ff_y*ff_x))];
    - inverse when [conti_x == 0]. *)
Definition four2d (tx ty : transform) (nx ny : nat) (cell : nat -> nat -> C) (conti_x conti_y : bool)
  (fto_x fto_y : nat) : option 'M[C]_(fto_y.*2.+1 * fto_x.*2.+1) :=
  let ff_x := fto_x.*2.+1 in
  let ff_y := fto_y.*2.+1 in
  let cellT a b := cell b a in
  if ~~ conti_y && has (fun a => has (fun b => cellT a b == 0) (iota 0 ny)) (iota 0 nx) then None else
  let cell1 a b := if conti_y then cellT a b else (cellT a b)^-1 in
  if batch (fun _ _ => 0) nx (fun a => fancy ff_y (t_len ty) (t_coef ty (cell1 a))
                                          (fun r c => circulant r c + t_shift ty)) is Some conv1d then
  if (if conti_x (+) conti_y then batch (fun _ _ => 0) nx (fun a => arr_inv ff_y (conv1d a)) else Some conv1d)
     is Some conv1d then
  let flat a p := conv1d a (p %/ ff_y)%N (p %% ff_y)%N in
  if batch (fun _ _ => 0) (ff_y * ff_y) (fun p => fancy ff_x (t_len tx) (t_coef tx (fun a => flat a p))
                                          (fun r c => circulant r c + t_shift tx)) is Some conv2d then
  let conv4 a b rx cx := conv2d (a * ff_y + b)%N rx cx in
  let moved a rx b cx := conv4 a b rx cx in
  let out := mat (ff_y * ff_x) (fun i j => moved (i %/ ff_x)%N (i %% ff_x)%N (j %/ ff_x)%N (j %% ff_x)%N) in
  if conti_x then Some out else np_inv out
  else None else None else None.

(** fourier_analysis.py:25-60. *)
Definition cfs2d (cell : nat -> nat -> C) (x y : seq R) (conti_x conti_y : bool) (fto_x fto_y : nat) :=
  four2d (cfs_transform x fto_x) (cfs_transform y fto_y) (size x) (size y) cell conti_x conti_y fto_x fto_y.

(** fourier_analysis.py:63-96, for a cell of [ny] rows and [nx] columns. *)
Definition dfs2d (ny nx : nat) (cell : nat -> nat -> C) (conti_x conti_y : bool) (fto_x fto_y : nat) :=
  four2d (fft_transform nx) (fft_transform ny) nx ny cell conti_x conti_y fto_x fto_y.

(** ** Unit cells *)

(** A raster layer: an array of refractive indices of shape (rows, cols). *)
Record raster := Raster { rows : nat; cols : nat; px : nat -> nat -> C }.

(** [cell_compression] (convolution_matrix.py:6-44): flip, keep the columns that differ from their right neighbour
    (cyclically) and the last column, then the same for rows of what is left. *)
Definition flipud (l : raster) : raster := Raster (rows l) (cols l) (fun i j => px l (rows l - i.+1)%N j).
Definition keep_col (l : raster) (col : nat) : bool :=
  ~~ all (fun i => px l i col == px l i (col.+1 %% cols l)%N) (iota 0 (rows l)) || (col == (cols l).-1).
Definition sel_cols (l : raster) : seq nat := filter (keep_col l) (iota 0 (cols l)).
Definition pick_cols (l : raster) : raster :=
  Raster (rows l) (size (sel_cols l)) (fun i a => px l i (nth 0%N (sel_cols l) a)).
Definition keep_row (l : raster) (row : nat) : bool :=
  ~~ all (fun a => px l row a == px l (row.+1 %% rows l)%N a) (iota 0 (cols l)) || (row == (rows l).-1).
Definition sel_rows (l : raster) : seq nat := filter (keep_row l) (iota 0 (rows l)).
Definition pick_rows (l : raster) : raster :=
  Raster (size (sel_rows l)) (cols l) (fun b a => px l (nth 0%N (sel_rows l) b) a).
Definition ends (n : nat) (sel : seq nat) : seq R := [seq (1 / INR n * (INR k + 1))%coqR | k <- sel].

Definition cell_compression (l : raster) : raster * seq R * seq R :=
  let l1 := flipud l in
  let l2 := pick_cols l1 in
  (pick_rows l2, ends (cols l) (sel_cols l1), ends (rows l) (sel_rows l2)).

(** [ucell ** 2]. *)
Definition eps_of (l : raster) : nat -> nat -> C := fun i j => px l i j ^+ 2.

Section Conv.
Variable pinv : forall n, 'M[C]_n -> 'M[C]_n.
Variable use_pinv : bool.

(** The three matrices of a layer (convolution_matrix.py:59-65, 82-88, 121-127): [four conti_x conti_y] is the
    transform of the squared index.  The arrays epx, epy and inv(epz) are returned in the order the solvers take them. *)
Definition three_convs n (four : bool -> bool -> option 'M[C]_n) : option (conv3 n) :=
  if four true true is Some epz_conv then
  if four true false is Some epy_conv then
  if four false true is Some epx_conv then
  if meeinv pinv use_pinv epz_conv is Some epz_conv_i then Some (epx_conv, epy_conv, epz_conv_i)
  else None else None else None else None.

(** One iteration of the loop of [to_conv_mat_raster_continuous] (convolution_matrix.py:78-88). *)
Definition conv_continuous (fto_x fto_y : nat) (l : raster) :=
  let '(n_compressed, x_list, y_list) := cell_compression l in
  three_convs (fun cx cy => cfs2d (eps_of n_compressed) x_list y_list cx cy fto_x fto_y).

(** [np.repeat(layer, r, axis=0 / 1)]. *)
Definition repeat_rows (l : raster) (r : nat) : raster := Raster (rows l * r) (cols l) (fun i j => px l (i %/ r)%N j).
Definition repeat_cols (l : raster) (r : nat) : raster := Raster (rows l) (cols l * r) (fun i j => px l i (j %/ r)%N).

(** convolution_matrix.py:102-117. *)
Definition enlarge (enhanced_dfs : bool) (fto_x fto_y : nat) (l : raster) : raster :=
  let min_y := if enhanced_dfs then ((fto_y.*2.*2.+1) * rows l)%N else fto_y.*2.*2.+1 in
  let min_x := if enhanced_dfs then ((fto_x.*2.*2.+1) * cols l)%N else fto_x.*2.*2.+1 in
  let l1 := if (rows l < min_y)%N then repeat_rows l (min_y %/ rows l).+1 else l in
  if (cols l1 < min_x)%N then repeat_cols l1 (min_x %/ cols l1).+1 else l1.

(** One iteration of the loop of [to_conv_mat_raster_discrete] (convolution_matrix.py:110-127). *)
Definition conv_discrete (enhanced_dfs : bool) (fto_x fto_y : nat) (l : raster) :=
  let l' := enlarge enhanced_dfs fto_x fto_y l in
  three_convs (fun cx cy => dfs2d (rows l') (cols l') (eps_of l') cx cy fto_x fto_y).

(** One iteration of the loop of [to_conv_mat_vector] (convolution_matrix.py:55-65): a vector layer is the array of
    refractive indices of the rectangles between the given grid lines. *)
Definition conv_vector (fto_x fto_y : nat) (v : raster * seq R * seq R) :=
  let '(l, x_list, y_list) := v in
  three_convs (fun cx cy => cfs2d (eps_of l) x_list y_list cx cy fto_x fto_y).

(** The loops over the layers (convolution_matrix.py:55, 78, 110): one failure fails all. *)
Fixpoint conv_all (A B : Type) (f : A -> option B) (ls : seq A) : option (seq B) :=
  match ls with
  | [::] => Some [::]
  | l :: ls' => if f l is Some c then (if conv_all f ls' is Some cs then Some (c :: cs) else None) else None
  end.

End Conv.
