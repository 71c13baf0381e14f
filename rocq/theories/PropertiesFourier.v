(** Properties of the Fourier analysis of the unit cell (NumPy backend). *)
From Coq Require Import Reals Lra.
From Coquelicot Require Import Complex Lim_seq.
From mathcomp Require Import all_ssreflect ssralg ssrint matrix.
From Verif Require Import Cplx Spec SpecFourier ModelTM SpecSolve ModelFourier SpecLayer ProofFourier ProofConv ProofCell
  ProofLayer ProofRules ProofInvert ProofDFS.

Set Implicit Arguments.
Unset Strict Implicit.
Unset Printing Implicit Defensive.
Local Open Scope ring_scope.
Import GRing.Theory.

(** The layers used in the examples: an asymmetric 3 x 2 pattern with a metal-like corner, the same with real indices,
    and one line of three pixels. *)
Definition lossy : raster := Raster 3 2 (fun i j => if (i == 0%N) && (j == 1%N) then (3, -1)%coqR : C else RtoC 1).
Definition glass : raster := Raster 3 2 (fun i j => if (i == 0%N) && (j == 1%N) then RtoC 3 else RtoC 1).
Definition line : raster := Raster 1 3 (fun i j => if j == 0%N then RtoC 3 else RtoC 1).

Lemma unit1 : nrm2 1 = 1%coqR.
Proof. by rewrite /nrm2 /Re /Im /=; ring. Qed.
Lemma re_sq (z : C) : Re (1 * z ^+ 2)%R = (Re z * Re z - Im z * Im z)%coqR.
Proof. by rewrite mul1r expr2 ReM. Qed.
Lemma lossy_ok : all_px (fun n => 0 < Re (1 * n ^+ 2)%R)%coqR lossy.
Proof. by move=> i j _ _; rewrite re_sq /=; case: ifP => _; rewrite /Re /Im /=; lra. Qed.
Lemma glass_ok : all_px (fun n => 0 < Re (1 * n ^+ 2)%R)%coqR glass.
Proof. by move=> i j _ _; rewrite re_sq /=; case: ifP => _; rewrite /Re /Im /=; lra. Qed.
Lemma glass_real : all_px real_index glass.
Proof. by move=> i j _ _ /=; case: ifP => _; exact: conjR. Qed.
Lemma line_ok : all_px (fun n => 0 < Re (1 * n ^+ 2)%R)%coqR line.
Proof. by move=> i j _ _; rewrite re_sq /=; case: ifP => _; rewrite /Re /Im /=; lra. Qed.
Lemma line_real : all_px real_index line.
Proof. by move=> i j _ _ /=; case: ifP => _; exact: conjR. Qed.

(** ** C14 *)
Theorem C14_continuous pinv fto_x fto_y l ex ey ezi : (0 < rows l)%N -> (0 < cols l)%N ->
  conv_continuous pinv false fto_x fto_y l = Some (ex, ey, ezi) ->
  let f := picture (rows l) (cols l) (eps_of l) in
  [/\ exists2 Z, z_rule f Z & Z \in unitmx /\ ezi = invmx Z, y_rule f ey & x_rule f ex].
Proof. exact (@continuous_rules pinv fto_x fto_y l ex ey ezi). Qed.
Print Assumptions C14_continuous.

Theorem C14_vector pinv fto_x fto_y l x y ex ey ezi : covers x 1 -> covers y 1 ->
  conv_vector pinv false fto_x fto_y (l, x, y) = Some (ex, ey, ezi) ->
  let f := tiles x y (eps_of l) in
  [/\ exists2 Z, z_rule f Z & Z \in unitmx /\ ezi = invmx Z, y_rule f ey & x_rule f ex].
Proof. exact (@vector_rules pinv fto_x fto_y l x y ex ey ezi). Qed.
Print Assumptions C14_vector.

Theorem C14_discrete pinv e fto_x fto_y l ex ey ezi : (0 < rows l)%N -> (0 < cols l)%N ->
  conv_discrete pinv false e fto_x fto_y l = Some (ex, ey, ezi) ->
  let l' := enlarge e fto_x fto_y l in let f a b := eps_of l' b a in
  [/\ exists2 Z, z_rule_d (cols l') (rows l') f Z & Z \in unitmx /\ ezi = invmx Z,
      y_rule_d (cols l') (rows l') f ey & x_rule_d (cols l') (rows l') f ex].
Proof. exact (@discrete_rules pinv e fto_x fto_y l ex ey ezi). Qed.
Print Assumptions C14_discrete.

(** No index falls outside the arrays: with positive sizes every call is defined (see C48), and the indices themselves: *)
Theorem C14_in_range n fto r c : (fto.*2 < n)%N -> (r < fto.*2.+1)%N -> (c < fto.*2.+1)%N ->
  isSome (pyidx n (circulant r c + 0)) /\ isSome (pyidx fto.*2.*2.+1 (circulant r c + fto.*2%:Z)).
Proof.
move=> h hr hc; split; first exact: (fft_in_range h).
exact: (@cfs_in_range [::] fto).
Qed.
Print Assumptions C14_in_range.

Example C14_ex pinv fto_x fto_y e : exists ex ey ez ex' ey' ez',
  conv_continuous pinv false fto_x fto_y lossy = Some (ex, ey, ez) /\
  conv_discrete pinv false e fto_x fto_y lossy = Some (ex', ey', ez').
Proof.
have [ex [ey [ez [h _ _ _]]]] := @continuous_defined pinv fto_x fto_y lossy 1 isT isT unit1 lossy_ok.
have [ex' [ey' [ez' [h' _ _ _]]]] := @discrete_defined pinv e fto_x fto_y lossy 1 isT isT unit1 lossy_ok.
by exists ex, ey, (invmx ez), ex', ey', (invmx ez').
Qed.
Example C14_range_ex : pyidx 5 (circulant 4 1 + 0) = Some 2%N. Proof. by []. Qed.

(** ** C15 *)
Theorem C15_exact x period fto v k : covers x period ->
  fourier_coef (steps x v) period (mode fto k) (cfs x period fto v k).
Proof. exact (@cfs_fourier x period fto v k). Qed.
Print Assumptions C15_exact.

Example C15_ex : covers [:: 1 / 4; 1 / 2; 2]%coqR 2.
Proof. by split=> //=; lra. Qed.

(** ** C16 *)
Theorem C16_picture pinv use_pinv fto_x fto_y l l' :
  (0 < rows l)%N -> (0 < cols l)%N -> (0 < rows l')%N -> (0 < cols l')%N -> same_picture l l' ->
  conv_continuous pinv use_pinv fto_x fto_y l = conv_continuous pinv use_pinv fto_x fto_y l'.
Proof. exact (@continuous_picture pinv use_pinv fto_x fto_y l l'). Qed.
Print Assumptions C16_picture.

Theorem C16_compression pinv use_pinv fto_x fto_y l : (0 < rows l)%N -> (0 < cols l)%N ->
  conv_continuous pinv use_pinv fto_x fto_y l =
  three_convs pinv use_pinv (fun cx cy =>
    cfs2d (eps_of (flipud l)) (pixels (cols l)) (pixels (rows l)) cx cy fto_x fto_y).
Proof. exact (@continuous_uncompressed pinv use_pinv fto_x fto_y l). Qed.
Print Assumptions C16_compression.

Theorem C16_replication pinv use_pinv fto_x fto_y l ry rx :
  (0 < rows l)%N -> (0 < cols l)%N -> (0 < ry)%N -> (0 < rx)%N ->
  conv_continuous pinv use_pinv fto_x fto_y (replicate l ry rx) = conv_continuous pinv use_pinv fto_x fto_y l.
Proof.
move=> hr hc hry hrx; apply: continuous_picture => //=; try by rewrite muln_gt0 ?hr ?hc.
by move=> tx ty h1 h2; exact: replicate_picture.
Qed.
Print Assumptions C16_replication.

(** The compression really merges: the three equal rows and the equal columns of this 3 x 4 layer. *)
Example C16_ex : let l := Raster 3 4 (fun _ j => if (j < 2)%N then RtoC 3 else RtoC 1) in
  rows (cell_compression l).1.1 = 1%N /\ cols (cell_compression l).1.1 = 2%N.
Proof.
have d : (RtoC 3 == RtoC 1) = false by apply/eqP => -[]; lra.
have d' : (RtoC 1 == RtoC 3) = false by rewrite eq_sym.
rewrite /= /sel_rows /sel_cols /keep_row /keep_col /= /sel_cols /keep_col /= !eqxx !d !d' /=.
by rewrite !eqxx ?d ?d' /=.
Qed.

(** ** C17 *)
Theorem C17_continuous pinv fto_x fto_y l c : all_px real_index l ->
  conv_continuous pinv false fto_x fto_y l = Some c -> lossless_convs c.
Proof. exact (@continuous_lossless pinv fto_x fto_y l c). Qed.
Print Assumptions C17_continuous.

Theorem C17_vector pinv fto_x fto_y l x y c : rows l = size y -> cols l = size x -> all_px real_index l ->
  conv_vector pinv false fto_x fto_y (l, x, y) = Some c -> lossless_convs c.
Proof. exact (@vector_lossless pinv fto_x fto_y l x y c). Qed.
Print Assumptions C17_vector.

Theorem C17_discrete pinv e fto_x fto_y l c : (0 < rows l)%N -> (0 < cols l)%N -> all_px real_index l ->
  conv_discrete pinv false e fto_x fto_y l = Some c -> lossless_convs c.
Proof. exact (@discrete_lossless pinv e fto_x fto_y l c). Qed.
Print Assumptions C17_discrete.

(** Layers whose rows are all equal also meet the premise of the conical energy theorem. *)
Theorem C17_line_continuous pinv fto_x fto_y l c : (0 < rows l)%N -> (0 < cols l)%N -> y_invariant l ->
  conv_continuous pinv false fto_x fto_y l = Some c -> line_convs c.
Proof. exact (@continuous_line pinv fto_x fto_y l c). Qed.
Print Assumptions C17_line_continuous.
Theorem C17_line_discrete pinv e fto_x fto_y l c : (0 < rows l)%N -> (0 < cols l)%N -> y_invariant l ->
  conv_discrete pinv false e fto_x fto_y l = Some c -> line_convs c.
Proof. exact (@discrete_line pinv e fto_x fto_y l c). Qed.
Print Assumptions C17_line_discrete.

Example C17_ex pinv fto_x fto_y e : exists c c' d d',
  [/\ conv_continuous pinv false fto_x fto_y glass = Some c, lossless_convs c,
      conv_discrete pinv false e fto_x fto_y glass = Some c' & lossless_convs c'] /\
  [/\ conv_continuous pinv false fto_x fto_y line = Some d, lossless_convs d /\ line_convs d,
      conv_discrete pinv false e fto_x fto_y line = Some d' & lossless_convs d' /\ line_convs d'].
Proof.
have [ex [ey [ez [h _ _ _]]]] := @continuous_defined pinv fto_x fto_y glass 1 isT isT unit1 glass_ok.
have [ex' [ey' [ez' [h' _ _ _]]]] := @discrete_defined pinv e fto_x fto_y glass 1 isT isT unit1 glass_ok.
have [fx [fy [fz [k _ _ _]]]] := @continuous_defined pinv fto_x fto_y line 1 isT isT unit1 line_ok.
have [fx' [fy' [fz' [k' _ _ _]]]] := @discrete_defined pinv e fto_x fto_y line 1 isT isT unit1 line_ok.
exists (ex, ey, invmx ez), (ex', ey', invmx ez'), (fx, fy, invmx fz), (fx', fy', invmx fz').
have yi : y_invariant line by case.
split; split=> //; try exact: C17_continuous glass_real h; try exact: C17_discrete glass_real h'.
  by split; [exact: C17_continuous line_real k | exact: C17_line_continuous yi k].
by split; [exact: C17_discrete line_real k' | exact: C17_line_discrete yi k'].
Qed.

(** ** C18 *)
Theorem C18_continuous pinv fto_x fto_y l n : (0 < rows l)%N -> (0 < cols l)%N -> n != 0 ->
  all_px (fun z => z = n) l -> conv_continuous pinv false fto_x fto_y l = Some (uniform_convs _ (n ^+ 2)).
Proof. exact (@continuous_uniform pinv fto_x fto_y l n). Qed.
Print Assumptions C18_continuous.
Theorem C18_discrete pinv e fto_x fto_y l n : (0 < rows l)%N -> (0 < cols l)%N -> n != 0 ->
  all_px (fun z => z = n) l -> conv_discrete pinv false e fto_x fto_y l = Some (uniform_convs _ (n ^+ 2)).
Proof. exact (@discrete_uniform pinv e fto_x fto_y l n). Qed.
Print Assumptions C18_discrete.
Example C18_ex : (2, -3)%coqR != 0 :> C /\ all_px (fun z => z = (2, -3)%coqR) (Raster 3 2 (fun _ _ => (2, -3)%coqR)).
Proof. by split=> //; apply/eqP => -[]; lra. Qed.

(** ** C19 *)
Theorem C19_size e fto_x fto_y l : (0 < rows l)%N -> (0 < cols l)%N ->
  (fto_y.*2.*2.+1 <= rows (enlarge e fto_x fto_y l))%N /\ (fto_x.*2.*2.+1 <= cols (enlarge e fto_x fto_y l))%N.
Proof. exact (@enlarge_size e fto_x fto_y l). Qed.
Print Assumptions C19_size.
Theorem C19_pattern e fto_x fto_y l : exists ry rx : nat,
  [/\ (0 < ry)%N, (0 < rx)%N, rows (enlarge e fto_x fto_y l) = (rows l * ry)%N,
      cols (enlarge e fto_x fto_y l) = (cols l * rx)%N
    & forall i j, px (enlarge e fto_x fto_y l) i j = px l (i %/ ry)%N (j %/ rx)%N].
Proof. exact (@enlarge_px e fto_x fto_y l). Qed.
Print Assumptions C19_pattern.
Theorem C19_distinct n fto r c r' c' i : (fto.*2.*2 < n)%N ->
  (r < fto.*2.+1)%N -> (c < fto.*2.+1)%N -> (r' < fto.*2.+1)%N -> (c' < fto.*2.+1)%N ->
  pyidx n (circulant r c + 0) = Some i -> pyidx n (circulant r' c' + 0) = Some i ->
  (INR c - INR r = INR c' - INR r')%coqR.
Proof. exact (@no_alias n fto r c r' c' i). Qed.
Print Assumptions C19_distinct.
(** One pixel less and two orders share a coefficient: order +2 and order -2 of fto = 1 in 4 samples. *)
Example C19_ex : pyidx 5 (circulant 0 2 + 0) = Some 2%N /\ pyidx 5 (circulant 2 0 + 0) = Some 3%N /\
  pyidx 4 (circulant 0 2 + 0) = Some 2%N /\ pyidx 4 (circulant 2 0 + 0) = Some 2%N.
Proof. by []. Qed.
Example C19_size_ex : rows (enlarge true 3 2 glass) = 30%N /\ cols (enlarge true 3 2 glass) = 28%N.
Proof. by []. Qed.

(** ** C20 *)
Theorem C20_exact n r v m c : (0 < n)%N -> (0 < r)%N -> intr m -> (Rabs m < INR (n * r))%coqR ->
  fourier_coef (steps (pixels n) v) 1 m c ->
  dft (n * r) (fun j => v (j %/ r)%N) m = sampling (PI * m / INR (n * r)) * c.
Proof. exact (@dft_line n r v m c). Qed.
Print Assumptions C20_exact.

Theorem C20_limit n v m c : (0 < n)%N -> intr m -> fourier_coef (steps (pixels n) v) 1 m c ->
  climit (fun r => dft (n * r.+1) (fun j => v (j %/ r.+1)%N) m) c.
Proof. exact (@line_limit n v m c). Qed.
Print Assumptions C20_limit.

Example C20_ex : exists c, fourier_coef (steps (pixels 3) (fun j => if j == 0%N then RtoC 9 else 1)) 1 2 c.
Proof.
have h : intr 2 by exists 2%N, 0%N; rewrite /=; ring.
eexists; exact: (line_coef (n := 3) _ isT h).
Qed.

(** ** C21: false of the code.  The continuous method puts row 0 on top, the discrete one at the bottom. *)
Theorem C21_orientation_refuted : ~ (forall l fto_x fto_y D Z, (0 < rows l)%N -> (0 < cols l)%N ->
  (forall q, epz_samples fto_x fto_y (replicate l (q + fto_y.*2).+1 (q + fto_x.*2).+1) = Some (D q)) ->
  epz_continuous fto_x fto_y l = Some Z ->
  forall i j : 'I_(fto_y.*2.+1 * fto_x.*2.+1), climit (fun q => D q i j) (Z i j)).
Proof. exact orientation_differs. Qed.
Print Assumptions C21_orientation_refuted.

(** What holds instead: the discrete matrices of a layer tend to the continuous ones of the layer upside down. *)
Theorem C21_mirrored fto_x fto_y l : (0 < rows l)%N -> (0 < cols l)%N ->
  exists D Z, [/\ forall q, epz_samples fto_x fto_y (replicate l (q + fto_y.*2).+1 (q + fto_x.*2).+1) = Some (D q),
    epz_continuous fto_x fto_y (flipud l) = Some Z &
    forall i j : 'I_(fto_y.*2.+1 * fto_x.*2.+1), climit (fun q => D q i j) (Z i j)].
Proof. exact (@samples_limit fto_x fto_y l). Qed.
Print Assumptions C21_mirrored.

(** The exact ratio at any finite number of samples. *)
Theorem C21_mirrored_exact fto_x fto_y l ry rx :
  (0 < rows l)%N -> (0 < cols l)%N -> (fto_y.*2 < rows l * ry)%N -> (fto_x.*2 < cols l * rx)%N ->
  exists D Z, [/\ epz_samples fto_x fto_y (replicate l ry rx) = Some D,
    epz_continuous fto_x fto_y (flipud l) = Some Z &
    forall i j : 'I_(fto_y.*2.+1 * fto_x.*2.+1),
      D i j = sampling (PI * (order_y fto_x fto_y j - order_y fto_x fto_y i) / INR (rows l * ry))
            * sampling (PI * (order_x fto_x j - order_x fto_x i) / INR (cols l * rx)) * Z i j].
Proof. exact (@samples_law fto_x fto_y l ry rx). Qed.
Print Assumptions C21_mirrored_exact.
Example C21_ex : (0 < rows lossy)%N /\ (1.*2 < rows lossy * 2)%N. Proof. by []. Qed.

(** ** C48 *)
Theorem C48_continuous pinv fto_x fto_y l u : (0 < rows l)%N -> (0 < cols l)%N -> nrm2 u = 1%coqR ->
  all_px (fun n => 0 < Re (u * n ^+ 2)%R)%coqR l ->
  exists ex ey ez, [/\ conv_continuous pinv false fto_x fto_y l = Some (ex, ey, invmx ez),
    definite u ex, definite u ey & definite u ez].
Proof.
move=> hr hc hu h; have [ex [ey [ez [e h1 h2 h3]]]] := @continuous_defined pinv fto_x fto_y l u hr hc hu h.
by exists ex, ey, ez; split=> //; exact: coercive_definite.
Qed.
Print Assumptions C48_continuous.
Theorem C48_vector pinv fto_x fto_y l x y pxx pyy u : covers x pxx -> covers y pyy ->
  rows l = size y -> cols l = size x -> nrm2 u = 1%coqR -> all_px (fun n => 0 < Re (u * n ^+ 2)%R)%coqR l ->
  exists ex ey ez, [/\ conv_vector pinv false fto_x fto_y (l, x, y) = Some (ex, ey, invmx ez),
    definite u ex, definite u ey & definite u ez].
Proof.
move=> cx cy hr hc hu h; have [ex [ey [ez [e h1 h2 h3]]]] := @vector_defined pinv fto_x fto_y l x y pxx pyy u cx cy hr hc hu h.
by exists ex, ey, ez; split=> //; exact: coercive_definite.
Qed.
Print Assumptions C48_vector.
Theorem C48_discrete pinv e fto_x fto_y l u : (0 < rows l)%N -> (0 < cols l)%N -> nrm2 u = 1%coqR ->
  all_px (fun n => 0 < Re (u * n ^+ 2)%R)%coqR l ->
  exists ex ey ez, [/\ conv_discrete pinv false e fto_x fto_y l = Some (ex, ey, invmx ez),
    definite u ex, definite u ey & definite u ez].
Proof.
move=> hr hc hu h; have [ex [ey [ez [e1 h1 h2 h3]]]] := @discrete_defined pinv e fto_x fto_y l u hr hc hu h.
by exists ex, ey, ez; split=> //; exact: coercive_definite.
Qed.
Print Assumptions C48_discrete.
Example C48_ex : nrm2 1 = 1%coqR /\ all_px (fun n => 0 < Re (1 * n ^+ 2)%R)%coqR lossy.
Proof. by split; [exact: unit1 | exact: lossy_ok]. Qed.
(** A rotated half plane: silver (n = 0.05 - 3i) and glass of slight loss (1.5 - 0.1i) with u = i. *)
Example C48_metal_ex : nrm2 ci = 1%coqR /\
  (0 < Re (ci * ((/ 20, -3)%coqR : C) ^+ 2)%R)%coqR /\ (0 < Re (ci * ((3 / 2, - / 10)%coqR : C) ^+ 2)%R)%coqR.
Proof.
split; first by rewrite /nrm2 /ci /Ci /Re /Im /=; ring.
by rewrite !expr2 /ci /Ci /Re; cbn; split; lra.
Qed.
