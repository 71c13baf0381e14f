(** Convolution matrices of whole layers. *)
From Coq Require Import Reals Lra Lia FunctionalExtensionality.
From Coquelicot Require Import Complex RInt Hierarchy.
From mathcomp Require Import all_ssreflect ssralg ssrint matrix.
From Verif Require Import Cplx Mx Spec SpecFourier ModelTM SpecSolve ModelFourier SpecLayer ProofFourier ProofConv ProofCell.

Set Implicit Arguments.
Unset Strict Implicit.
Unset Printing Implicit Defensive.
Local Open Scope ring_scope.
Import GRing.Theory.

(** ** C14: entries are Fourier coefficients *)

Lemma cfs2d_z x y pxx pyy cell fto_x fto_y : covers x pxx -> covers y pyy ->
  exists2 M, cfs2d cell x y true true fto_x fto_y = Some M &
  forall i j : 'I_(fto_y.*2.+1 * fto_x.*2.+1), exists2 g : R -> C,
    (forall tx, (0 <= tx < pxx)%coqR ->
       fourier_coef (tiles x y cell tx) pyy (order_y fto_x fto_y j - order_y fto_x fto_y i) (g tx)) &
    fourier_coef g pxx (order_x fto_x j - order_x fto_x i) (M i j).
Proof.
move=> hx hy; rewrite /cfs2d four2dE; try exact: cfs_in_range; try exact: cfs_reads.
eexists; first reflexivity.
move=> i j; have hi := flat_div (ltn_ord i); have hj := flat_div (ltn_ord j).
set fx := fto_x.*2.+1 in hi hj *.
pose v a := ent (fact_y (cfs_transform y fto_y) cell true true fto_y a) (i %/ fx) (j %/ fx).
exists (steps x v).
  move=> tx _; rewrite /steps /v /fact_y /= ent_mat // cfs_ocoef //.
  have -> : last 0%coqR y = pyy by case: hy.
  have -> : (order_y fto_x fto_y j - order_y fto_x fto_y i)%coqR = mode fto_y (j %/ fx + fto_y.*2 - i %/ fx)%N.
    by rewrite mode_swap // /order_y -/fx; ring.
  exact: (cfs_fourier fto_y (fun b => cell b (find (rlt tx) x)) _ hy).
rewrite mxE cfs_ocoef ?ltn_mod //.
have -> : last 0%coqR x = pxx by case: hx.
have -> : (order_x fto_x j - order_x fto_x i)%coqR = mode fto_x (j %% fx + fto_x.*2 - i %% fx)%N.
  by rewrite mode_swap ?ltn_mod // /order_x -/fx; ring.
exact: (cfs_fourier fto_x v _ hx).
Qed.

Lemma dfs2d_z nx ny cell fto_x fto_y : (fto_x.*2 < nx)%N -> (fto_y.*2 < ny)%N ->
  dfs2d ny nx cell true true fto_x fto_y = Some (\matrix_(i, j)
    dft nx (fun a => dft ny (fun b => cell b a) (order_y fto_x fto_y j - order_y fto_x fto_y i))
      (order_x fto_x j - order_x fto_x i)).
Proof.
move=> hx hy; rewrite /dfs2d four2dE; try exact: fft_in_range; try exact: fft_reads.
congr Some; apply/matrixP => i j; rewrite !mxE.
have hi := flat_div (ltn_ord i); have hj := flat_div (ltn_ord j).
rewrite fft_ocoef; try by apply: leq_trans hx; rewrite ltn_mod.
have -> : (order_x fto_x j - order_x fto_x i)%coqR = (INR (j %% fto_x.*2.+1) - INR (i %% fto_x.*2.+1))%coqR.
  by rewrite /order_x; ring.
congr (dft nx _ _); apply: functional_extensionality => a.
rewrite /fact_y /= ent_mat // fft_ocoef; try by apply: leq_trans hy.
by congr dft; rewrite /order_y; ring.
Qed.

(** Out-of-range indices raise: too few samples. *)
Lemma dfs2d_short nx ny cell cx cy fto_x fto_y : (0 < ny)%N -> (0 < nx)%N -> (ny <= fto_y.*2)%N ->
  dfs2d ny nx cell cx cy fto_x fto_y = None.
Proof.
move=> hy hx hs; rewrite /dfs2d /four2d; case: ifP => // _.
rewrite /batch ifF //; apply/negP => /allP /(_ 0%N); rewrite mem_iota /= => /(_ hx).
rewrite /fancy ifF //; apply/negP => /allP /(_ 0%N isT) /allP /(_ ny); rewrite mem_iota /= add0n ltnS => /(_ hs).
by rewrite add0n addn0 ltnn.
Qed.

(** ** C17 *)

Lemma herm_meeinv pinv n (A B : 'M[C]_n) : hermitian A -> meeinv pinv false A = Some B -> hermitian B.
Proof. by move=> h; rewrite /meeinv; case: ifP => // _ [<-]; exact: herm_inv. Qed.

Lemma three_lossless pinv n (f : bool -> bool -> option 'M[C]_n) c :
  (forall a b M, f a b = Some M -> hermitian M) -> three_convs pinv false f = Some c -> lossless_convs c.
Proof.
rewrite /three_convs => h.
case e1: (f true true) => [z|] //; case e2: (f true false) => [y|] //; case e3: (f false true) => [x|] //.
case e4: (meeinv _ _ _) => [zi|] // [<-]; split; [exact: h e3|exact: h e2|].
exact: herm_meeinv (h _ _ _ e1) e4.
Qed.

Lemma cfs2d_herm x y cell cx cy fto_x fto_y M : real_cell (size y) (size x) cell ->
  cfs2d cell x y cx cy fto_x fto_y = Some M -> hermitian M.
Proof.
move=> h; apply: four2d_herm h; try exact: cfs_in_range; try exact: cfs_conj; exact: cfs_reads.
Qed.

Lemma conj_symW t n m : (m <= n)%N -> conj_sym t n -> conj_sym t m.
Proof. by move=> h hs v r c hr hc; apply: hs; apply: leq_trans h. Qed.

Lemma dfs2d_herm ny nx cell cx cy fto_x fto_y M : (fto_x.*2 < nx)%N -> (fto_y.*2 < ny)%N ->
  real_cell ny nx cell -> dfs2d ny nx cell cx cy fto_x fto_y = Some M -> hermitian M.
Proof.
move=> hx hy h; apply: four2d_herm h; try exact: fft_in_range; try exact: fft_reads.
  exact: conj_symW (@fft_conj nx).
exact: conj_symW (@fft_conj ny).
Qed.

Lemma all_flip P l : all_px P l -> all_px P (flipud l).
Proof.
by move=> h i j /= hi hj; apply: h => //; rewrite subnS prednK ?subn_gt0 // leq_subr.
Qed.

Lemma sel_lt (keep : nat -> bool) n a : (a < size (filter keep (seq.iota 0 n)))%N ->
  (nth 0%N (filter keep (seq.iota 0 n)) a < n)%N.
Proof. by move=> h; have := mem_nth 0%N h; rewrite mem_filter mem_iota => /andP [_]. Qed.

Lemma all_pick_cols P l : all_px P l -> all_px P (pick_cols l).
Proof. by move=> h i j /= hi hj; apply: h => //; apply: sel_lt. Qed.
Lemma all_pick_rows P l : all_px P l -> all_px P (pick_rows l).
Proof. by move=> h i j /= hi hj; apply: h => //; apply: sel_lt. Qed.

Lemma real_eps l : all_px real_index l -> real_cell (rows l) (cols l) (eps_of l).
Proof. by move=> h b a hb ha; rewrite /eps_of rmorphX /= h. Qed.

Lemma continuous_lossless pinv fto_x fto_y l c : all_px real_index l ->
  conv_continuous pinv false fto_x fto_y l = Some c -> lossless_convs c.
Proof.
move=> h; apply: three_lossless => a b M; apply: cfs2d_herm; rewrite /ends !size_map.
have hp := all_pick_rows (all_pick_cols (all_flip h)).
exact: real_eps hp.
Qed.

Lemma vector_lossless pinv fto_x fto_y l x y c : rows l = size y -> cols l = size x -> all_px real_index l ->
  conv_vector pinv false fto_x fto_y (l, x, y) = Some c -> lossless_convs c.
Proof.
move=> h1 h2 h; apply: three_lossless => a b M; apply: cfs2d_herm.
by rewrite -h1 -h2; apply: real_eps.
Qed.

(** ** C19: enlargement *)

Lemma mul_div_ge a b : (0 < a)%N -> (b < a * (b %/ a).+1)%N.
Proof. by move=> h; rewrite mulnC ltn_ceil. Qed.

Lemma enlarge_size e fto_x fto_y l : (0 < rows l)%N -> (0 < cols l)%N ->
  (fto_y.*2.*2.+1 <= rows (enlarge e fto_x fto_y l))%N /\ (fto_x.*2.*2.+1 <= cols (enlarge e fto_x fto_y l))%N.
Proof.
move=> hr hc; rewrite /enlarge.
set my := if e then _ else fto_y.*2.*2.+1; set mx := if e then _ else fto_x.*2.*2.+1.
have hmy : (fto_y.*2.*2.+1 <= my)%N by rewrite /my; case: e {my mx} => //; rewrite leq_pmulr.
have hmx : (fto_x.*2.*2.+1 <= mx)%N by rewrite /mx; case: e {my mx hmy} => //; rewrite leq_pmulr.
set l1 := if (rows l < my)%N then _ else _.
have r1 : (my <= rows l1)%N.
  by rewrite /l1; case: (leqP my (rows l)) => h //=; apply: ltnW; apply: mul_div_ge.
have c1 : cols l1 = cols l by rewrite /l1; case: ifP.
case: (leqP mx (cols l1)) => h /=.
  by split; [exact: leq_trans hmy r1 | exact: leq_trans hmx h].
split; first exact: leq_trans hmy r1.
by apply: leq_trans hmx _; apply: ltnW; apply: mul_div_ge; rewrite c1.
Qed.

Lemma dbl_lt fto n : (fto.*2.*2.+1 <= n)%N -> (fto.*2 < n)%N.
Proof. by apply: leq_trans; rewrite ltnS leq_double -addnn leq_addr. Qed.

(** Every pixel of the enlarged layer is a copy of the original pixel at the same relative position. *)
Lemma enlarge_px e fto_x fto_y l : exists ry rx : nat,
  [/\ (0 < ry)%N, (0 < rx)%N, rows (enlarge e fto_x fto_y l) = (rows l * ry)%N,
      cols (enlarge e fto_x fto_y l) = (cols l * rx)%N
    & forall i j, px (enlarge e fto_x fto_y l) i j = px l (i %/ ry)%N (j %/ rx)%N].
Proof.
rewrite /enlarge; set my := if e then _ else _; set mx := if e then _ else _.
set l1 := if (rows l < my)%N then _ else _.
have [ry [h1 h2 h3 h4]] : exists ry : nat, [/\ (0 < ry)%N, rows l1 = (rows l * ry)%N, cols l1 = cols l
  & forall i j, px l1 i j = px l (i %/ ry)%N j].
  rewrite /l1; case: (rows l < my)%N; first by exists (my %/ rows l).+1; split.
  by exists 1%N; split; rewrite ?muln1 // => i j; rewrite divn1.
case: (cols l1 < mx)%N.
  exists ry, (mx %/ cols l1).+1; split=> //=; by rewrite h3.
by exists ry, 1%N; split; rewrite ?muln1 //; move=> i j; rewrite h4 divn1.
Qed.

Lemma all_enlarge P e fto_x fto_y l : all_px P l -> all_px P (enlarge e fto_x fto_y l).
Proof.
have [ry [rx [h1 h2 h3 h4 h5]]] := enlarge_px e fto_x fto_y l.
move=> h i j; rewrite h3 h4 h5 => hi hj; apply: h; first by rewrite ltn_divLR.
by rewrite ltn_divLR.
Qed.

Lemma discrete_lossless pinv e fto_x fto_y l c : (0 < rows l)%N -> (0 < cols l)%N -> all_px real_index l ->
  conv_discrete pinv false e fto_x fto_y l = Some c -> lossless_convs c.
Proof.
move=> hr hc h; have [h1 h2] := enlarge_size e fto_x fto_y hr hc.
apply: three_lossless => a b M; apply: dfs2d_herm; try exact: dbl_lt.
by apply: real_eps; apply: all_enlarge.
Qed.

(** ** C18 *)

Lemma three_uniform pinv n (f : bool -> bool -> option 'M[C]_n) e : e != 0 ->
  (forall a b, a || b -> f a b = Some e%:M) -> three_convs pinv false f = Some (uniform_convs n e).
Proof.
move=> he h; rewrite /three_convs !h // /meeinv.
have -> : (e%:M : 'M[C]_n) \in unitmx by rewrite -scalemx1 unitmxZ ?unitmx1 // unitfE.
by rewrite invmx_scalar.
Qed.

Lemma continuous_uniform pinv fto_x fto_y l n : (0 < rows l)%N -> (0 < cols l)%N -> n != 0 ->
  all_px (fun z => z = n) l -> conv_continuous pinv false fto_x fto_y l = Some (uniform_convs _ (n ^+ 2)).
Proof.
move=> hr hc hn h; rewrite /conv_continuous.
have hl : all_px (fun z => z = n) (cell_compression l).1.1.
  by apply: all_pick_rows; apply: all_pick_cols; apply: all_flip.
move: (compression_ok hr hc) hl; rewrite /=.
set x := ends _ _; set y := ends _ _ => -[cx cy _ _] hl.
apply: three_uniform => [|a b hab]; first by rewrite expf_neq0.
apply: four2d_uniform => //; try exact: cfs_in_range; try exact: cfs_reads; try (by rewrite expf_neq0).
- by apply: cfs_unital; case: cx => _ ->; lra.
- by apply: cfs_unital; case: cy => _ ->; lra.
by move=> i j hi hj; rewrite /eps_of hl //; [move: hi | move: hj]; rewrite /= /ends size_map.
Qed.

Lemma discrete_uniform pinv e fto_x fto_y l n : (0 < rows l)%N -> (0 < cols l)%N -> n != 0 ->
  all_px (fun z => z = n) l -> conv_discrete pinv false e fto_x fto_y l = Some (uniform_convs _ (n ^+ 2)).
Proof.
move=> hr hc hn h; have [h1 h2] := enlarge_size e fto_x fto_y hr hc.
have hl := all_enlarge (e := e) (fto_x := fto_x) (fto_y := fto_y) h.
apply: three_uniform => [|a b hab]; first by rewrite expf_neq0.
apply: four2d_uniform => //; try (by apply: fft_in_range; apply: dbl_lt); try exact: fft_reads; try (by rewrite expf_neq0).
- by apply: fft_unital; apply: dbl_lt.
- by apply: fft_unital; apply: dbl_lt.
by move=> i j hi hj; rewrite /eps_of hl.
Qed.

(** ** Layers that do not vary along y *)

Lemma four2d_line tx ty ny nx cell fto_x fto_y M :
  in_range tx fto_x.*2.+1 -> in_range ty fto_y.*2.+1 -> unital ty fto_y.*2.+1 -> reads tx nx -> reads ty ny ->
  (0 < ny)%N -> (forall b a, (b < ny)%N -> (a < nx)%N -> cell b a = cell 0%N a) ->
  four2d tx ty nx ny cell true false fto_x fto_y = Some M -> four2d tx ty nx ny cell true true fto_x fto_y = Some M.
Proof.
move=> ix iy uy rx ry hny hcell; rewrite !four2dE //=.
case: ifP => // /negbT /hasPn hz; case: ifP => // _ [<-]; congr Some.
have ty_a cy a : (a < nx)%N -> toep_y ty cell cy fto_y a = (if cy then cell 0%N a else (cell 0%N a)^-1)%:M.
  move=> ha; apply/matrixP => i j; rewrite !mxE.
  have -> : ocoef ty (fun b => if cy then cell b a else (cell b a)^-1) i j
    = ocoef ty (fun _ => if cy then cell 0%N a else (cell 0%N a)^-1) i j.
    by apply: reads_ocoef ry _ => b hb; rewrite hcell.
  rewrite uy // -[(i == j) in RHS]/(val i == val j).
  by case: (val i == val j); rewrite ?mulr1n ?mulr0n.
apply: mat_ext => i j hi hj; apply: reads_ocoef rx _ => a ha; rewrite /fact_y /= !ty_a //.
by rewrite invmx_scalar invrK.
Qed.

Lemma three_line pinv n (f : bool -> bool -> option 'M[C]_n) c :
  (forall M, f true false = Some M -> f true true = Some M) -> three_convs pinv false f = Some c -> line_convs c.
Proof.
rewrite /three_convs => h.
case e1: (f true true) => [z|] //; case e2: (f true false) => [y|] //; case e3: (f false true) => [x|] //.
move: (h _ e2); rewrite e1 => -[ezy]; rewrite /meeinv; case: ifP => // u [<-].
by rewrite /line_convs -ezy mulVmx.
Qed.

Lemma y_inv_flip l : y_invariant l -> y_invariant (flipud l).
Proof.
move=> h i j /= hi hj; have r0 : (0 < rows l)%N by apply: leq_ltn_trans hi.
by rewrite [LHS]h ?[RHS]h //; rewrite subnS prednK ?subn_gt0 // leq_subr.
Qed.
Lemma y_inv_cols l : y_invariant l -> y_invariant (pick_cols l).
Proof. by move=> h i j /= hi hj; apply: h => //; apply: sel_lt. Qed.
Lemma y_inv_rows l : y_invariant l -> y_invariant (pick_rows l).
Proof.
move=> h i j /= hi hj; rewrite [LHS]h ?[RHS]h //; apply: sel_lt => //; exact: leq_ltn_trans hi.
Qed.
Lemma y_inv_enlarge e fto_x fto_y l : y_invariant l -> y_invariant (enlarge e fto_x fto_y l).
Proof.
have [ry [rx [h1 h2 h3 h4 h5]]] := enlarge_px e fto_x fto_y l.
move=> h i j; rewrite h3 h4 !h5 div0n => hi hj; apply: h; first by rewrite ltn_divLR.
by rewrite ltn_divLR.
Qed.

Lemma continuous_line pinv fto_x fto_y l c : (0 < rows l)%N -> (0 < cols l)%N -> y_invariant l ->
  conv_continuous pinv false fto_x fto_y l = Some c -> line_convs c.
Proof.
move=> hr hc h; rewrite /conv_continuous.
have hl := y_inv_rows (y_inv_cols (y_inv_flip h)).
move: (compression_ok hr hc) hl; rewrite /=.
set x := ends _ _; set y := ends _ _ => -[cx cy _ _] hl.
have hy0 : (0 < size y)%N by case: (y) cy => // -[_ /=]; lra.
apply: three_line => M; apply: four2d_line => //; try exact: cfs_in_range; try exact: cfs_reads.
  by apply: cfs_unital; case: cy => _ ->; lra.
move=> b a hb ha; rewrite /eps_of hl //; [move: hb | move: ha]; by rewrite /= /ends size_map.
Qed.

Lemma discrete_line pinv e fto_x fto_y l c : (0 < rows l)%N -> (0 < cols l)%N -> y_invariant l ->
  conv_discrete pinv false e fto_x fto_y l = Some c -> line_convs c.
Proof.
move=> hr hc h; have [h1 h2] := enlarge_size e fto_x fto_y hr hc.
have hl := y_inv_enlarge (e := e) (fto_x := fto_x) (fto_y := fto_y) h.
apply: three_line => M; apply: four2d_line => //; try (by apply: fft_in_range; apply: dbl_lt); try exact: fft_reads.
- by apply: fft_unital; apply: dbl_lt.
- exact: leq_trans h1.
by move=> b a hb ha; rewrite /eps_of hl.
Qed.

(** ** C16: replicating pixels *)

Lemma pixel_div n r t j j' : (0 < n)%N -> (0 < r)%N ->
  (forall k, rlt t (1 / INR n * (INR k + 1)) = (j <= k)%N) ->
  (forall k, rlt t (1 / INR (n * r) * (INR k + 1)) = (j' <= k)%N) -> j = (j' %/ r)%N.
Proof.
move=> hn hr h h'.
have n0 : (0 < INR n)%coqR by apply: lt_0_INR; apply/leP.
have r0 : (0 < INR r)%coqR by apply: lt_0_INR; apply/leP.
have e k : (j <= k)%N = (j' %/ r <= k)%N.
  rewrite -h -ltnS ltn_divLR // -[(k.+1 * r)%N]prednK ?muln_gt0 // ltnS -h'; congr (rlt t _).
  rewrite -(S_INR (k.+1 * r).-1) prednK ?muln_gt0 // -!multE !mult_INR S_INR; field; lra.
by apply/eqP; rewrite eqn_leq e leqnn -e leqnn.
Qed.

Lemma replicate_picture l ry rx tx ty : (0 < rows l)%N -> (0 < cols l)%N -> (0 < ry)%N -> (0 < rx)%N ->
  (0 <= tx < 1)%coqR -> (0 <= ty < 1)%coqR ->
  picture (rows (replicate l ry rx)) (cols (replicate l ry rx)) (eps_of (replicate l ry rx)) tx ty
  = picture (rows l) (cols l) (eps_of l) tx ty.
Proof.
move=> hr hc hry hrx htx hty; rewrite /picture /tiles !pixelsE //= ?muln_gt0 ?hr ?hc //.
have hr' : (0 < rows l * ry)%N by rewrite muln_gt0 hr.
have hc' : (0 < cols l * rx)%N by rewrite muln_gt0 hc.
have [i hi fi] := pixel hr hty; have [j hj fj] := pixel hc htx.
have [i' hi' fi'] := pixel hr' hty; have [j' hj' fj'] := pixel hc' htx.
rewrite (find_ends _ fi) (find_ends _ fj) (find_ends _ fi') (find_ends _ fj') !find_iota // /eps_of /=.
have ei := pixel_div hr hry fi fi'; have ej := pixel_div hc hrx fj fj'.
congr (px l _ _ ^+ 2); last by rewrite ej.
have lo : (i * ry <= i')%N by rewrite ei leq_trunc_div.
have hiq : (i' < i.+1 * ry)%N by rewrite ei ltn_ceil.
have -> : (rows l * ry - i'.+1 = (rows l - i.+1) * ry + (i.+1 * ry - i'.+1))%N.
  by rewrite mulnBl addnBA // subnK // leq_mul2r hi orbT.
rewrite divnMDl // divn_small ?addn0 //.
rewrite ltn_subLR // mulSn addnC.
by rewrite addSn ltnS leq_add2r.
Qed.
