(** Raster unit cells: compression, refinement, enlargement. *)
From Coq Require Import Reals Lra Lia FunctionalExtensionality ZArith.
From mathcomp Require Import all_ssreflect ssralg ssrint matrix.
From Coquelicot Require Import Complex RInt RInt_analysis Hierarchy.
From Verif Require Import Cplx Mx Spec SpecFourier ModelTM ModelFourier ProofFourier ProofConv.

Set Implicit Arguments.
Unset Strict Implicit.
Unset Printing Implicit Defensive.
Local Open Scope ring_scope.
Import GRing.Theory.

(** ** CFS depends on the step function only *)

Lemma cint_unique f a b u v : cintegral f a b u -> cintegral f a b v -> u = v.
Proof.
move=> [h1 h2] [h3 h4]; apply: Cext.
  by rewrite -(is_RInt_unique _ _ _ _ h1) -(is_RInt_unique _ _ _ _ h3).
by rewrite -(is_RInt_unique _ _ _ _ h2) -(is_RInt_unique _ _ _ _ h4).
Qed.

Lemma fourier_coef_unique f g p m u v : (0 < p)%coqR -> (forall t, (0 <= t < p)%coqR -> f t = g t) ->
  fourier_coef f p m u -> fourier_coef g p m v -> u = v.
Proof.
move=> hp h hu hv.
have e : RtoC p * u = RtoC p * v.
  apply: cint_unique hv; apply: cint_ext hu => t; rewrite Rmin_left ?Rmax_right; try lra.
  by move=> ht; rewrite h //; lra.
by apply: mulfI e; apply: RtoC_neq0; lra.
Qed.

Lemma cfs_steps_eq x x' p fto v v' k : covers x p -> covers x' p ->
  (forall t, (0 <= t < p)%coqR -> steps x v t = steps x' v' t) -> cfs x p fto v k = cfs x' p fto v' k.
Proof.
move=> h h' e; have hp : (0 < p)%coqR by case: h.
exact: fourier_coef_unique hp e (cfs_fourier fto v k h) (cfs_fourier fto v' k h').
Qed.

(** Strictly increasing right ends: every piece is visited. *)
Fixpoint climbing_strictly (a : R) (x : seq R) : Prop :=
  if x is e :: x' then (a < e)%coqR /\ climbing_strictly e x' else True.

Lemma strictly_climbing a x : climbing_strictly a x -> climbing a x.
Proof. by elim: x a => //= e x IH a [h1 h2]; split; [lra | exact: IH]. Qed.

Lemma strictly_nth a x j : climbing_strictly a x -> (j < size x)%N ->
  exists t, (a <= t < last a x)%coqR /\ find (rlt t) x = j.
Proof.
elim: x a j => [|e x IH] a j; first by [].
case: j => [|j] /= [h1 h2].
  move=> _; exists a; have hl := climbing_last (strictly_climbing h2).
  split; first lra.
  by rewrite /rlt; case: (Rlt_dec a e).
rewrite ltnS => /(IH e j h2) [t [ht ft]]; exists t; split; first by lra.
by rewrite {1}/rlt; case: Rlt_dec => h; [lra | rewrite ft].
Qed.

Lemma find_bound x p t : covers x p -> (t < p)%coqR -> (find (rlt t) x < size x)%N.
Proof.
move=> [_ hl hp] ht; rewrite -has_find.
case/lastP: x hl => [|x e] /=; first by lra.
by rewrite last_rcons has_rcons => ->; rewrite {1}/rlt; case: Rlt_dec.
Qed.

Section Tiles.
Variables (x y x' y' : seq R) (px' py' : R) (cell cell' : nat -> nat -> C).
Hypotheses (hx : covers x px') (hx' : covers x' px') (hy : covers y py') (hy' : covers y' py').
Hypotheses (sx : climbing_strictly 0 x) (sx' : climbing_strictly 0 x').
Hypotheses (sy : climbing_strictly 0 y) (sy' : climbing_strictly 0 y').
Hypothesis same : forall tx ty, (0 <= tx < px')%coqR -> (0 <= ty < py')%coqR ->
  tiles x y cell tx ty = tiles x' y' cell' tx ty.

Lemma same_toep_y cy fto_y t : (0 <= t < px')%coqR ->
  toep_y (cfs_transform y fto_y) cell cy fto_y (find (rlt t) x)
  = toep_y (cfs_transform y' fto_y) cell' cy fto_y (find (rlt t) x').
Proof.
move=> ht; apply: mat_ext => i j hi hj; rewrite !cfs_ocoef //.
have -> : last 0%coqR y = py' by case: hy.
have -> : last 0%coqR y' = py' by case: hy'.
apply: cfs_steps_eq => // u hu.
by have := same ht hu; rewrite /tiles /steps => ->.
Qed.

Lemma same_fact_y cx cy fto_y t : (0 <= t < px')%coqR ->
  fact_y (cfs_transform y fto_y) cell cx cy fto_y (find (rlt t) x)
  = fact_y (cfs_transform y' fto_y) cell' cx cy fto_y (find (rlt t) x').
Proof. by move=> ht; rewrite /fact_y same_toep_y. Qed.

Lemma tiles_cfs2d cx cy fto_x fto_y :
  cfs2d cell x y cx cy fto_x fto_y = cfs2d cell' x' y' cx cy fto_x fto_y.
Proof.
rewrite /cfs2d !four2dE; try exact: cfs_in_range; try exact: cfs_reads.
have lx : last 0%coqR x = px' by case: hx.
have lx' : last 0%coqR x' = px' by case: hx'.
have ly : last 0%coqR y = py' by case: hy.
have ly' : last 0%coqR y' = py' by case: hy'.
congr (if _ then _ else _).
  congr (_ && _); apply/hasP/hasP => -[a]; rewrite mem_iota /= => ha /hasP [b]; rewrite mem_iota /= => hb /eqP hz.
  - have [tx [htx fx]] := strictly_nth sx ha; have [ty [hty fy]] := strictly_nth sy hb.
    rewrite lx in htx; rewrite ly in hty.
    have := same htx hty; rewrite /tiles fx fy hz => e.
    exists (find (rlt tx) x'); first by rewrite mem_iota /= add0n; apply: find_bound hx' _; lra.
    by apply/hasP; exists (find (rlt ty) y'); [rewrite mem_iota /= add0n; apply: find_bound hy' _; lra | apply/eqP].
  - have [tx [htx fx]] := strictly_nth sx' ha; have [ty [hty fy]] := strictly_nth sy' hb.
    rewrite lx' in htx; rewrite ly' in hty.
    have := same htx hty; rewrite /tiles fx fy hz => e.
    exists (find (rlt tx) x); first by rewrite mem_iota /= add0n; apply: find_bound hx _; lra.
    by apply/hasP; exists (find (rlt ty) y); [rewrite mem_iota /= add0n; apply: find_bound hy _; lra | apply/eqP].
have -> : all (fun a => toep_y (cfs_transform y fto_y) cell cy fto_y a \in unitmx) (seq.iota 0 (size x))
  = all (fun a => toep_y (cfs_transform y' fto_y) cell' cy fto_y a \in unitmx) (seq.iota 0 (size x')).
  apply/allP/allP => h a; rewrite mem_iota /= => ha.
    have [tx [htx fx]] := strictly_nth sx' ha; rewrite lx' in htx.
    by rewrite -fx -same_toep_y //; apply: h; rewrite mem_iota /= add0n; apply: find_bound hx _; lra.
  have [tx [htx fx]] := strictly_nth sx ha; rewrite lx in htx.
  by rewrite -fx same_toep_y //; apply: h; rewrite mem_iota /= add0n; apply: find_bound hx' _; lra.
suff -> : toep_xy (cfs_transform x fto_x) (cfs_transform y fto_y) cell cx cy fto_x fto_y
  = toep_xy (cfs_transform x' fto_x) (cfs_transform y' fto_y) cell' cx cy fto_x fto_y by [].
apply: mat_ext => i j hi hj; rewrite !cfs_ocoef ?ltn_mod // lx lx'.
by apply: cfs_steps_eq => // t ht; rewrite /steps same_fact_y.
Qed.
End Tiles.

(** ** Compression *)

Lemma first_kept (T : Type) (keep : nat -> bool) (f : nat -> T) n m j :
  (forall k, ~~ keep k -> (k.+1 < m + n)%N -> f k = f k.+1) -> (0 < n -> keep (m + n).-1)%N ->
  (m <= j < m + n)%N ->
  f (nth 0%N (filter keep (seq.iota m n)) (find (leq j) (filter keep (seq.iota m n)))) = f j.
Proof.
elim: n m j => [|n IH] m j hk hl; first by rewrite addn0 ltnNge andbC andNb.
case/andP=> hm hj; have hk' : forall k, ~~ keep k -> (k.+1 < m.+1 + n)%N -> f k = f k.+1.
  by move=> k; rewrite addSnnS; apply: hk.
have hl' : (0 < n -> keep (m.+1 + n).-1)%N by rewrite addSnnS => _; apply: hl.
have ge : all (leq m.+1) (filter keep (seq.iota m.+1 n)).
  by apply/allP => k; rewrite mem_filter mem_iota => /andP [_ /andP []].
rewrite /=; case km: (keep m) => /=.
  case: (leqP j m) => h /=; first by congr f; apply/eqP; rewrite eqn_leq hm h.
  by apply: IH => //; rewrite h addSnnS.
case: (leqP j m) => h.
  have -> : j = m by apply/eqP; rewrite eqn_leq hm h.
  have n0 : (0 < n)%N.
    by case: n hl {hj hk IH hk' hl' ge} => // /(_ isT); rewrite addn1 /= km.
  have -> : find (leq m) (filter keep (seq.iota m.+1 n)) = find (leq m.+1) (filter keep (seq.iota m.+1 n)).
    apply: eq_in_find => k /(allP ge) hk2; rewrite hk2; exact: ltnW.
  rewrite IH //; last by rewrite leqnn /= -[X in (X < _)%N]addn0 ltn_add2l.
  by apply/esym/hk; rewrite ?km // addnS ltnS -[X in (X < _)%N]addn0 ltn_add2l.
by apply: IH => //; rewrite h addSnnS.
Qed.

(** The pixel containing position t. *)
Lemma pixel n t : (0 < n)%N -> (0 <= t < 1)%coqR ->
  exists2 j, (j < n)%N & forall k, rlt t (1 / INR n * (INR k + 1)) = (j <= k)%N.
Proof.
move=> hn ht; have n0 : (0 < INR n)%coqR by apply: lt_0_INR; apply/leP.
have [h1 h2] := archimed (t * INR n).
have tn : (0 <= t * INR n < INR n)%coqR by nra.
set u := up _ in h1 h2.
have z0 : Z.le 0 (Z.sub u 1).
  suff : Z.lt 0 u by lia.
  by apply: lt_IZR; lra.
pose j := Z.to_nat (Z.sub u 1).
have ej : INR j = (IZR u - 1)%coqR by rewrite /j INR_IZR_INZ Znat.Z2Nat.id // minus_IZR.
have lo : (INR j <= t * INR n)%coqR by rewrite ej; lra.
have hi : (t * INR n < INR j + 1)%coqR by rewrite ej; lra.
exists j.
  by apply/leP; apply: INR_lt; lra.
move=> k; rewrite /rlt.
have e : (1 / INR n * (INR k + 1) * INR n = INR k + 1)%coqR by field; lra.
case: leqP => h; case: Rlt_dec => // hr.
  case: hr; apply: (Rmult_lt_reg_r (INR n)) => //; rewrite e.
  by have := le_INR _ _ (elimT leP h); lra.
have : (t * INR n < INR k + 1)%coqR by rewrite -e; apply: Rmult_lt_compat_r.
have := le_INR _ _ (elimT leP h); rewrite S_INR; lra.
Qed.

Lemma find_ends n t sel j : (forall k, rlt t (1 / INR n * (INR k + 1)) = (j <= k)%N) ->
  find (rlt t) (ends n sel) = find (leq j) sel.
Proof. by move=> h; rewrite /ends find_map; apply: eq_find => k; rewrite /= h. Qed.

Lemma ends_strict n m sel : (0 < n)%N -> path ltn m sel ->
  climbing_strictly (1 / INR n * (INR m + 1)) (ends n sel).
Proof.
move=> hn; have n0 : (0 < INR n)%coqR by apply: lt_0_INR; apply/leP.
elim: sel m => //= k sel IH m /andP [h1 h2]; split; last exact: IH.
apply: Rmult_lt_compat_l; last by have := lt_INR _ _ (elimT ltP h1); lra.
by rewrite /Rdiv Rmult_1_l; apply: Rinv_0_lt_compat.
Qed.

Lemma ends_strict0 n sel : (0 < n)%N -> sorted ltn sel -> climbing_strictly 0 (ends n sel).
Proof.
case: sel => // k sel hn /= hp; split; last exact: ends_strict.
have n0 : (0 < INR n)%coqR by apply: lt_0_INR; apply/leP.
apply: Rmult_lt_0_compat; last by have := pos_INR k; lra.
by rewrite /Rdiv Rmult_1_l; apply: Rinv_0_lt_compat.
Qed.

Lemma ends_covers n sel : (0 < n)%N -> sorted ltn sel -> last 0%N (n :: sel) = n.-1 -> sel <> [::] ->
  covers (ends n sel) 1.
Proof.
move=> hn hs hl hne; split; last lra; first exact: strictly_climbing (ends_strict0 hn hs).
have n0 : (0 < INR n)%coqR by apply: lt_0_INR; apply/leP.
case: sel hs hl hne => // k sel hs /= hl _.
rewrite /ends /= last_map hl -S_INR prednK //; field; lra.
Qed.

Lemma sel_last (keep : nat -> bool) n : (0 < n)%N -> keep n.-1 ->
  exists s, filter keep (seq.iota 0 n) = rcons s n.-1.
Proof.
case: n => // n _ hk; exists (filter keep (seq.iota 0 n)).
by rewrite -[n.+1]addn1 iotaD filter_cat add0n -cats1 /= addn1 hk.
Qed.

Lemma sel_ok (keep : nat -> bool) n : (0 < n)%N -> keep n.-1 ->
  covers (ends n (filter keep (seq.iota 0 n))) 1 /\ climbing_strictly 0 (ends n (filter keep (seq.iota 0 n))).
Proof.
move=> hn hk; have hs : sorted ltn (filter keep (seq.iota 0 n)).
  by apply: sorted_filter; [exact: ltn_trans | exact: iota_ltn_sorted].
split; last exact: ends_strict0.
have [s es] := sel_last hn hk.
apply: ends_covers => //; last by rewrite es; case: (s).
by rewrite es /= last_rcons.
Qed.

Lemma iota_filter n : filter (fun _ => true) (seq.iota 0 n) = seq.iota 0 n.
Proof. exact: filter_predT. Qed.

Lemma full_ok n : (0 < n)%N ->
  covers (ends n (seq.iota 0 n)) 1 /\ climbing_strictly 0 (ends n (seq.iota 0 n)).
Proof. by move=> hn; have := sel_ok (keep := fun _ => true) hn isT; rewrite iota_filter. Qed.

Lemma pixelsE n : (0 < n)%N -> pixels n = ends n (seq.iota 0 n).
Proof.
move=> hn; have n0 : (0 < INR n)%coqR by apply: lt_0_INR; apply/leP.
by rewrite /pixels /ends; apply: eq_map => k; field; lra.
Qed.

Lemma find_iota n j : (j < n)%N -> find (leq j) (seq.iota 0 n) = j.
Proof.
move=> hj; have := @first_kept nat (fun _ => true) id n 0 j; rewrite iota_filter add0n => H.
have hf : (find (leq j) (seq.iota 0 n) < n)%N.
  rewrite -[X in (_ < X)%N](size_iota 0 n) -has_find; apply/hasP; exists j => //.
  by rewrite mem_iota.
by rewrite -{2}(H _ _ hj) // nth_iota.
Qed.

Lemma keep_last_col l : keep_col l (cols l).-1.
Proof. by rewrite /keep_col eqxx orbT. Qed.
Lemma keep_last_row l : keep_row l (rows l).-1.
Proof. by rewrite /keep_row eqxx orbT. Qed.

Lemma pick_cols_eq l i j : (i < rows l)%N -> (j < cols l)%N ->
  px (pick_cols l) i (find (leq j) (sel_cols l)) = px l i j.
Proof.
move=> hi hj; rewrite /pick_cols /=.
apply: (first_kept (f := px l i)); last by rewrite add0n.
- move=> k; rewrite add0n /keep_col negb_or negbK => /andP [/allP h hk] hk1.
  by have := h i; rewrite mem_iota /= add0n => /(_ hi) /eqP ->; rewrite modn_small.
- by move=> _; rewrite add0n; exact: keep_last_col.
Qed.

Lemma pick_rows_eq l i j : (i < rows l)%N -> (j < cols l)%N ->
  px (pick_rows l) (find (leq i) (sel_rows l)) j = px l i j.
Proof.
move=> hi hj; rewrite /pick_rows /=.
apply: (first_kept (f := fun i => px l i j)); last by rewrite add0n.
- move=> k; rewrite add0n /keep_row negb_or negbK => /andP [/allP h hk] hk1.
  by have := h j; rewrite mem_iota /= add0n => /(_ hj) /eqP ->; rewrite modn_small.
- by move=> _; rewrite add0n; exact: keep_last_row.
Qed.

Lemma find_sel_lt (keep : nat -> bool) n j : (j < n)%N -> keep n.-1 ->
  (find (leq j) (filter keep (seq.iota 0 n)) < size (filter keep (seq.iota 0 n)))%N.
Proof.
move=> hj hk; rewrite -has_find; apply/hasP; exists n.-1; last by rewrite -ltnS prednK // (leq_ltn_trans _ hj).
by rewrite mem_filter hk mem_iota /= add0n prednK // (leq_ltn_trans _ hj).
Qed.

Lemma compression_tiles l tx ty : (0 < rows l)%N -> (0 < cols l)%N ->
  (0 <= tx < 1)%coqR -> (0 <= ty < 1)%coqR ->
  let '(c, x, y) := cell_compression l in
  tiles x y (eps_of c) tx ty = picture (rows l) (cols l) (eps_of l) tx ty.
Proof.
move=> hr hc htx hty; rewrite /cell_compression /picture /tiles !pixelsE //.
have [i hi fi] := pixel hr hty; have [j hj fj] := pixel hc htx.
rewrite !(find_ends _ fi) !(find_ends _ fj) !find_iota // /eps_of.
rewrite pick_rows_eq //; last by apply: find_sel_lt => //; exact: (keep_last_col (flipud l)).
by rewrite (@pick_cols_eq (flipud l)).
Qed.

Lemma compression_ok l : (0 < rows l)%N -> (0 < cols l)%N ->
  let '(c, x, y) := cell_compression l in
  [/\ covers x 1, covers y 1, climbing_strictly 0 x & climbing_strictly 0 y].
Proof.
move=> hr hc /=.
have [h1 h2] := sel_ok hc (keep_last_col (flipud l)).
by have [h3 h4] := sel_ok hr (keep_last_row (pick_cols (flipud l))).
Qed.

Lemma three_convs_ext pinv use_pinv n (f g : bool -> bool -> option 'M[C]_n) :
  (forall a b, f a b = g a b) -> three_convs pinv use_pinv f = three_convs pinv use_pinv g.
Proof. by move=> h; rewrite /three_convs !h. Qed.

(** C16: what the continuous method returns depends on the picture only. *)
Lemma continuous_picture pinv use_pinv fto_x fto_y l l' :
  (0 < rows l)%N -> (0 < cols l)%N -> (0 < rows l')%N -> (0 < cols l')%N ->
  (forall tx ty, (0 <= tx < 1)%coqR -> (0 <= ty < 1)%coqR ->
     picture (rows l) (cols l) (eps_of l) tx ty = picture (rows l') (cols l') (eps_of l') tx ty) ->
  conv_continuous pinv use_pinv fto_x fto_y l = conv_continuous pinv use_pinv fto_x fto_y l'.
Proof.
move=> h1 h2 h3 h4 e; rewrite /conv_continuous.
move: (compression_ok h1 h2) (fun tx ty => compression_tiles (tx := tx) (ty := ty) h1 h2).
case: (cell_compression l) => [[c x] y] [cx cy sx sy] T.
move: (compression_ok h3 h4) (fun tx ty => compression_tiles (tx := tx) (ty := ty) h3 h4).
case: (cell_compression l') => [[c' x'] y'] [cx' cy' sx' sy'] T'.
apply: three_convs_ext => a b; apply: (tiles_cfs2d (px' := 1%coqR) (py' := 1%coqR)) => // tx ty htx hty.
by rewrite T // T' // e.
Qed.

(** What is computed is the two-dimensional transform of the uncompressed picture. *)
Lemma continuous_uncompressed pinv use_pinv fto_x fto_y l : (0 < rows l)%N -> (0 < cols l)%N ->
  conv_continuous pinv use_pinv fto_x fto_y l =
  three_convs pinv use_pinv (fun cx cy =>
    cfs2d (eps_of (flipud l)) (pixels (cols l)) (pixels (rows l)) cx cy fto_x fto_y).
Proof.
move=> h1 h2; rewrite /conv_continuous.
move: (compression_ok h1 h2) (fun tx ty => compression_tiles (tx := tx) (ty := ty) h1 h2).
case: (cell_compression l) => [[c x] y] [cx cy sx sy] T.
have [h3 h4] := full_ok h1; have [h5 h6] := full_ok h2.
apply: three_convs_ext => a b.
by apply: (tiles_cfs2d (px' := 1%coqR) (py' := 1%coqR)) => //; rewrite ?pixelsE // => tx ty htx hty; rewrite T.
Qed.
