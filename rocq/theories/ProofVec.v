(** Vector modelling: the grid and the painted cell of a list of rectangles in general position. *)
From Coq Require Import Reals Lra.
From mathcomp Require Import all_ssreflect ssralg.
From Coquelicot Require Import Complex.
From Verif Require Import Cplx ModelTM ModelFourier ModelVec SpecVec.

Set Implicit Arguments.
Unset Strict Implicit.
Unset Printing Implicit Defensive.
Local Open Scope R_scope.

Lemma rltbP x y : reflect (x < y) (rltb x y).
Proof. by rewrite /rltb; case: Rlt_dec => h; constructor. Qed.
Lemma reqbPP x y : reflect (x = y) (reqb x y).
Proof. by rewrite /reqb; case: Req_EM_T => h; constructor. Qed.

(** ** bisect_left *)
Definition splits (a : seq R) (x : R) (i : nat) : Prop :=
  [/\ (i <= size a)%N, forall k, (k < i)%N -> nth 0 a k < x & forall k, (i <= k < size a)%N -> x <= nth 0 a k].

Lemma inc_le a i j : increasing a -> (i <= j)%N -> (j < size a)%N -> nth 0 a i <= nth 0 a j.
Proof. by move=> h; rewrite leq_eqVlt => /orP[/eqP -> _|h1 h2]; [lra|apply: Rlt_le; apply: h]. Qed.

Lemma bisect_splits fuel a x lo hi : increasing a -> (lo <= hi)%N -> (hi <= size a)%N -> (hi - lo <= fuel)%N ->
  (forall k, (k < lo)%N -> nth 0 a k < x) -> (forall k, (hi <= k < size a)%N -> x <= nth 0 a k) ->
  splits a x (bisect fuel a x lo hi).
Proof.
move=> ha; elim: fuel lo hi => [|f IH] lo hi h1 h2 h3 h4 h5 /=.
  have e : lo = hi by apply/eqP; rewrite eqn_leq h1 /=; move: h3; rewrite leqn0 subn_eq0.
  by rewrite e in h4 *; split.
case: ifP => [hl|/negbT]; last first.
  by rewrite -leqNgt => hl; have e : lo = hi by [apply/eqP; rewrite eqn_leq h1]; rewrite e in h4 *; split.
set mid := (lo + hi)./2.
have m1 : (lo <= mid)%N by rewrite /mid geq_half_double -addnn leq_add2l.
have m2 : (mid < hi)%N by rewrite ltnNge /mid geq_half_double -ltnNge -addnn ltn_add2r.
have m3 : (mid < size a)%N by exact: leq_trans h2.
case: rltbP => hx.
  apply: (IH mid.+1 hi) => //.
    by move: h3; rewrite !leq_subLR => h; apply: leq_trans h _; rewrite addnS -addSn leq_add2r.
  by move=> k hk; apply: Rle_lt_trans hx; apply: inc_le.
apply: (IH lo mid) => //.
- exact: ltnW.
- by rewrite -ltnS; apply: leq_trans h3; rewrite ltn_sub2r.
- move=> k /andP[k1 k2]; apply: Rle_trans (inc_le ha k1 k2); lra.
Qed.

Lemma bisect_left_splits a x : increasing a -> splits a x (bisect_left a x).
Proof. by move=> h; apply: bisect_splits => //; [rewrite subn0|move=> k; case: ltngtP]. Qed.

(** ** Insertion *)
Lemma nth_insert a i x k : (i <= size a)%N ->
  nth 0 (insert_at a i x) k = if (k < i)%N then nth 0 a k else if k == i then x else nth 0 a k.-1.
Proof.
move=> hi; rewrite /insert_at nth_cat size_takel //; case: ltnP => hk; first by rewrite nth_take.
case: eqP => [->|hne]; first by rewrite subnn.
have hk' : (i < k)%N by rewrite ltn_neqAle hk andbT eq_sym; apply/eqP.
case: k hk' {hk hne} => // k hk; rewrite subSn //= nth_drop subnKC //.
Qed.
Lemma size_insert a i x : size (insert_at a i x) = (size a).+1.
Proof. by rewrite /insert_at size_cat /= addnS -size_cat cat_take_drop. Qed.

Lemma In_cat (T : Type) (x : T) s t : List.In x (s ++ t) <-> List.In x s \/ List.In x t.
Proof. exact: List.in_app_iff. Qed.
Lemma In_insert a i x v : List.In v (insert_at a i x) <-> v = x \/ List.In v a.
Proof.
rewrite /insert_at In_cat -{3}(cat_take_drop i a) In_cat /=; split.
  by case=> [h|[<-|h]]; [right; left|left|right; right].
by case=> [->|[h|h]]; [right; left|left|right; right].
Qed.

Lemma In_nth (a : seq R) v : List.In v a -> exists2 k, (k < size a)%N & nth 0 a k = v.
Proof.
elim: a => [|y a IH] //= [<-|/IH [k h1 h2]]; first by exists 0%N.
by exists k.+1.
Qed.
Lemma nth_In (a : seq R) k : (k < size a)%N -> List.In (nth 0 a k) a.
Proof. by elim: a k => [|y a IH] [|k] //= h; [left|right; apply: IH]. Qed.

Lemma insert_increasing a i x : increasing a -> splits a x i -> ~ List.In x a -> increasing (insert_at a i x).
Proof.
move=> ha [h1 h2 h3] hx p q hpq; rewrite size_insert => hq; rewrite !nth_insert //.
have h3' k : (i <= k < size a)%N -> x < nth 0 a k.
  move=> hk; have := h3 k hk; case/Rle_lt_or_eq_dec => // e; case: hx; rewrite e; apply: nth_In.
  by case/andP: hk.
case: (ltnP p i) => hp.
  case: (ltnP q i) => hqi; first by apply: ha => //; apply: leq_trans h1.
  case: eqP => [_|hne]; first exact: h2.
  have hq' : (i < q)%N by rewrite ltn_neqAle hqi andbT eq_sym; apply/eqP.
  case: q hpq hq {hqi hne} hq' => // q hpq hq hq'; rewrite /=.
  by apply: ha => //; apply: leq_trans hp _.
have hiq : (i < q)%N by apply: leq_ltn_trans hpq.
rewrite (ltnNge q i) (ltnW hiq) /=.
have -> : (q == i) = false by rewrite eq_sym; apply: ltn_eqF.
case: q hpq hq hiq => // q hpq hq hiq /=.
case: eqP => [_|hne]; first by apply: h3'; rewrite -ltnS hiq.
have hp' : (i < p)%N by rewrite ltn_neqAle hp andbT eq_sym; apply/eqP.
case: p hp' hpq {hp hne} => // p hp' hpq /=; exact: ha.
Qed.

(** An edge that is not yet in the list enters it unchanged. *)
Lemma insert_edge_new upper pert a v : increasing a -> ~ List.In v a ->
  insert_edge upper pert a v = (pert, insert_at a (bisect_left a v) v, v) /\ increasing (insert_at a (bisect_left a v) v).
Proof.
move=> ha hv; have hs := bisect_left_splits v ha; split; last exact: insert_increasing.
rewrite /insert_edge; case: ifP => // /andP[h1 /reqbPP e]; case: hv; rewrite e; exact: nth_In.
Qed.

(** ** All edges *)
Lemma grid_lists_gp objs : List.NoDup (x_edges objs) -> List.NoDup (y_edges objs) -> exists rows_l cols_l,
  [/\ grid_lists objs = (0, rows_l, cols_l, objs), increasing rows_l /\ increasing cols_l,
      forall v, List.In v rows_l <-> List.In v (y_edges objs) & forall v, List.In v cols_l <-> List.In v (x_edges objs)].
Proof.
rewrite /grid_lists.
suff H : forall done rows_l cols_l, increasing rows_l -> increasing cols_l ->
   List.NoDup (x_edges objs) -> List.NoDup (y_edges objs) ->
   (forall v, List.In v (y_edges objs) -> ~ List.In v rows_l) -> (forall v, List.In v (x_edges objs) -> ~ List.In v cols_l) ->
   exists rows' cols', [/\ foldl insert_object (0, rows_l, cols_l, done) objs = (0, rows', cols', done ++ objs),
     increasing rows' /\ increasing cols',
     forall v, List.In v rows' <-> List.In v rows_l \/ List.In v (y_edges objs) &
     forall v, List.In v cols' <-> List.In v cols_l \/ List.In v (x_edges objs)].
  move=> hx hy; have i0 : increasing [::] by move=> p q _; rewrite ltn0.
  have [rows' [cols' [h1 h2 h3 h4]]] := H [::] [::] [::] i0 i0 hx hy (fun _ _ f => f) (fun _ _ f => f).
  by exists rows', cols'; split=> // v; [rewrite h3|rewrite h4] => /=; split; [case|right|case|right].
elim: objs => [|o objs IH] done rows_l cols_l ir ic hx hy dr dc.
  by exists rows_l, cols_l; split=> //= [|v|v]; rewrite ?cats0 //; split; [left|case|left|case].
have nx : List.NoDup (r_left o :: r_right o :: x_edges objs) := hx.
have ny : List.NoDup (r_top o :: r_bottom o :: y_edges objs) := hy.
have [ht [hb hy']] : ~ List.In (r_top o) (r_bottom o :: y_edges objs) /\ ~ List.In (r_bottom o) (y_edges objs) /\ List.NoDup (y_edges objs).
  by move: ny => /List.NoDup_cons_iff [h1 /List.NoDup_cons_iff [h2 h3]].
have [hl [hr hx']] : ~ List.In (r_left o) (r_right o :: x_edges objs) /\ ~ List.In (r_right o) (x_edges objs) /\ List.NoDup (x_edges objs).
  by move: nx => /List.NoDup_cons_iff [h1 /List.NoDup_cons_iff [h2 h3]].
have dt : ~ List.In (r_top o) rows_l by apply: dr; left.
have [e1 i1] := insert_edge_new true 0 ir dt.
have db : ~ List.In (r_bottom o) (insert_at rows_l (bisect_left rows_l (r_top o)) (r_top o)).
  rewrite In_insert; case=> [e|]; [apply: ht; left; exact: e|apply: dr; right; left; exact: erefl].
have [e2 i2] := insert_edge_new false 0 i1 db.
have dl : ~ List.In (r_left o) cols_l by apply: dc; left.
have [e3 i3] := insert_edge_new true 0 ic dl.
have dri : ~ List.In (r_right o) (insert_at cols_l (bisect_left cols_l (r_left o)) (r_left o)).
  rewrite In_insert; case=> [e|]; [apply: hl; left; exact: e|apply: dc; right; left; exact: erefl].
have [e4 i4] := insert_edge_new false 0 i3 dri.
have [||rows' [cols' [h1 h2 h3 h4]]] := IH (rcons done o) _ _ i2 i4 hx' hy'.
- move=> v hv; rewrite !In_insert => -[e|[e|h]].
  + by apply: hb; rewrite -e.
  + by apply: ht; right; rewrite -e.
  + by apply: (dr v) h; right; right.
- move=> v hv; rewrite !In_insert => -[e|[e|h]].
  + by apply: hr; rewrite -e.
  + by apply: hl; right; rewrite -e.
  + by apply: (dc v) h; right; right.
exists rows', cols'; split=> //.
- rewrite -cat_rcons -h1 [foldl _ _ (o :: objs)]/(foldl insert_object (insert_object (0, rows_l, cols_l, done) o) objs).
  congr foldl; rewrite /insert_object e1 e2 e3 e4; congr (_, _, _, rcons _ _); by case: o {h1 h2 h3 h4 IH hx hy dr dc nx ny ht hb hl hr dt e1 i1 db e2 i2 dl e3 i3 dri e4 i4}.
- move=> v; rewrite h3 !In_insert; split.
  + by case=> [[->|[->|h]]|h]; [right; right; left|right; left|left|right; right; right].
  + by case=> [h|[->|[->|h]]]; [left; right; right|left; right; left|left; left|right].
- move=> v; rewrite h4 !In_insert; split.
  + by case=> [[->|[->|h]]|h]; [right; right; left|right; left|left|right; right; right].
  + by case=> [h|[->|[->|h]]]; [left; right; right|left; right; left|left; left|right].
Qed.

(** ** Closing a list with the period *)
Lemma last_nth0 (a : seq R) : ~~ nilp a -> last 0 a = nth 0 a (size a).-1.
Proof. by case: a => // x a _; rewrite /= (last_nth 0) /=; case: a. Qed.

Lemma rcons_increasing a p : increasing a -> (forall v, List.In v a -> v < p) -> increasing (rcons a p).
Proof.
move=> ha h i j hij; rewrite size_rcons ltnS leq_eqVlt => /orP[/eqP ej|hj]; rewrite !nth_rcons.
  by rewrite ej ltnn eqxx -ej hij; apply: h; apply: nth_In; rewrite -ej.
by rewrite hj (ltn_trans hij hj); apply: ha.
Qed.

Lemma close_grid a p es : increasing a -> 0 < p -> (forall v, List.In v a <-> List.In v es) ->
  (forall v, List.In v es -> 0 <= v <= p) -> grid_for p es (close_list a p).
Proof.
move=> ha hp hin hb.
set a1 := if nilp a || ~~ reqb (last 0 a) p then rcons a p else a.
have H1 : [/\ increasing a1, last 0 a1 = p, ~~ nilp a1 & forall v, List.In v a1 <-> v = p \/ List.In v es].
  rewrite /a1; case: ifP => h; last first.
    move/negbT: h; rewrite negb_or negbK => /andP[h1 /reqbPP h2]; split=> // v; rewrite hin; split; first by right.
    by case=> // ->; rewrite -hin -h2 last_nth0 //; apply: nth_In; case: (a) h1.
  split.
  - apply: rcons_increasing => // v hv; have [_ hvp] := hb v (proj1 (hin v) hv).
    case/Rle_lt_or_eq_dec: hvp => // e; exfalso; have [k hk ek] := In_nth hv.
    have hn : ~~ nilp a by case: (a) hk.
    move: h; rewrite (negbTE hn) /= => /reqbPP; apply; rewrite last_nth0 //.
    have hs : ((size a).-1 < size a)%N by case: (a) hn.
    have [] := hb (nth 0 a (size a).-1); first by apply/hin; exact: nth_In.
    move=> _ h1; have hk' : (k <= (size a).-1)%N by case: (a) hk.
    have := inc_le ha hk' hs; lra.
  - by rewrite last_rcons.
  - by rewrite /nilp size_rcons.
  - move=> v; rewrite -cats1 In_cat hin /=; split; first by case=> [h1|[->|]] //; [right|left].
    by case=> [->|h1]; [right; left|left].
have -> : close_list a p = (if a1 is x :: a2 then (if reqb x 0 then a2 else a1) else a1) by [].
case: H1; case: a1 => // x a2 h1 h2 _ h4.
have pos v : List.In v (x :: a2) -> 0 <= v by rewrite h4 => -[->|/hb]; lra.
have pos2 v : List.In v a2 -> 0 < v.
  move=> hv; have [k hk e] := In_nth hv; have := h1 0%N k.+1 isT hk; rewrite /= e.
  have := pos x (or_introl erefl); lra.
case: reqbPP => hx; split=> //.
- by move=> i j hij hj; apply: (h1 i.+1 j.+1).
- by case: a2 h2 {h1 h4 pos pos2} => //= e; exfalso; move: e hp; rewrite hx => <-; lra.
- move=> v; split=> [hv|[hv /h4 [e|//]]]; last by exfalso; apply: hv; rewrite -e.
  have := pos2 v hv; have : List.In v (x :: a2) by right.
  by rewrite h4 => h5 h6; split=> //; lra.
- move=> v; split=> [hv|[_ hv]]; last by apply/h4.
  split; last by apply/h4.
  case: hv => [<-|/pos2]; lra.
Qed.

(** ** Slices *)
Lemma index_ofP a v : List.In v a -> exists k, [/\ index_of a v = Some k, (k < size a)%N & nth 0 a k = v].
Proof.
elim: a => [|y a IH] //= hv; case: reqbPP => [->|hne]; first by exists 0%N.
by case: hv => // /IH [k [h1 h2 h3]]; rewrite h1; exists k.+1.
Qed.

Lemma inc_lt_inv a i j : increasing a -> (i < size a)%N -> (j < size a)%N -> nth 0 a i < nth 0 a j -> (i < j)%N.
Proof.
move=> ha hi hj h; case: ltngtP => // h1; last by move: h; rewrite h1; lra.
have := ha _ _ h1 hi; lra.
Qed.

Lemma span_cell p es a lo hi : grid_for p es a -> (forall v, List.In v es -> 0 <= v) -> 0 < p -> List.In lo es -> List.In hi es ->
  0 <= lo -> lo < hi -> exists b e, span a lo hi = Some (b, e) /\ forall i v, in_cell a i v -> ((b <= i < e)%N <-> lo < v < hi).
Proof.
move=> [ha hl hin] hes hp hlo hhi h0 hlt.
have pos v : List.In v a -> 0 < v by rewrite hin => -[h1 [->|/hes]]; lra.
have hi_in : List.In hi a by rewrite hin; split; [lra|right].
have [e [e1 e2 e3]] := index_ofP hi_in.
have H : exists b, (if reqb lo 0 then Some 0%N else (if index_of a lo is Some k then Some k.+1 else None)) = Some b /\
  forall i v, in_cell a i v -> ((b <= i)%N <-> lo < v).
  case: reqbPP => [el|nl].
    exists 0%N; split=> // i v [hi' hv]; split=> // _; rewrite el; case: i hi' hv => [|i] hi' [h1 h2]; first lra.
    have hi2 : (i < size a)%N by exact: ltnW.
    have := pos _ (nth_In hi2); lra.
  have lo_in : List.In lo a by rewrite hin; split=> //; right.
  have [k [k1 k2 k3]] := index_ofP lo_in; rewrite k1; exists k.+1; split=> // i v [hi' hv]; split.
    case: i hi' hv => // i hi' [h1 _]; rewrite ltnS => hk; rewrite -k3.
    have := inc_le ha hk (ltnW hi'); lra.
  move=> h; rewrite -k3 in h; apply: (inc_lt_inv ha) => //; lra.
case: H => b [hb1 hb2]; exists b, e.+1; split; first by rewrite /span hb1 e1.
move=> i v hc; have := hb2 _ _ hc; case: hc => hi' hv hbi; split.
  move=> /andP[/hbi h1]; rewrite ltnS => h2; split=> //; have := inc_le ha h2 e2; rewrite e3; lra.
move=> [/hbi -> h2] /=; rewrite ltnNge; apply/negP => h3; case: i hi' hv h3 {hbi} => // i hi' [h1 _] h3.
have := inc_le ha (i := e) (j := i) h3 (ltnW hi'); rewrite e3; lra.
Qed.

(** ** Painting *)
Lemma coversP o x y : covers o x y \/ ~ covers o x y.
Proof.
rewrite /covers; case: (Rlt_dec (r_left o) x) => h1; last by right; lra.
case: (Rlt_dec x (r_right o)) => h2; last by right; lra.
case: (Rlt_dec (r_top o) y) => h3; last by right; lra.
by case: (Rlt_dec y (r_bottom o)) => h4; [left|right; lra].
Qed.

Lemma painted_rcons base objs o x y c : painted base objs x y c -> painted base (rcons objs o) x y (if Rlt_dec (r_left o) x then
  if Rlt_dec x (r_right o) then if Rlt_dec (r_top o) y then if Rlt_dec y (r_bottom o) then r_index o else c else c else c else c).
Proof.
move=> h; case: (coversP o x y) => ho.
  left; exists objs, o, [::]; rewrite cats1; split=> //.
  by case: ho => -[h1 h2] [h3 h4]; do 4 case: Rlt_dec => //.
have -> : (if Rlt_dec (r_left o) x then if Rlt_dec x (r_right o) then if Rlt_dec (r_top o) y then
    if Rlt_dec y (r_bottom o) then r_index o else c else c else c else c) = c.
  by move: ho; rewrite /covers; do 4 case: Rlt_dec => //; move=> h1 h2 h3 h4 []; lra.
case: h => [[pre [o1 [post [-> h2 h3 ->]]]]|[h2 ->]]; [left|right].
  exists pre, o1, (rcons post o); rewrite rcons_cat /=; split=> // o'.
  by rewrite -cats1 In_cat /= => -[/h3|[<-|]].
by split=> // o'; rewrite -cats1 In_cat /= => -[/h2|[<-|]].
Qed.

Lemma paint_all_painted px py es_x es_y rows_l cols_l base objs : 0 < px -> 0 < py ->
  grid_for py es_y rows_l -> grid_for px es_x cols_l ->
  (forall v, List.In v es_y -> 0 <= v) -> (forall v, List.In v es_x -> 0 <= v) ->
  (forall o, List.In o objs -> [/\ List.In (r_top o) es_y, List.In (r_bottom o) es_y, List.In (r_left o) es_x & List.In (r_right o) es_x]
     /\ 0 <= r_left o < r_right o /\ 0 <= r_top o < r_bottom o) ->
  exists2 cell, paint_all rows_l cols_l (fun _ _ => base) objs = Some cell &
    forall i j x y, in_cell rows_l i y -> in_cell cols_l j x -> painted base objs x y (cell i j).
Proof.
move=> hpx hpy gr gc py0 px0.
suff H : forall todo done cell0, (forall o, List.In o todo -> [/\ List.In (r_top o) es_y, List.In (r_bottom o) es_y, List.In (r_left o) es_x & List.In (r_right o) es_x]
     /\ 0 <= r_left o < r_right o /\ 0 <= r_top o < r_bottom o) ->
    (forall i j x y, in_cell rows_l i y -> in_cell cols_l j x -> painted base done x y (cell0 i j)) ->
    exists2 cell, paint_all rows_l cols_l cell0 todo = Some cell &
    forall i j x y, in_cell rows_l i y -> in_cell cols_l j x -> painted base (done ++ todo) x y (cell i j).
  by move=> h; have := H objs [::] (fun _ _ => base) h; apply=> *; right.
elim=> [|o todo IH] done cell0 ho hd /=; first by exists cell0 => // i j x y; rewrite cats0; apply: hd.
have [[t1 t2 t3 t4] [lr tb]] := ho o (or_introl erefl).
have [rb [re [er hr]]] := span_cell gr py0 hpy t1 t2 (proj1 tb) (proj2 tb).
have [cb [ce [ec hc]]] := span_cell gc px0 hpx t3 t4 (proj1 lr) (proj2 lr).
rewrite /paint er ec.
have [|i j x y ri cj|cell h1 h2] := IH (rcons done o) (fun i j => if (rb <= i < re)%N && (cb <= j < ce)%N then r_index o else cell0 i j).
- by move=> o' h'; apply: ho; right.
- have := painted_rcons o (hd i j x y ri cj); have := hr _ _ ri; have := hc _ _ cj.
  case: (rb <= i < re)%N; case: (cb <= j < ce)%N => -[k1 k1'] [k2 k2'] /=.
  + by have := k1 isT; have := k2 isT => -[? ?] [? ?]; do 4 case: Rlt_dec => //.
  + by do 4 case: Rlt_dec => //; move=> *; exfalso; have : false by apply: k1'; split.
  + by do 4 case: Rlt_dec => //; move=> *; exfalso; have : false by apply: k2'; split.
  + by do 4 case: Rlt_dec => //; move=> *; exfalso; have : false by apply: k1'; split.
- by exists cell => // i j x y ri cj; rewrite -cat_rcons; apply: h2.
Qed.

Lemma In_y_edges objs v : List.In v (y_edges objs) <-> exists2 o, List.In o objs & v = r_top o \/ v = r_bottom o.
Proof.
rewrite /y_edges; elim: objs => [|o objs IH] /=; first by split=> // -[].
rewrite IH; split.
  by case=> [<-|[<-|[o' h1 h2]]]; [exists o; auto|exists o; auto|exists o'; auto].
by case=> o' [<-|h1] h2; [case: h2 => ->; auto|right; right; exists o'].
Qed.
Lemma In_x_edges objs v : List.In v (x_edges objs) <-> exists2 o, List.In o objs & v = r_left o \/ v = r_right o.
Proof.
rewrite /x_edges; elim: objs => [|o objs IH] /=; first by split=> // -[].
rewrite IH; split.
  by case=> [<-|[<-|[o' h1 h2]]]; [exists o; auto|exists o; auto|exists o'; auto].
by case=> o' [<-|h1] h2; [case: h2 => ->; auto|right; right; exists o'].
Qed.

Theorem vector_layer_painted px py base objs : general_position px py objs ->
  exists r cols_l rows_l, [/\ vector_layer px py base objs = Some (r, cols_l, rows_l),
    rows r = size rows_l /\ cols r = size cols_l,
    grid_for px (x_edges objs) cols_l, grid_for py (y_edges objs) rows_l
  & forall i j x y, in_cell rows_l i y -> in_cell cols_l j x -> painted base objs x y (ModelFourier.px r i j)].
Proof.
move=> [[hpx hpy] nx ny hin].
have [rl [cl [e [ir ic] mr mc]]] := grid_lists_gp nx ny.
have by_ v : List.In v (y_edges objs) -> 0 <= v <= py by rewrite In_y_edges => -[o /hin h [->|->]]; lra.
have bx_ v : List.In v (x_edges objs) -> 0 <= v <= px by rewrite In_x_edges => -[o /hin h [->|->]]; lra.
have gr := close_grid ir hpy mr by_; have gc := close_grid ic hpx mc bx_.
have [|||c h1 h2] := paint_all_painted (objs := objs) base hpx hpy gr gc.
- by move=> v /by_; lra.
- by move=> v /bx_; lra.
- move=> o ho; split; last by have := hin o ho; lra.
  by split; rewrite ?In_x_edges ?In_y_edges; exists o; auto.
exists (Raster (size (close_list rl py)) (size (close_list cl px)) c), (close_list cl px), (close_list rl py); split=> //.
by rewrite /vector_layer e h1.
Qed.

(** ** Every point off the grid lines lies in a cell *)
Lemma in_cell_ex a v : 0 < v < last 0 a -> ~ List.In v a -> exists i, in_cell a i v.
Proof.
suff H : forall b, b < v < last b a -> ~ List.In v a -> exists2 i, (i < size a)%N & (if i is i'.+1 then nth 0 a i' else b) < v < nth 0 a i.
  by move=> h1 h2; have [i h3 h4] := H 0 h1 h2; exists i; split.
elim: a => [|y a IH] b /= hb hv; first by lra.
case: (Rlt_dec v y) => h; first by exists 0%N => //=; lra.
have hy : y < v by case: (Rtotal_order y v) => [//|[e|]]; [case: hv; left|lra].
have [||i h1 h2] := IH y; [lra|by move=> ?; apply: hv; right|].
by exists i.+1 => //; case: i h1 h2 => [|i].
Qed.

(** ** Coinciding edges *)
Lemma bisect_local fuel a x lo hi : (lo <= hi)%N -> (hi <= size a)%N -> (hi - lo <= fuel)%N ->
  ((0 < lo)%N -> nth 0 a lo.-1 < x) -> ((hi < size a)%N -> x <= nth 0 a hi) ->
  [/\ (bisect fuel a x lo hi <= size a)%N, (0 < bisect fuel a x lo hi)%N -> nth 0 a (bisect fuel a x lo hi).-1 < x
    & (bisect fuel a x lo hi < size a)%N -> x <= nth 0 a (bisect fuel a x lo hi)].
Proof.
elim: fuel lo hi => [|f IH] lo hi h1 h2 h3 h4 h5 /=.
  have e : lo = hi by apply/eqP; rewrite eqn_leq h1 /=; move: h3; rewrite leqn0 subn_eq0.
  by rewrite e in h4 *; split.
case: ifP => [hl|/negbT]; last first.
  by rewrite -leqNgt => hl; have e : lo = hi by [apply/eqP; rewrite eqn_leq h1]; rewrite e in h4 *; split.
set mid := (lo + hi)./2.
have m1 : (lo <= mid)%N by rewrite /mid geq_half_double -addnn leq_add2l.
have m2 : (mid < hi)%N by rewrite ltnNge /mid geq_half_double -ltnNge -addnn ltn_add2r.
have m3 : (mid < size a)%N by exact: leq_trans h2.
case: rltbP => hx.
  apply: (IH mid.+1 hi) => //.
  by move: h3; rewrite !leq_subLR => h; apply: leq_trans h _; rewrite addnS -addSn leq_add2r.
apply: (IH lo mid) => //.
- exact: ltnW.
- by rewrite -ltnS; apply: leq_trans h3; rewrite ltn_sub2r.
- by move=> _; lra.
Qed.

Definition ghost (d : R) (es a us : seq R) : Prop :=
  [/\ size us = size a, forall k, (k < size a)%N -> Rabs (nth 0 a k - nth 0 us k) <= d /\ List.In (nth 0 us k) es
    & forall i j, (i <= j)%N -> (j < size a)%N -> nth 0 us i <= nth 0 us j].

Lemma abs_le x d : Rabs x <= d <-> - d <= x <= d.
Proof. by split; [move=> h; split; move: h; rewrite /Rabs; case: Rcase_abs => h1 h2; lra|move=> h; rewrite /Rabs; case: Rcase_abs => h1; lra]. Qed.
Lemma abs_gt x d : d < Rabs x -> d < x \/ x < - d.
Proof. by rewrite /Rabs; case: Rcase_abs => h1 h2; [right|left]; lra. Qed.

Lemma insert_ghost d es a us v v' : ghost d es a us -> apart d es -> List.In v es -> Rabs (v' - v) <= d ->
  exists us', ghost d es (insert_at a (bisect_left a v) v') us'.
Proof.
move=> [g1 g2 g3] hap hv hd; set i := bisect_left a v.
have [i1 i2 i3] : [/\ (i <= size a)%N, (0 < i)%N -> nth 0 a i.-1 < v & (i < size a)%N -> v <= nth 0 a i].
  by apply: bisect_local => //; [rewrite subn0|rewrite ltnn].
have lowP k : (k < i)%N -> nth 0 us k <= v.
  move=> hk; have hi : (0 < i)%N by exact: leq_ltn_trans hk.
  have hp : (i.-1 < size a)%N by apply: leq_trans i1; rewrite prednK.
  have hki : (k <= i.-1)%N by rewrite -ltnS prednK.
  apply: Rle_trans (g3 _ _ hki hp) _; have [b1 b2] := g2 _ hp; move/abs_le: b1 => b1; have := i2 hi.
  by case: (hap _ _ b2 hv) => [->|/abs_gt]; lra.
have highP k : (i <= k)%N -> (k < size a)%N -> v <= nth 0 us k.
  move=> h1 h2; have hi : (i < size a)%N by exact: leq_ltn_trans h2.
  apply: Rle_trans (g3 _ _ h1 h2); have [b1 b2] := g2 _ hi; move/abs_le: b1 => b1; have := i3 hi.
  by case: (hap _ _ b2 hv) => [->|/abs_gt]; lra.
have i1' : (i <= size us)%N by rewrite g1.
exists (insert_at us i v); split; first by rewrite !size_insert g1.
- move=> k; rewrite size_insert !nth_insert // => hk; case: ltnP => h1; first by apply: g2; apply: leq_trans i1.
  case: eqP => [_|h2] //; apply: g2.
  have h3 : (i < k)%N by rewrite ltn_neqAle h1 andbT eq_sym; apply/eqP.
  by case: k hk h3 {h1 h2}.
- move=> p q hpq; rewrite size_insert !nth_insert // => hq.
  case: (ltnP p i) => hp.
    case: (ltnP q i) => hqi; first by apply: g3 => //; apply: leq_trans i1.
    case: eqP => [_|hne]; first exact: lowP.
    have hq' : (i < q)%N by rewrite ltn_neqAle hqi andbT eq_sym; apply/eqP.
    case: q hpq hq {hqi hne} hq' => // q hpq hq hq'; rewrite /=.
    by apply: g3 => //; apply: ltnW; apply: leq_trans hp _.
  case: eqP => [e|hne].
    have hqi : (i <= q)%N by rewrite -e.
    rewrite (ltnNge q i) hqi /=; case: eqP => [_|hq2]; first lra.
    have hq' : (i < q)%N by rewrite ltn_neqAle hqi andbT eq_sym; apply/eqP.
    by case: q hq hq' {hpq hqi hq2} => // q hq hq'; apply: highP.
  have hp' : (i < p)%N by rewrite ltn_neqAle hp andbT eq_sym; apply/eqP.
  have hiq : (i < q)%N by apply: leq_trans hpq.
  rewrite (ltnNge q i) (ltnW hiq) /=.
  have -> : (q == i) = false by rewrite eq_sym; apply: ltn_eqF.
  by case: q hpq hq hiq => // q hpq hq hiq; case: p hp' hpq {hp hne} => // p hp' hpq /=; exact: g3.
Qed.

Lemma insert_edge_near upper pert a v p d es us : 0 <= pert -> (pert + perturbation_unit) * (1 + p) <= d -> 0 <= v <= p ->
  ghost d es a us -> apart d es -> List.In v es -> exists pert' a' v' us',
  [/\ insert_edge upper pert a v = (pert', a', v'), 0 <= pert' <= pert + perturbation_unit, Rabs (v' - v) <= d /\ List.In v' a',
      forall w, List.In w a -> List.In w a' & ghost d es a' us'].
Proof.
move=> p0 hd hv hg hap hin.
have u0 : 0 < perturbation_unit by rewrite /perturbation_unit; lra.
have d0 : 0 <= d.
  apply: Rle_trans hd; apply: Rmult_le_pos; lra.
rewrite /insert_edge; set i := bisect_left a v.
case: ifP => _; last first.
  have hv' : Rabs (v - v) <= d by rewrite Rminus_diag_eq // Rabs_R0.
  have [us' h] := insert_ghost hg hap hin hv'.
  exists pert, (insert_at a i v), v, us'; split=> //; first lra.
    by split=> //; rewrite In_insert; left.
  by move=> w hw; rewrite In_insert; right.
set v' := if upper then _ else _.
have hv' : Rabs (v' - v) <= d.
  have e1 : pert + perturbation_unit <= d.
    apply: Rle_trans hd; rewrite -{1}(Rmult_1_r (pert + perturbation_unit)); apply: Rmult_le_compat_l; lra.
  have e2 : 0 <= v * (pert + perturbation_unit) <= d.
    split; first by apply: Rmult_le_pos; lra.
    apply: Rle_trans hd; rewrite Rmult_comm; apply: Rmult_le_compat_l; lra.
  by apply/abs_le; rewrite /v'; case: upper {v'}; [case: reqbPP => _|]; lra.
have [us' h] := insert_ghost hg hap hin hv'.
exists (pert + perturbation_unit), (insert_at a i v'), v', us'; split=> //; first lra.
  by split=> //; rewrite In_insert; left.
by move=> w hw; rewrite In_insert; right.
Qed.

(** The moved copy of a rectangle, with its edges in the lists. *)
Definition moved (dx dy : R) (rows_l cols_l : seq R) (o o' : rect) : Prop :=
  [/\ r_index o' = r_index o, Rabs (r_top o' - r_top o) <= dy /\ List.In (r_top o') rows_l,
      Rabs (r_bottom o' - r_bottom o) <= dy /\ List.In (r_bottom o') rows_l,
      Rabs (r_left o' - r_left o) <= dx /\ List.In (r_left o') cols_l
    & Rabs (r_right o' - r_right o) <= dx /\ List.In (r_right o') cols_l].

Lemma Forall2_impl (A B : Type) (P Q : A -> B -> Prop) s t : (forall x y, P x y -> Q x y) -> List.Forall2 P s t -> List.Forall2 Q s t.
Proof. by move=> h; elim=> [|x y s' t' h1 _ IH]; constructor; auto. Qed.
Lemma Forall2_in (A B : Type) (P : A -> B -> Prop) s t x : List.Forall2 P s t -> List.In x s -> exists y, P x y.
Proof. by elim=> [|a b s' t' h1 _ IH] //= [<-|/IH //]; exists b. Qed.
Lemma moved_mono dx dy rl cl rl' cl' o o' : (forall v, List.In v rl -> List.In v rl') -> (forall v, List.In v cl -> List.In v cl') ->
  moved dx dy rl cl o o' -> moved dx dy rl' cl' o o'.
Proof. by move=> h1 h2 [e [t1 t2] [b1 b2] [l1 l2] [r1 r2]]; split; auto. Qed.

Lemma grid_lists_near px py dx dy ex ey objs : 0 < px -> 0 < py ->
  (forall o, List.In o objs -> 0 <= r_left o < r_right o /\ r_right o <= px /\ 0 <= r_top o < r_bottom o /\ r_bottom o <= py) ->
  (forall o, List.In o objs -> [/\ List.In (r_top o) ey, List.In (r_bottom o) ey, List.In (r_left o) ex & List.In (r_right o) ex]) ->
  INR (4 * size objs) * perturbation_unit * (1 + px) <= dx -> INR (4 * size objs) * perturbation_unit * (1 + py) <= dy ->
  apart dx ex -> apart dy ey ->
  exists pert rows_l cols_l objs' ur uc, [/\ grid_lists objs = (pert, rows_l, cols_l, objs'), ghost dy ey rows_l ur, ghost dx ex cols_l uc
    & List.Forall2 (moved dx dy rows_l cols_l) objs objs'].
Proof.
move=> hpx hpy hin hed hdx hdy ax ay; rewrite /grid_lists.
have u0 : 0 < perturbation_unit by rewrite /perturbation_unit; lra.
have H : forall todo pre pert rl cl done ur uc, objs = pre ++ todo -> 0 <= pert ->
   (pert + INR (4 * size todo) * perturbation_unit) * (1 + px) <= dx ->
   (pert + INR (4 * size todo) * perturbation_unit) * (1 + py) <= dy ->
   ghost dy ey rl ur -> ghost dx ex cl uc -> List.Forall2 (moved dx dy rl cl) pre done ->
   exists pert' rows_l cols_l objs' ur uc, [/\ foldl insert_object (pert, rl, cl, done) todo = (pert', rows_l, cols_l, objs'),
     ghost dy ey rows_l ur, ghost dx ex cols_l uc & List.Forall2 (moved dx dy rows_l cols_l) objs objs'].
  elim=> [|o todo IH] pre pert rl cl done ur uc e p0 bx by_ gr gc hf.
    by exists pert, rl, cl, done, ur, uc; split=> //; rewrite e cats0.
  have ho : List.In o objs by rewrite e In_cat; right; left.
  have [hl [hr [ht hb]]] := hin o ho; have [i1 i2 i3 i4] := hed o ho.
  set k := INR (4 * size todo); have k0 : 0 <= k by exact: pos_INR.
  have ek : INR (4 * size (o :: todo)) = k + 4.
    have -> : (4 * size (o :: todo) = 4 * size todo + 4)%N by rewrite -[size (o :: todo)]/((size todo).+1)%N mulnS addnC.
    by rewrite plus_INR; congr (_ + _); rewrite /=; lra.
  rewrite ek in bx by_.
  have ku : 0 <= k * perturbation_unit by apply: Rmult_le_pos; lra.
  have mono q w z : 0 < q -> w <= z -> w * (1 + q) <= z * (1 + q) by move=> *; apply: Rmult_le_compat_r; lra.
  have [p1 [rl1 [t [ur1 [e1 b1 m1 s1 g1]]]]] : exists pert' a' v' us', [/\ insert_edge true pert rl (r_top o) = (pert', a', v'),
      0 <= pert' <= pert + perturbation_unit, Rabs (v' - r_top o) <= dy /\ List.In v' a', forall w, List.In w rl -> List.In w a' & ghost dy ey a' us'].
    by apply: (insert_edge_near true p0 _ _ gr ay i1 (p := py)); [apply: Rle_trans (mono _ _ _ hpy _) by_; lra|lra].
  have [p2 [rl2 [b [ur2 [e2 b2 m2 s2 g2]]]]] : exists pert' a' v' us', [/\ insert_edge false p1 rl1 (r_bottom o) = (pert', a', v'),
      0 <= pert' <= p1 + perturbation_unit, Rabs (v' - r_bottom o) <= dy /\ List.In v' a', forall w, List.In w rl1 -> List.In w a' & ghost dy ey a' us'].
    by apply: (insert_edge_near false (proj1 b1) _ _ g1 ay i2 (p := py)); [apply: Rle_trans (mono _ _ _ hpy _) by_; lra|lra].
  have [p3 [cl1 [l [uc1 [e3 b3 m3 s3 g3]]]]] : exists pert' a' v' us', [/\ insert_edge true p2 cl (r_left o) = (pert', a', v'),
      0 <= pert' <= p2 + perturbation_unit, Rabs (v' - r_left o) <= dx /\ List.In v' a', forall w, List.In w cl -> List.In w a' & ghost dx ex a' us'].
    by apply: (insert_edge_near true (proj1 b2) _ _ gc ax i3 (p := px)); [apply: Rle_trans (mono _ _ _ hpx _) bx; lra|lra].
  have [p4 [cl2 [r [uc2 [e4 b4 m4 s4 g4]]]]] : exists pert' a' v' us', [/\ insert_edge false p3 cl1 (r_right o) = (pert', a', v'),
      0 <= pert' <= p3 + perturbation_unit, Rabs (v' - r_right o) <= dx /\ List.In v' a', forall w, List.In w cl1 -> List.In w a' & ghost dx ex a' us'].
    by apply: (insert_edge_near false (proj1 b3) _ _ g3 ax i4 (p := px)); [apply: Rle_trans (mono _ _ _ hpx _) bx; lra|lra].
  have -> : foldl insert_object (pert, rl, cl, done) (o :: todo) = foldl insert_object (p4, rl2, cl2, rcons done (Rect t l b r (r_index o))) todo.
    by rewrite -[LHS]/(foldl insert_object (insert_object (pert, rl, cl, done) o) todo) /insert_object e1 e2 e3 e4.
  apply: (IH (rcons pre o) p4 rl2 cl2 _ ur2 uc2) => //.
  - by rewrite cat_rcons.
  - lra.
  - apply: Rle_trans bx; apply: mono => //; rewrite -/k; lra.
  - apply: Rle_trans by_; apply: mono => //; rewrite -/k; lra.
  - rewrite -!cats1; apply: List.Forall2_app.
      apply: Forall2_impl hf => q q'; apply: moved_mono; auto.
    constructor; last by constructor.
    by case: m1 m2 m3 m4 => [? ?] [? ?] [? ?] [? ?]; split=> //=; split; auto.
have g0 d es : ghost d es [::] [::] by split=> // i j _; rewrite ltn0.
apply: (H objs [::] 0 [::] [::] [::] [::] [::]) => //; rewrite ?Rplus_0_l //; lra.
Qed.

Lemma close_near d p es a us : ghost d es a us -> 0 < p -> List.In p es -> List.In 0 es -> apart d es -> 0 <= d ->
  (forall v, List.In v es -> 0 <= v <= p) -> exists us',
  [/\ ghost d es (close_list a p) us', last 0 (close_list a p) = p, List.In p (close_list a p)
    & forall v, List.In v a -> v <> 0 -> List.In v (close_list a p)].
Proof.
move=> [g1 g2 g3] hp pin zin hap d0 hb.
set a1 := if nilp a || ~~ reqb (last 0 a) p then rcons a p else a.
have [us1 [g ela nil1 in1 pin1]] : exists us1, [/\ ghost d es a1 us1, last 0 a1 = p, ~~ nilp a1, forall v, List.In v a -> List.In v a1 & List.In p a1].
  rewrite /a1; case: ifP => h; last first.
    move/negbT: h; rewrite negb_or negbK => /andP[h1 /reqbPP h2]; exists us; split=> //.
    by rewrite -h2 last_nth0 //; apply: nth_In; case: (a) h1.
  exists (rcons us p); split; last 4 first.
  - by rewrite last_rcons.
  - by rewrite /nilp size_rcons.
  - by move=> v hv; rewrite -cats1 In_cat; left.
  - by rewrite -cats1 In_cat; right; left.
  split; first by rewrite !size_rcons g1.
    move=> k; rewrite size_rcons ltnS !nth_rcons g1 => hk; case: ltnP => h1; first exact: g2.
    have -> : (k == size a) by rewrite eqn_leq hk h1.
    by split=> //; rewrite Rminus_diag_eq // Rabs_R0.
  move=> i j hij; rewrite size_rcons ltnS !nth_rcons g1 => hj; case: (ltnP j (size a)) => h1.
    by rewrite (leq_ltn_trans hij h1); apply: g3.
  have -> : (j == size a) by rewrite eqn_leq hj h1.
  case: ltnP => h2; first by have [_ /hb] := g2 _ h2; lra.
  by have -> : (i == size a) by [rewrite eqn_leq h2 (leq_trans hij hj)]; lra.
have -> : close_list a p = (if a1 is x :: a2 then (if reqb x 0 then a2 else a1) else a1) by [].
case: g ela nil1 in1 pin1; case: a1 => // x a2 k1 k2 k3 h2 _ h4 h5.
case: reqbPP => hx; last by exists us1; split=> // v hv _; apply: h4.
exists (behead us1); split.
- case: us1 k1 k2 k3 => //= w us1 [k1] k2 k3; split=> // [k hk|i j hij hj].
    exact: (k2 k.+1 hk).
  exact: (k3 i.+1 j.+1 hij hj).
- by case: a2 h2 {k1 k2 k3 h4 h5} => //= e; exfalso; move: e hp; rewrite hx => <-; lra.
- by case: h5 => // e; exfalso; move: hp; rewrite -e hx; lra.
- by move=> v /h4 [<-|//]; rewrite hx.
Qed.

Lemma span_near d es a us lo hi lo' hi' : ghost d es a us -> apart d es -> List.In 0 es -> List.In lo es -> List.In hi es ->
  0 <= lo < hi -> Rabs (lo' - lo) <= d -> Rabs (hi' - hi) <= d -> lo' = 0 \/ List.In lo' a -> List.In hi' a ->
  exists b e, span a lo' hi' = Some (b, e) /\ forall i v, in_cell a i v -> 0 < v -> away d es v -> ((b <= i < e)%N <-> lo < v < hi).
Proof.
move=> [g1 g2 g3] hap zin loin hiin hlo nlo nhi ilo ihi.
have cellP i v : in_cell a i v -> away d es v ->
    (forall k, (k < i)%N -> nth 0 us k < v) /\ (forall k, (i <= k)%N -> (k < size a)%N -> v < nth 0 us k).
  move=> [hi1 [hv1 hv2]] hw; split=> k hk.
    case: i hi1 hv1 {hv2} hk => // i hi1 hv1; rewrite ltnS => hk; apply: Rle_lt_trans (g3 k i hk (ltnW hi1)) _.
    by have [b1 b2] := g2 _ (ltnW hi1); move/abs_le: b1; case/abs_gt: (hw _ b2); lra.
  move=> hk2; apply: Rlt_le_trans (g3 _ _ hk hk2).
  by have [b1 b2] := g2 _ hi1; move/abs_le: b1; case/abs_gt: (hw _ b2); lra.
have orig w w' k : List.In w es -> Rabs (w' - w) <= d -> (k < size a)%N -> nth 0 a k = w' -> nth 0 us k = w.
  move=> h1 /abs_le h2 h3 h4; have [/abs_le b1 b2] := g2 _ h3.
  by case: (hap _ _ b2 h1) => // /abs_gt; rewrite h4 in b1; lra.
have [e [e1 e2 e3]] := index_ofP ihi; have e4 := orig _ _ _ hiin nhi e2 e3.
have [b [hb1 hb2]] : exists b, (if reqb lo' 0 then Some 0%N else (if index_of a lo' is Some k then Some k.+1 else None)) = Some b /\
   forall i v, in_cell a i v -> 0 < v -> away d es v -> ((b <= i)%N <-> lo < v).
  case: reqbPP => [el|nl].
    have lo0 : lo = 0 by case: (hap _ _ loin zin) => // /abs_gt; move/abs_le: nlo; lra.
    by exists 0%N; split=> // i v _ hv _; rewrite lo0.
  have lin : List.In lo' a by case: ilo.
  have [k [k1 k2 k3]] := index_ofP lin; have k4 := orig _ _ _ loin nlo k2 k3.
  rewrite k1; exists k.+1; split=> // i v hc _ hw; have [c1 c2] := cellP _ _ hc hw; split.
    by move=> h; rewrite -k4; apply: c1.
  by move=> h; rewrite ltnNge; apply/negP => h1; have := c2 _ h1 k2; lra.
exists b, e.+1; split; first by rewrite /span hb1 e1.
move=> i v hc v0 hw; have := hb2 _ _ hc v0 hw; have [c1 c2] := cellP _ _ hc hw => hbi; split.
  by move=> /andP[/hbi h1]; rewrite ltnS => h2; split=> //; rewrite -e4; apply: c2.
move=> [/hbi -> h2] /=; rewrite ltnS leqNgt; apply/negP => h3; have := c1 _ h3; lra.
Qed.

Lemma paint_all_near px py dx dy ex ey ur uc rows_l cols_l base objs objs' : 0 < px -> 0 < py ->
  ghost dy ey rows_l ur -> ghost dx ex cols_l uc -> apart dx ex -> apart dy ey -> List.In 0 ex -> List.In 0 ey ->
  (forall o, List.In o objs -> [/\ List.In (r_top o) ey, List.In (r_bottom o) ey, List.In (r_left o) ex & List.In (r_right o) ex]
     /\ 0 <= r_left o < r_right o /\ 0 <= r_top o < r_bottom o) ->
  List.Forall2 (fun o o' => [/\ r_index o' = r_index o, Rabs (r_top o' - r_top o) <= dy /\ (r_top o' = 0 \/ List.In (r_top o') rows_l),
      Rabs (r_bottom o' - r_bottom o) <= dy /\ List.In (r_bottom o') rows_l,
      Rabs (r_left o' - r_left o) <= dx /\ (r_left o' = 0 \/ List.In (r_left o') cols_l)
    & Rabs (r_right o' - r_right o) <= dx /\ List.In (r_right o') cols_l]) objs objs' ->
  exists2 cell, paint_all rows_l cols_l (fun _ _ => base) objs' = Some cell &
    forall i j x y, in_cell rows_l i y -> in_cell cols_l j x -> 0 < x -> 0 < y -> away dx ex x -> away dy ey y ->
      painted base objs x y (cell i j).
Proof.
move=> hpx hpy gr gc ax ay zx zy hin hf.
suff H : forall done cell0,
    (forall i j x y, in_cell rows_l i y -> in_cell cols_l j x -> 0 < x -> 0 < y -> away dx ex x -> away dy ey y -> painted base done x y (cell0 i j)) ->
    exists2 cell, paint_all rows_l cols_l cell0 objs' = Some cell &
    forall i j x y, in_cell rows_l i y -> in_cell cols_l j x -> 0 < x -> 0 < y -> away dx ex x -> away dy ey y -> painted base (done ++ objs) x y (cell i j).
  by have := H [::] (fun _ _ => base); apply=> *; right.
elim: hf hin => [|o o' todo todo' hm _ IH] ho done cell0 hd.
  by exists cell0 => // i j x y; rewrite cats0; apply: hd.
have [[t1 t2 t3 t4] [lr tb]] := ho o (or_introl erefl).
case: hm => ei [m1 m2] [m3 m4] [m5 m6] [m7 m8].
have [rb [re [er hr]]] := span_near gr ay zy t1 t2 tb m1 m3 m2 m4.
have [cb [ce [ec hc]]] := span_near gc ax zx t3 t4 lr m5 m7 m6 m8.
rewrite -[paint_all _ _ _ _]/(if paint rows_l cols_l cell0 o' is Some cell' then paint_all rows_l cols_l cell' todo' else None) /paint er ec.
have [||cell h1 h2] := IH _ (rcons done o) (fun i j => if (rb <= i < re)%N && (cb <= j < ce)%N then r_index o' else cell0 i j).
- by move=> q h'; apply: ho; right.
- move=> i j x y ri cj x0 y0 wx wy.
  have := painted_rcons o (hd i j x y ri cj x0 y0 wx wy); have := hr _ _ ri y0 wy; have := hc _ _ cj x0 wx; rewrite ei.
  case: (rb <= i < re)%N; case: (cb <= j < ce)%N => -[k1 k1'] [k2 k2'] /=.
  + by have := k1 isT; have := k2 isT => -[? ?] [? ?]; do 4 case: Rlt_dec => //.
  + by do 4 case: Rlt_dec => //; move=> *; exfalso; have : false by apply: k1'; split.
  + by do 4 case: Rlt_dec => //; move=> *; exfalso; have : false by apply: k2'; split.
  + by do 4 case: Rlt_dec => //; move=> *; exfalso; have : false by apply: k1'; split.
- by exists cell => // i j x y ri cj; rewrite -cat_rcons; apply: h2.
Qed.

Theorem vector_layer_near px py base objs : in_period px py objs ->
  apart (nudge (size objs) px) (0 :: px :: x_edges objs) -> apart (nudge (size objs) py) (0 :: py :: y_edges objs) ->
  exists r cols_l rows_l, [/\ vector_layer px py base objs = Some (r, cols_l, rows_l),
    rows r = size rows_l /\ cols r = size cols_l,
    grid_near (nudge (size objs) px) px (x_edges objs) cols_l, grid_near (nudge (size objs) py) py (y_edges objs) rows_l
  & forall i j x y, in_cell rows_l i y -> in_cell cols_l j x -> 0 < x -> 0 < y ->
      away (nudge (size objs) px) (0 :: px :: x_edges objs) x -> away (nudge (size objs) py) (0 :: py :: y_edges objs) y ->
      painted base objs x y (ModelFourier.px r i j)].
Proof.
move=> [hpx hpy hin] ax ay; set dx := nudge _ px in ax *; set dy := nudge _ py in ay *.
set ex := 0 :: px :: _ in ax *; set ey := 0 :: py :: _ in ay *.
have nud p : nudge (size objs) p = INR (4 * size objs) * perturbation_unit * (1 + p) by rewrite /nudge /perturbation_unit; field.
have d0 p : 0 < p -> 0 <= nudge (size objs) p.
  move=> hp; rewrite nud; apply: Rmult_le_pos; last lra.
  by apply: Rmult_le_pos; [exact: pos_INR|rewrite /perturbation_unit; lra].
have hed o : List.In o objs -> [/\ List.In (r_top o) ey, List.In (r_bottom o) ey, List.In (r_left o) ex & List.In (r_right o) ex].
  by move=> ho; split; right; right; rewrite ?In_x_edges ?In_y_edges; exists o; auto.
have bx : INR (4 * size objs) * perturbation_unit * (1 + px) <= dx by rewrite -nud; apply: Rle_refl.
have by_ : INR (4 * size objs) * perturbation_unit * (1 + py) <= dy by rewrite -nud; apply: Rle_refl.
have [pert [rl [cl [objs' [ur [uc [e gr gc hm]]]]]]] := grid_lists_near hpx hpy hin hed bx by_ ax ay.
have ry v : List.In v ey -> 0 <= v <= py.
  by case=> [<-|[<-|]]; [lra|lra|move=> /In_y_edges [o /hin h [->|->]]; lra].
have rx v : List.In v ex -> 0 <= v <= px.
  by case=> [<-|[<-|]]; [lra|lra|move=> /In_x_edges [o /hin h [->|->]]; lra].
have zy : List.In 0 ey by left. have zx : List.In 0 ex by left.
have p_y : List.In py ey by right; left. have p_x : List.In px ex by right; left.
have [ur' [gr' lr' pr' ir']] := close_near gr hpy p_y zy ay (d0 _ hpy) ry.
have [uc' [gc' lc' pc' ic']] := close_near gc hpx p_x zx ax (d0 _ hpx) rx.
have nz p es w w' : apart (nudge (size objs) p) es -> List.In 0 es -> List.In w es -> 0 < w -> Rabs (w' - w) <= nudge (size objs) p -> w' <> 0.
  by move=> h1 h2 h3 h4 /abs_le h5 h6; case: (h1 _ _ h3 h2) => [?|/abs_gt]; lra.
have zcase w (l l' : seq R) : (forall v, List.In v l -> v <> 0 -> List.In v l') -> List.In w l -> w = 0 \/ List.In w l'.
  by move=> h1 h2; case: (Req_EM_T w 0) => h3; [left|right; apply: h1].
have hm' : List.Forall2 (fun o o' => [/\ r_index o' = r_index o,
      Rabs (r_top o' - r_top o) <= dy /\ (r_top o' = 0 \/ List.In (r_top o') (close_list rl py)),
      Rabs (r_bottom o' - r_bottom o) <= dy /\ List.In (r_bottom o') (close_list rl py),
      Rabs (r_left o' - r_left o) <= dx /\ (r_left o' = 0 \/ List.In (r_left o') (close_list cl px))
    & Rabs (r_right o' - r_right o) <= dx /\ List.In (r_right o') (close_list cl px)]) objs objs'.
  elim: hm hin hed => [|o o' s t hm _ IH] h1 h2; constructor; last by apply: IH => q hq; [apply: h1; right|apply: h2; right].
  have [q1 [q2 [q3 q4]]] := h1 o (or_introl erefl); have [c1 c2 c3 c4] := h2 o (or_introl erefl).
  case: hm => ei [m1 m2] [m3 m4] [m5 m6] [m7 m8]; split=> //; split=> //.
  - exact: zcase m2.
  - by apply: ir' => //; apply: (nz _ _ _ _ ay zy c2 _ m3); lra.
  - exact: zcase m6.
  - by apply: ic' => //; apply: (nz _ _ _ _ ax zx c4 _ m7); lra.
have [|c h1 h2] := paint_all_near base hpx hpy gr' gc' ax ay zx zy _ hm'.
  by move=> o ho; split; [exact: hed|have := hin o ho; lra].
exists (Raster (size (close_list rl py)) (size (close_list cl px)) c), (close_list cl px), (close_list rl py); split=> //.
- by rewrite /vector_layer e h1.
- split=> //.
  + by move=> v hv; have [k hk <-] := In_nth hv; case: gc' => _ g _; have [b1 b2] := g k hk; exists (nth 0 uc' k).
  + move=> u hu [<-|h]; first by exists px => //; rewrite Rminus_diag_eq // Rabs_R0; apply: d0.
    have uin : List.In u ex by right; right.
    have u0 : 0 < u by have := rx _ uin; lra.
    move/In_x_edges: h => [o ho hu']; have [o' [_ _ _ [m5 m6] [m7 m8]]] := Forall2_in hm' ho.
    case: hu' => eu; rewrite -eu in m5 m7; last by exists (r_right o').
    by exists (r_left o') => //; case: m6 => // z; case: (nz _ _ _ _ ax zx uin u0 m5).
- split=> //.
  + by move=> v hv; have [k hk <-] := In_nth hv; case: gr' => _ g _; have [b1 b2] := g k hk; exists (nth 0 ur' k).
  + move=> u hu [<-|h]; first by exists py => //; rewrite Rminus_diag_eq // Rabs_R0; apply: d0.
    have uin : List.In u ey by right; right.
    have u0 : 0 < u by have := ry _ uin; lra.
    move/In_y_edges: h => [o ho hu']; have [o' [_ [m1 m2] [m3 m4] _ _]] := Forall2_in hm' ho.
    case: hu' => eu; rewrite -eu in m1 m3; last by exists (r_bottom o').
    by exists (r_top o') => //; case: m2 => // z; case: (nz _ _ _ _ ay zy uin u0 m1).
Qed.
