(** The strips of a rotated rectangle follow its outline when the two split counts agree. *)
From Coq Require Import Reals Lra.
From mathcomp Require Import all_ssreflect ssralg matrix.
From Coquelicot Require Import Complex Rcomplements.
From Verif Require Import Cplx ModelTM ModelFourier ModelVec ModelShape SpecShape.

Set Implicit Arguments.
Unset Strict Implicit.
Unset Printing Implicit Defensive.
Local Open Scope R_scope.

Notation trip := (R * R * R)%type.

(** ** Strips of a list of triples *)
Definition link (k : C) (a b : trip) : rect :=
  Rect b.1.2 ((a.1.1 + b.1.1) / 2) a.1.2 ((a.2 + b.2) / 2) k.

Fixpoint links (k : C) (a : trip) (l : seq trip) : seq rect :=
  if l is b :: l' then link k a b :: links k b l' else [::].

Lemma strips_links k a l : strips (a :: l) k = links k a l.
Proof.
elim: l a => [|b l ih] a //=.
rewrite -ih /strips /=; rewrite /mkseq /= -(addn0 1%N) iotaDl -map_comp.
by case: a => [[xl y] xr]; case: b => [[xl' y'] xr'].
Qed.

Lemma links_cat k a l b l' : links k a (l ++ b :: l') = links k a l ++ link k (last a l) b :: links k b l'.
Proof. by elim: l a => [|c l ih] a //=; rewrite ih. Qed.

Lemma links_mkseq k (f : nat -> trip) n : links k (f 0%N) (mkseq (fun i => f i.+1) n) = mkseq (fun i => link k (f i) (f i.+1)) n.
Proof.
elim: n f => [|n ih] f //=.
rewrite /mkseq /= -(addn0 1%N) !iotaDl -!map_comp; congr cons.
exact: (ih (fun i => f i.+1)).
Qed.

Lemma mkseqS0 T (f : nat -> T) n : mkseq f n.+1 = f 0%N :: mkseq (fun i => f i.+1) n.
Proof. by rewrite /mkseq /= -(addn0 1%N) iotaDl -map_comp. Qed.

Lemma last_mkseq T (f : nat -> T) n : last (f 0%N) (mkseq (fun i => f i.+1) n) = f n.
Proof. by case: n => [|n] //; rewrite mkseqS last_rcons. Qed.

(** Three runs, one after the other. *)
Lemma strips3 k (f g h : nat -> trip) a b c :
  strips (mkseq f a.+1 ++ mkseq g b.+1 ++ mkseq h c.+1) k =
  mkseq (fun i => link k (f i) (f i.+1)) a ++ link k (f a) (g 0%N) :: mkseq (fun i => link k (g i) (g i.+1)) b
  ++ link k (g b) (h 0%N) :: mkseq (fun i => link k (h i) (h i.+1)) c.
Proof.
rewrite !mkseqS0 /= strips_links links_cat links_mkseq last_mkseq; congr (_ ++ _ :: _).
by rewrite links_cat !links_mkseq last_mkseq.
Qed.

Lemma chain_stacked k (f : nat -> trip) n lo ss : stacked_from (f n).1.2 lo ss ->
  stacked_from (f 0%N).1.2 lo (mkseq (fun i => link k (f i) (f i.+1)) n ++ ss).
Proof.
elim: n f => [|n ih] f h //; rewrite mkseqS0 /=; split=> //.
exact: (ih (fun i => f i.+1)).
Qed.

Lemma area_cat l l' : area_of (l ++ l') = area_of l + area_of l'.
Proof. by elim: l => [|x l ih] /=; [ring|rewrite ih; ring]. Qed.

(** ** A run of an affine family *)
Definition mix (a b : trip) (t : R) : trip :=
  (a.1.1 + (b.1.1 - a.1.1) * t, a.1.2 + (b.1.2 - a.1.2) * t, a.2 + (b.2 - a.2) * t).

Definition run k (a b : trip) n := mkseq (fun i => link k (mix a b (INR i / INR n)) (mix a b (INR i.+1 / INR n))) n.

Definition ok (S : R -> R -> Prop) (p : trip) := section_of S p.1.2 p.1.1 p.2.

Lemma link_mix k a b s t : link k (mix a b s) (mix a b t) =
  let m := mix a b ((s + t) / 2) in Rect (mix a b t).1.2 m.1.1 (mix a b s).1.2 m.2 k.
Proof. rewrite /link /mix /=; f_equal; field. Qed.

Lemma follows_link S k a b s t : b.1.2 <= a.1.2 -> s <= t -> ok S (mix a b ((s + t) / 2)) -> follows S (link k (mix a b s) (mix a b t)).
Proof.
move=> hab hst; rewrite link_mix /follows /ok /=; move: hab; move: (a.1.2) (b.1.2) => ya yb hab h; split; first nra.
have -> : (ya + (yb - ya) * t + (ya + (yb - ya) * s)) / 2 = ya + (yb - ya) * ((s + t) / 2) by field.
exact: h.
Qed.

Section Run.
Variables (k : C) (a b : trip) (n : nat).
Hypothesis n0 : (0 < n)%N.

Let N0 : 0 < INR n. Proof. by apply: lt_0_INR; apply/ltP. Qed.

Lemma run_follows S : b.1.2 <= a.1.2 -> (forall t, 0 <= t <= 1 -> ok S (mix a b t)) ->
  forall i, (i < n)%N -> follows S (link k (mix a b (INR i / INR n)) (mix a b (INR i.+1 / INR n))).
Proof.
move=> hab h i hi.
have i0 : 0 <= INR i := pos_INR i.
have i1 : INR i.+1 <= INR n by apply: le_INR; apply/leP.
rewrite S_INR in i1 *.
have e0 : 0 <= INR i / INR n by apply: Rmult_le_pos => //; left; apply: Rinv_0_lt_compat.
have e1 : (INR i + 1) / INR n <= 1 by apply/(Rle_div_l _ _ _ N0); rewrite Rmult_1_l.
have e2 : INR i / INR n <= (INR i + 1) / INR n.
  by apply: Rmult_le_compat_r; [left; apply: Rinv_0_lt_compat|lra].
apply: follows_link => //; apply: h; lra.
Qed.

Lemma run_stacked lo ss : stacked_from b.1.2 lo ss -> stacked_from a.1.2 lo (run k a b n ++ ss).
Proof.
move=> h; rewrite /run.
have hb : b.1.2 = (mix a b (INR n / INR n)).1.2 by rewrite /mix /=; field; lra.
have ha : a.1.2 = (mix a b (INR 0 / INR n)).1.2 by rewrite /mix /=; field; lra.
rewrite hb in h; rewrite ha.
exact: (@chain_stacked k (fun i => mix a b (INR i / INR n)) n).
Qed.

Lemma run_area : area_of (run k a b n) = (a.1.2 - b.1.2) * ((a.2 - a.1.1) + (b.2 - b.1.1)) / 2.
Proof.
have go m : area_of (mkseq (fun i => link k (mix a b (INR i / INR n)) (mix a b (INR i.+1 / INR n))) m) =
   (a.1.2 - b.1.2) / INR n * ((a.2 - a.1.1) * INR m + (b.2 - b.1.1 - (a.2 - a.1.1)) * (INR m * INR m) / (2 * INR n)).
  elim: m => [|m ih]; first by rewrite /mkseq /= /area_of /=; field; lra.
  rewrite mkseqS -cats1 area_cat ih link_mix !S_INR /area_of /=; field; lra.
rewrite /run go; field; lra.
Qed.
End Run.

(** ** The rectangle in its own axes *)
Section Canon.
Variables cx cy c s p q : R.
Hypotheses (c0 : 0 < c) (s0 : 0 < s) (cs : c * c + s * s = 1) (p0 : 0 < p) (q0 : 0 < q).

Definition X u v := u * c - v * s + cx.
Definition Y u v := u * s + v * c + cy.
Definition inS (x y : R) : Prop :=
  Rabs ((x - cx) * c + (y - cy) * s) <= p / 2 /\ Rabs (- ((x - cx) * s) + (y - cy) * c) <= q / 2.
Definition box (w : R * R) := (- (p / 2) <= w.1 <= p / 2) /\ (- (q / 2) <= w.2 <= q / 2).

Lemma own_u u v : (X u v - cx) * c + (Y u v - cy) * s = u.
Proof. by rewrite /X /Y; transitivity (u * (c * c + s * s)); [ring|rewrite cs; ring]. Qed.
Lemma own_v u v : - ((X u v - cx) * s) + (Y u v - cy) * c = v.
Proof. by rewrite /X /Y; transitivity (v * (c * c + s * s)); [ring|rewrite cs; ring]. Qed.
Lemma own_X x y : X ((x - cx) * c + (y - cy) * s) (- ((x - cx) * s) + (y - cy) * c) = x.
Proof. by rewrite /X; transitivity ((x - cx) * (c * c + s * s) + cx); [ring|rewrite cs; ring]. Qed.
Lemma own_Y x y : Y ((x - cx) * c + (y - cy) * s) (- ((x - cx) * s) + (y - cy) * c) = y.
Proof. by rewrite /Y; transitivity ((y - cy) * (c * c + s * s) + cy); [ring|rewrite cs; ring]. Qed.

Lemma abs_le x b : Rabs x <= b <-> - b <= x <= b.
Proof. split=> [h|h]; last exact: Rabs_le. have := Rabs_maj2 x; have := Rle_abs x; lra. Qed.

(** A section whose ends lie on the left and on the right sides. *)
Lemma section_ends (l r : R * R) : box l -> box r -> Y l.1 l.2 = Y r.1 r.2 -> X l.1 l.2 <= X r.1 r.2 ->
  l.1 = - (p / 2) \/ l.2 = q / 2 -> r.1 = p / 2 \/ r.2 = - (q / 2) ->
  section_of inS (Y l.1 l.2) (X l.1 l.2) (X r.1 r.2).
Proof.
case: l r => [lu lv] [ru rv] [/= l1 l2] [/= r1 r2] hy hx hl hr; split=> // x.
have lU := own_u lu lv; have lV := own_v lu lv; have rU := own_u ru rv; have rV := own_v ru rv.
rewrite -hy in rU rV.
rewrite /inS !abs_le.
move: (X lu lv) (X ru rv) (Y lu lv) lU lV rU rV hx => x0 x1 y lU lV rU rV hx.
split=> [[h1 h2]|h].
  have a1 : (x - x0) * c = (x - cx) * c + (y - cy) * s - lu by rewrite -lU; ring.
  have a2 : (x - x0) * s = lv - (- ((x - cx) * s) + (y - cy) * c) by rewrite -lV; ring.
  have b1 : (x1 - x) * c = ru - ((x - cx) * c + (y - cy) * s) by rewrite -rU; ring.
  have b2 : (x1 - x) * s = (- ((x - cx) * s) + (y - cy) * c) - rv by rewrite -rV; ring.
  have A : 0 <= x - x0.
    case: hl => e; [apply: (Rmult_le_reg_r c) => //|apply: (Rmult_le_reg_r s) => //]; rewrite ?a1 ?a2; lra.
  have B : 0 <= x1 - x.
    case: hr => e; [apply: (Rmult_le_reg_r c) => //|apply: (Rmult_le_reg_r s) => //]; rewrite ?b1 ?b2; lra.
  lra.
have k1 : x0 * c <= x * c by apply: Rmult_le_compat_r; lra.
have k2 : x * c <= x1 * c by apply: Rmult_le_compat_r; lra.
have k3 : x0 * s <= x * s by apply: Rmult_le_compat_r; lra.
have k4 : x * s <= x1 * s by apply: Rmult_le_compat_r; lra.
lra.
Qed.

Definition at_ (l r : R * R) : trip := (X l.1 l.2, Y l.1 l.2, X r.1 r.2).

Definition lerp (a b : R * R) t : R * R := (a.1 + (b.1 - a.1) * t, a.2 + (b.2 - a.2) * t).

Lemma lerp_box a b t : 0 <= t <= 1 -> box a -> box b -> box (lerp a b t).
Proof. case: a b => [a1 a2] [b1 b2] ht [/= ? ?] [/= ? ?]; rewrite /box /=; nra. Qed.

Lemma mix_at l0 r0 l1 r1 t : mix (at_ l0 r0) (at_ l1 r1) t = at_ (lerp l0 l1 t) (lerp r0 r1 t).
Proof. rewrite /mix /at_ /lerp /X /Y /=; f_equal; [f_equal|]; ring. Qed.

(** A run between two sections whose ends stay on the same sides. *)
Lemma run_ok l0 r0 l1 r1 : box l0 -> box r0 -> box l1 -> box r1 -> Y l0.1 l0.2 = Y r0.1 r0.2 -> Y l1.1 l1.2 = Y r1.1 r1.2 ->
  X l0.1 l0.2 <= X r0.1 r0.2 -> X l1.1 l1.2 <= X r1.1 r1.2 ->
  (l0.1 = - (p / 2) /\ l1.1 = - (p / 2)) \/ (l0.2 = q / 2 /\ l1.2 = q / 2) ->
  (r0.1 = p / 2 /\ r1.1 = p / 2) \/ (r0.2 = - (q / 2) /\ r1.2 = - (q / 2)) ->
  forall t, 0 <= t <= 1 -> ok inS (mix (at_ l0 r0) (at_ l1 r1) t).
Proof.
move=> bl0 br0 bl1 br1 y0 y1 x0 x1 hl hr t ht; rewrite mix_at; apply: section_ends; try exact: lerp_box.
- have e a b : Y (lerp a b t).1 (lerp a b t).2 = Y a.1 a.2 + (Y b.1 b.2 - Y a.1 a.2) * t by rewrite /Y /=; ring.
  by rewrite !e y0 y1.
- have e a b : X (lerp a b t).1 (lerp a b t).2 = X a.1 a.2 + (X b.1 b.2 - X a.1 a.2) * t by rewrite /X /=; ring.
  rewrite !e; nra.
- by case: hl => -[h h']; [left|right]; rewrite /lerp /= h h'; ring.
- by case: hr => -[h h']; [left|right]; rewrite /lerp /= h h'; ring.
Qed.

(** Highest and lowest point. *)
Lemma canon_extent : extent inS (Y (p / 2) (q / 2)) (Y (- (p / 2)) (- (q / 2))).
Proof.
split; last split.
- move=> x y [/abs_le h1 /abs_le h2]; rewrite -(own_Y x y).
  move: ((x - cx) * c + _) (- _ + _) h1 h2 => u v h1 h2; rewrite /Y; nra.
- by exists (X (p / 2) (q / 2)); rewrite /inS own_u own_v !abs_le; lra.
by exists (X (- (p / 2)) (- (q / 2))); rewrite /inS own_u own_v !abs_le; lra.
Qed.

(** The three runs. *)
Definition rows k (A B D E : trip) n : seq rect :=
  run k A B n ++ link k B B :: run k B D n ++ link k D D :: run k D E n.

Lemma link_self_stacked k (B : trip) lo ss : stacked_from B.1.2 lo ss -> stacked_from B.1.2 lo (link k B B :: ss).
Proof. by move=> h; split. Qed.

Lemma link_self_follows k (B : trip) : ok inS B -> follows inS (link k B B).
Proof.
rewrite /ok /follows /link /= => h; split; first lra.
have dbl z : (z + z) / 2 = z by field.
by rewrite !dbl.
Qed.

Lemma rows_good k A B D E n : (0 < n)%N -> B.1.2 <= A.1.2 -> D.1.2 <= B.1.2 -> E.1.2 <= D.1.2 ->
  (forall t, 0 <= t <= 1 -> ok inS (mix A B t)) -> (forall t, 0 <= t <= 1 -> ok inS (mix B D t)) ->
  (forall t, 0 <= t <= 1 -> ok inS (mix D E t)) ->
  stacked_from A.1.2 E.1.2 (rows k A B D E n) /\ forall i, (i < size (rows k A B D E n))%N ->
    follows inS (nth (Rect 0 0 0 0 k) (rows k A B D E n) i).
Proof.
move=> n0 h1 h2 h3 o1 o2 o3.
have m1 a b : mix a b 1 = b by case: b => [[? ?] ?]; rewrite /mix /=; f_equal; [f_equal|]; ring.
have okB : ok inS B by rewrite -(m1 A B); apply: o1; lra.
have okD : ok inS D by rewrite -(m1 B D); apply: o2; lra.
split.
  rewrite /rows; apply: run_stacked => //; apply: link_self_stacked.
  apply: run_stacked => //; apply: link_self_stacked.
  by rewrite -(cats0 (run _ _ _ _)); apply: run_stacked.
have sz a b : size (run k a b n) = n by rewrite size_mkseq.
have nr a b : b.1.2 <= a.1.2 -> (forall t, 0 <= t <= 1 -> ok inS (mix a b t)) -> forall j, (j < n)%N ->
    follows inS (nth (Rect 0 0 0 0 k) (run k a b n) j).
  by move=> hab hok j hj; rewrite /run nth_mkseq //; apply: run_follows.
move=> i; rewrite /rows size_cat /= size_cat /= !sz => hi.
rewrite nth_cat sz; case: ltnP => [i1|i1]; first exact: nr.
have {hi} : (i - n < (n + n.+1).+1)%N by rewrite ltn_subLR // !addnS in hi *.
case: (i - n)%N => [|j] hj /=; first exact: link_self_follows.
rewrite nth_cat sz; case: ltnP => [j1|j1]; first exact: nr.
have {hj} : (j - n < n.+1)%N by rewrite ltn_subLR // !addnS in hj *.
by case: (j - n)%N => [|l] hl /=; [exact: link_self_follows|apply: nr].
Qed.

Lemma rows_area k A B D E n : (0 < n)%N -> area_of (rows k A B D E n) =
  (A.1.2 - B.1.2) * ((A.2 - A.1.1) + (B.2 - B.1.1)) / 2 + (B.1.2 - D.1.2) * ((B.2 - B.1.1) + (D.2 - D.1.1)) / 2
  + (D.1.2 - E.1.2) * ((D.2 - D.1.1) + (E.2 - E.1.1)) / 2.
Proof.
move=> n0; rewrite /rows area_cat (run_area k A B n0) /=.
rewrite area_cat (run_area k B D n0) /= (run_area k D E n0); ring.
Qed.

(** What the choice of corners amounts to. *)
Definition canon_left := p * s < q * c.
Definition canon (f : corners) : Prop :=
  [/\ top1 f = (X (p / 2) (q / 2), Y (p / 2) (q / 2)), top4 f = (X (- (p / 2)) (- (q / 2)), Y (- (p / 2)) (- (q / 2))),
      sin (angle_inside f) = c, cos (angle_inside f) = s &
    if top2_left f then [/\ canon_left, top2 f = (X (- (p / 2)) (q / 2), Y (- (p / 2)) (q / 2)),
        top3 f = (X (p / 2) (- (q / 2)), Y (p / 2) (- (q / 2))) & length_top12 f = p]
    else [/\ ~ canon_left, top2 f = (X (p / 2) (- (q / 2)), Y (p / 2) (- (q / 2))),
        top3 f = (X (- (p / 2)) (q / 2), Y (- (p / 2)) (q / 2)) & length_top12 f = q]].

Let topP := (p / 2, q / 2).
Let botP := (- (p / 2), - (q / 2)).
(** The four sections at the corners. *)
Definition secA := at_ topP topP.
Definition secE := at_ botP botP.
Definition secB (left : bool) :=
  if left then at_ (- (p / 2), q / 2) (p / 2, q / 2 - p * s / c) else at_ (p / 2 - q * c / s, q / 2) (p / 2, - (q / 2)).
Definition secD (left : bool) :=
  if left then at_ (- (p / 2), - (q / 2) + p * s / c) (p / 2, - (q / 2)) else at_ (- (p / 2), q / 2) (- (p / 2) + q * c / s, - (q / 2)).

Lemma secB_y left : ((secB left).1.2 = if left then Y (- (p / 2)) (q / 2) else Y (p / 2) (- (q / 2))).
Proof. by case: left; rewrite //= /Y; field; lra. Qed.
Lemma secD_y left : ((secD left).1.2 = if left then Y (p / 2) (- (q / 2)) else Y (- (p / 2)) (q / 2)).
Proof. by case: left; rewrite //= /Y; field; lra. Qed.
Lemma secB_w left : (secB left).2 - (secB left).1.1 = if left then p / c else q / s.
Proof.
case: left; rewrite /= /X.
  by transitivity (p * (c * c + s * s) / c); [field; lra|rewrite cs; field; lra].
by transitivity (q * (c * c + s * s) / s); [field; lra|rewrite cs; field; lra].
Qed.
Lemma secD_w left : (secD left).2 - (secD left).1.1 = if left then p / c else q / s.
Proof.
case: left; rewrite /= /X.
  by transitivity (p * (c * c + s * s) / c); [field; lra|rewrite cs; field; lra].
by transitivity (q * (c * c + s * s) / s); [field; lra|rewrite cs; field; lra].
Qed.

Lemma eq_mkseq_in T (g h : nat -> T) n : (forall i, (i < n)%N -> g i = h i) -> mkseq g n = mkseq h n.
Proof. by move=> e; apply/eq_in_map => i; rewrite mem_iota => /andP[_]; exact: e. Qed.

Lemma canon_points f n : canon f -> (0 < n)%N -> outline f n n =
  let m A B := mkseq (fun i => mix A B (INR i / INR n)) n.+1 in
  m secA (secB (top2_left f)) ++ m (secB (top2_left f)) (secD (top2_left f)) ++ m (secD (top2_left f)) secE.
Proof.
case=> e1 e4 es ec hm n0.
have N0 : 0 < INR n by apply: lt_0_INR; apply/ltP.
have wB := secB_w (top2_left f); have wD := secD_w (top2_left f).
have yB := secB_y (top2_left f); have yD := secD_y (top2_left f).
have sub i : (i < n.+1)%N -> INR (n - i) = INR n - INR i by rewrite ltnS => /leP h; rewrite minus_INR.
rewrite /outline; case: (top2_left f) hm wB wD yB yD => -[hl e2 e3 e12] wB wD yB yD;
  rewrite e1 e2 e3 e4 e12 ?es ?ec; cbv zeta.
- have xB : (secB true).1.1 = X (- (p / 2)) (q / 2) by [].
  have xD : (secD true).2 = X (p / 2) (- (q / 2)) by [].
  have xB' : (secB true).2 = X (- (p / 2)) (q / 2) + p / c by rewrite -xB -wB; ring.
  have xD' : (secD true).1.1 = X (p / 2) (- (q / 2)) - p / c by rewrite -xD -wD; ring.
  congr (_ ++ _ ++ _); apply: eq_mkseq_in => i hi; rewrite /mix ?xB ?xB' ?xD ?xD' ?yB ?yD ?(sub i hi) /=;
    (f_equal; [f_equal|]); field; lra.
have xB : (secB false).2 = X (p / 2) (- (q / 2)) by [].
have xD : (secD false).1.1 = X (- (p / 2)) (q / 2) by [].
have xB' : (secB false).1.1 = X (p / 2) (- (q / 2)) - q / s by rewrite -xB -wB; ring.
have xD' : (secD false).2 = X (- (p / 2)) (q / 2) + q / s by rewrite -xD -wD; ring.
congr (_ ++ _ ++ _); apply: eq_mkseq_in => i hi; rewrite /mix ?xB ?xB' ?xD ?xD' ?yB ?yD ?(sub i hi) /=;
  (f_equal; [f_equal|]); field; lra.
Qed.

Lemma canon_outline f n k : canon f -> (0 < n)%N ->
  strips (outline f n n) k = rows k secA (secB (top2_left f)) (secD (top2_left f)) secE n.
Proof.
move=> hf n0; have N0 : 0 < INR n by apply: lt_0_INR; apply/ltP.
rewrite (canon_points hf n0); cbv zeta; rewrite strips3 /rows /run.
have m1 a b : mix a b (INR n / INR n) = b.
  by case: b => [[? ?] ?]; rewrite /mix /=; f_equal; [f_equal|]; field; lra.
have m0 a b : mix a b (INR 0 / INR n) = a.
  by case: a => [[? ?] ?]; rewrite /mix /=; f_equal; [f_equal|]; field; lra.
by rewrite !m1 !m0.
Qed.

Lemma canon_good f n k : canon f -> (0 < n)%N ->
  let ss := strips (outline f n n) k in
  stacked_from (top1 f).2 (top4 f).2 ss /\ (forall i, (i < size ss)%N -> follows inS (nth (Rect 0 0 0 0 k) ss i)).
Proof.
move=> hf n0 ss; rewrite /ss (canon_outline _ hf n0) {ss}.
case: (hf) => -> -> _ _ hm.
have pc : 0 < p * s / c by apply: Rdiv_lt_0_compat => //; nra.
have qs : 0 < q * c / s by apply: Rdiv_lt_0_compat => //; nra.
have wB := secB_w (top2_left f); have wD := secD_w (top2_left f).
have yB := secB_y (top2_left f); have yD := secD_y (top2_left f).
have dc : p / c > 0 by apply: Rdiv_lt_0_compat.
have ds : q / s > 0 by apply: Rdiv_lt_0_compat.
case: (top2_left f) hm wB wD yB yD => -[hl _ _ _] wB wD yB yD; rewrite /canon_left in hl.
- have small : p * s / c < q by apply/(Rlt_div_l _ _ _ c0).
  apply: rows_good => //.
  + by rewrite yB /= /Y; nra.
  + by rewrite yB yD /= /Y; nra.
  + by rewrite yD /= /Y; nra.
  + apply: run_ok; rewrite /box /=; try lra; try (rewrite /Y; field; lra); try (move: wB; rewrite /secB /=; lra).
  + apply: run_ok; rewrite /box /=; try lra; try (rewrite /Y; field; lra);
      [move: wB|move: wD]; rewrite /secB /secD /=; lra.
  + apply: run_ok; rewrite /box /=; try lra; try (rewrite /Y; field; lra); try (move: wD; rewrite /secD /=; lra).
have small : q * c / s <= p by apply/(Rle_div_l _ _ _ s0); lra.
apply: rows_good => //.
- by rewrite yB /= /Y; nra.
- by rewrite yB yD /= /Y; nra.
- by rewrite yD /= /Y; nra.
- apply: run_ok; rewrite /box /=; try lra; try (rewrite /Y; field; lra); try (move: wB; rewrite /secB /=; lra).
- apply: run_ok; rewrite /box /=; try lra; try (rewrite /Y; field; lra);
    [move: wB|move: wD]; rewrite /secB /secD /=; lra.
- apply: run_ok; rewrite /box /=; try lra; try (rewrite /Y; field; lra); try (move: wD; rewrite /secD /=; lra).
Qed.

Lemma canon_area f n k : canon f -> (0 < n)%N -> area_of (strips (outline f n n) k) = p * q.
Proof.
move=> hf n0; rewrite (canon_outline _ hf n0) (rows_area _ _ _ _ _ n0) secB_w secD_w secB_y secD_y.
rewrite /secA /secE /at_ /=; case: (top2_left f); rewrite /Y; field; lra.
Qed.

(** With unequal counts the first strip is not a chord. *)
Lemma section_unique S y l r l' r' : section_of S y l r -> section_of S y l' r' -> l = l' /\ r = r'.
Proof.
move=> [h1 e1] [h2 e2].
have a1 : S l y by apply/e1; lra.
have a2 : S r y by apply/e1; lra.
have a3 : S l' y by apply/e2; lra.
have a4 : S r' y by apply/e2; lra.
move/e2: a1; move/e2: a2; move/e1: a3; move/e1: a4; lra.
Qed.

Lemma canon_unequal f nt np k : canon f -> (0 < nt)%N -> (0 < np)%N -> nt <> np ->
  ~ follows inS (nth (Rect 0 0 0 0 k) (strips (outline f nt np) k) 0).
Proof.
move=> hf t0 n0 ne.
have T0 : 0 < INR nt by apply: lt_0_INR; apply/ltP.
have N0 : 0 < INR np by apply: lt_0_INR; apply/ltP.
have N1 : 1 <= INR np by apply: (le_INR 1); apply/leP.
have dif : / INR nt <> / INR np by move=> e; apply: ne; apply: INR_eq; rewrite -(Rinv_inv (INR nt)) e Rinv_inv.
have := canon_good k hf n0; cbv zeta => -[_ /(_ 0%N)].
have sz : (0 < size (strips (outline f np np) k))%N.
  by rewrite (canon_outline _ hf n0) /rows size_cat size_mkseq; apply: ltn_addr.
move=> /(_ sz); case: hf => e1 e4 es ec hm.
rewrite /outline; case: (top2_left f) hm => -[hl e2 e3 e12];
  rewrite e1 e2 e3 e4 e12 ?es ?ec; cbv zeta; rewrite !strips3.
all: case: nt np t0 n0 ne T0 N0 N1 dif {sz} => [|nt] [|np] // t0 n0 ne T0 N0 N1 dif.
all: rewrite !mkseqS0 /follows /link; cbn [nth cat fst snd r_top r_left r_bottom r_right].
all: move: T0 N0 N1 dif; move: (INR nt.+1) (INR np.+1) => T N T0 N0 N1 dif.
all: change (INR 0) with 0; change (INR 1) with 1.
all: move=> [_ h] [_ h'].
all: have [ea eb] := section_unique h h'; apply: dif.
- apply: (Rmult_eq_reg_l (p * c)); last nra.
  move: ea; rewrite /X => ea.
  have : (p / 2 * c - q / 2 * s + cx - (- (p / 2) * c - q / 2 * s + cx)) / N * 1 =
         (p / 2 * c - q / 2 * s + cx - (- (p / 2) * c - q / 2 * s + cx)) / T * 1 by lra.
  have -> : p / 2 * c - q / 2 * s + cx - (- (p / 2) * c - q / 2 * s + cx) = p * c by field.
  by rewrite /Rdiv !Rmult_1_r => ->.
apply: (Rmult_eq_reg_l (q * s)); last nra.
move: eb; rewrite /X => eb.
have : (p / 2 * c - - (q / 2) * s + cx - (p / 2 * c - q / 2 * s + cx)) / N * 1 =
       (p / 2 * c - - (q / 2) * s + cx - (p / 2 * c - q / 2 * s + cx)) / T * 1 by lra.
have -> : p / 2 * c - - (q / 2) * s + cx - (p / 2 * c - q / 2 * s + cx) = q * s by field.
by rewrite /Rdiv !Rmult_1_r => ->.
Qed.
End Canon.

(** ** From the angle to the canonical position *)
Lemma wrap_range a : 0 <= wrap_angle a < 2 * PI.
Proof.
have pi := PI_RGT_0; have [h1 h2] := base_Int_part (a / (2 * PI)).
rewrite /wrap_angle; move: (IZR _) h1 h2 => z h1 h2.
have e : a = 2 * PI * (a / (2 * PI)) by field; lra.
move: (a / _) h1 h2 e => b h1 h2 e; rewrite e; nra.
Qed.

Lemma lt_dec x y : x < y -> rltb x y. Proof. by rewrite /rltb; case: Rlt_dec. Qed.
Lemma nlt_dec x y : y <= x -> rltb x y = false. Proof. by move=> h; rewrite /rltb; case: Rlt_dec => // h'; exfalso; lra. Qed.
Lemma le_dec x y : x <= y -> rleb x y. Proof. by rewrite /rleb; case: Rle_dec. Qed.
Lemma nle_dec x y : y < x -> rleb x y = false. Proof. by move=> h; rewrite /rleb; case: Rle_dec => // h'; exfalso; lra. Qed.

Lemma mid_canon cx cy c s p q t1 t4 a b la lb inside :
  t1 = (X cx c s (p / 2) (q / 2), Y cy c s (p / 2) (q / 2)) ->
  t4 = (X cx c s (- (p / 2)) (- (q / 2)), Y cy c s (- (p / 2)) (- (q / 2))) ->
  a = (X cx c s (- (p / 2)) (q / 2), Y cy c s (- (p / 2)) (q / 2)) ->
  b = (X cx c s (p / 2) (- (q / 2)), Y cy c s (p / 2) (- (q / 2))) -> la = p -> lb = q ->
  sin inside = c -> cos inside = s -> canon cx cy c s p q (order_mid t1 t4 a b la lb inside).
Proof.
move=> -> -> -> -> -> -> hs hc; rewrite /order_mid /= /rltb /canon /canon_left.
by case: Rlt_dec => h; split=> //=; split=> //; move: h; rewrite /Y; lra.
Qed.

Section Turn.
Variables cx cy lx ly a : R.
Hypotheses (lx0 : 0 < lx) (ly0 : 0 < ly) (a0 : 0 <= a < 2 * PI) (sn : sin a <> 0) (cn : cos a <> 0).

Let pi0 := PI_RGT_0.

Lemma turn_corners : exists c s p q f,
  [/\ [/\ 0 < c, 0 < s & c * c + s * s = 1], [/\ 0 < p, 0 < q & p * q = lx * ly], find_corners cx cy lx ly a = Some f,
      canon cx cy c s p q f & forall x y, turned_rect cx cy lx ly a x y <-> inS cx cy c s p q x y].
Proof.
have sc : sin a * sin a + cos a * cos a = 1 := sin2_cos2 a.
case: (Rlt_le_dec a (PI / 2)) => h1; last case: (Rlt_le_dec a PI) => h2; last case: (Rlt_le_dec a (PI / 2 * 3)) => h3.
- have s0 : 0 < sin a by have := sin_ge_0 a; lra.
  have c0 : 0 < cos a by have := cos_ge_0 a; lra.
  exists (cos a), (sin a), lx, ly; eexists; split; [split; lra|split; lra| | |by move=> x y].
    by rewrite /find_corners (le_dec (proj1 a0)) (lt_dec h1).
  apply: mid_canon; rewrite ?sin_shift ?cos_shift // /place /X /Y; congr pair; field.
- have s0 : 0 < sin a by have := sin_ge_0 a; lra.
  have c0 : 0 < - cos a by have := cos_le_0 a; lra.
  exists (sin a), (- cos a), ly, lx; eexists; split; [split; lra|split; lra| | |].
  + by rewrite /find_corners (nlt_dec h1) andbF (le_dec h1) (lt_dec h2).
  + apply: mid_canon; rewrite ?sin_PI_x ?Rtrigo_facts.cos_pi_minus // /place /X /Y; try (congr pair; field).
  move=> x y; rewrite /turned_rect /inS !abs_le; lra.
- have s0 : 0 < - sin a by have := sin_le_0 a; lra.
  have c0 : 0 < - cos a by have := cos_le_0 a; lra.
  exists (- cos a), (- sin a), lx, ly; eexists; split; [split; lra|split; lra| | |].
  + by rewrite /find_corners (nlt_dec h1) andbF (nlt_dec h2) andbF (le_dec h2) (lt_dec h3).
  + apply: mid_canon; rewrite /place /X /Y; try (congr pair; field); try by [].
      have -> : PI * 3 / 2 - a = PI / 2 - a + PI by field.
      by rewrite neg_sin sin_shift.
    have -> : PI * 3 / 2 - a = PI / 2 - a + PI by field.
    by rewrite neg_cos cos_shift.
  move=> x y; rewrite /turned_rect /inS !abs_le; lra.
have s0 : 0 < - sin a by have := sin_le_0 a; lra.
have c0 : 0 < cos a.
  have := cos_ge_0_3PI2 a; lra.
exists (- sin a), (cos a), ly, lx; eexists; split; [split; lra|split; lra| | |].
- rewrite /find_corners (nlt_dec h1) andbF (nlt_dec h2) andbF (nlt_dec h3) andbF (le_dec h3) (_ : rltb a (PI * 2) = true) //.
  by apply: lt_dec; lra.
- apply: mid_canon; rewrite /place /X /Y; try (congr pair; field); try by [].
    have -> : PI * 2 - a = - a + PI + PI by ring.
    by rewrite !neg_sin sin_neg; ring.
  have -> : PI * 2 - a = - a + PI + PI by ring.
  by rewrite !neg_cos cos_neg; ring.
by move=> x y; rewrite /turned_rect /inS !abs_le; lra.
Qed.
End Turn.

(** ** Reduction of the angle *)
Lemma cs_period x (z : Z) : sin (x + 2 * PI * IZR z) = sin x /\ cos (x + 2 * PI * IZR z) = cos x.
Proof.
have pos y (p : positive) : sin (y + 2 * PI * IZR (Z.pos p)) = sin y /\ cos (y + 2 * PI * IZR (Z.pos p)) = cos y.
  have -> : y + 2 * PI * IZR (Z.pos p) = y + 2 * INR (Pos.to_nat p) * PI by rewrite INR_IPR; change (IZR (Z.pos p)) with (IPR p); ring.
  by rewrite sin_period cos_period.
case: z => [|p|p]; [|exact: pos|].
  by have -> : x + 2 * PI * 0 = x by ring.
have [<- <-] := pos (x + 2 * PI * IZR (Z.neg p)) p.
have -> : x + 2 * PI * IZR (Z.neg p) + 2 * PI * IZR (Z.pos p) = x by change (Z.neg p) with (- (Z.pos p))%Z; rewrite opp_IZR; ring.
by [].
Qed.

Lemma wrap_cs a : sin (wrap_angle a) = sin a /\ cos (wrap_angle a) = cos a.
Proof.
rewrite /wrap_angle; have := cs_period a (- Int_part (a / (2 * PI))); rewrite opp_IZR.
by have -> : a + 2 * PI * - IZR (Int_part (a / (2 * PI))) = a - 2 * PI * IZR (Int_part (a / (2 * PI))) by ring.
Qed.

Lemma oblique_quarter a k : oblique a -> near_quarter k (wrap_angle a) = false.
Proof.
move=> h; apply/negP => /andP[]; rewrite /rleb; case: Rle_dec => // h1 _; case: Rle_dec => // h2 _.
have := h (Z.of_nat k + 4 * Int_part (a / (2 * PI)))%Z.
rewrite plus_IZR mult_IZR -INR_IZR_INZ.
have -> : a - (INR k + 4 * IZR (Int_part (a / (2 * PI)))) * (PI / 2) = wrap_angle a - INR k * PI / 2 by rewrite /wrap_angle; field.
move: (wrap_angle a) (1 / _) h1 h2 => w e h1 h2.
suff : Rabs (w - INR k * PI / 2) <= e by lra.
apply: Rabs_le; lra.
Qed.

Lemma oblique_cs a : oblique a -> sin a <> 0 /\ cos a <> 0.
Proof.
move=> h; have e0 : 0 < 1 / 10 ^ 5 by lra.
split=> e.
  have [z ez] := sin_eq_0_0 _ e; have := h (2 * z)%Z; rewrite mult_IZR ez.
  have -> : IZR z * PI - 2 * IZR z * (PI / 2) = 0 by field.
  by rewrite Rabs_R0; lra.
have e' : sin (a + PI / 2) = 0 by rewrite sin_plus sin_PI2 cos_PI2 e; ring.
have [z ez] := sin_eq_0_0 _ e'; have := h (2 * z - 1)%Z; rewrite minus_IZR mult_IZR.
have -> : a - (2 * IZR z - 1) * (PI / 2) = a + PI / 2 - IZR z * PI by field.
by rewrite ez Rminus_eq_0 Rabs_R0; lra.
Qed.

Lemma turned_wrap cx cy lx ly a x y : turned_rect cx cy lx ly (wrap_angle a) x y <-> turned_rect cx cy lx ly a x y.
Proof. by rewrite /turned_rect; have [-> ->] := wrap_cs a. Qed.

Lemma follows_iff S T s : (forall x y, S x y <-> T x y) -> follows S s -> follows T s.
Proof. by move=> e [h [h1 h2]]; split=> //; split=> // x; rewrite -e. Qed.
Lemma extent_iff S T hi lo : (forall x y, S x y <-> T x y) -> extent S hi lo -> extent T hi lo.
Proof.
move=> e [h [[x hx] [x' hx']]]; split; first by move=> u v /e; apply: h.
by split; [exists x|exists x']; apply/e.
Qed.

Lemma all_index l k i : (i < size (strips l k))%N -> r_index (nth (Rect 0 0 0 0 k) (strips l k) i) = k.
Proof.
rewrite /strips size_mkseq => h; rewrite nth_mkseq //.
by case: (nth _ l i) => [[? ?] ?]; case: (nth _ l i.+1) => [[? ?] ?].
Qed.

Section Rectangle.
Variables (cx cy lx ly : R) (k : C) (angle : R).
Hypotheses (lx0 : 0 < lx) (ly0 : 0 < ly) (ob : oblique angle).

Lemma rectangle_oblique nt np : rectangle cx cy lx ly k angle nt np =
  if find_corners cx cy lx ly (wrap_angle angle) is Some f then Some (strips (outline f nt np) k) else None.
Proof. by rewrite /rectangle !(oblique_quarter _ ob). Qed.

Lemma oblique_corners : exists c s p q f,
  [/\ [/\ 0 < c, 0 < s & c * c + s * s = 1], [/\ 0 < p, 0 < q & p * q = lx * ly],
      find_corners cx cy lx ly (wrap_angle angle) = Some f,
      canon cx cy c s p q f & forall x y, turned_rect cx cy lx ly angle x y <-> inS cx cy c s p q x y].
Proof.
have [sn cn] := oblique_cs ob; have [es ec] := wrap_cs angle; rewrite -es in sn; rewrite -ec in cn.
have [c [s [p [q [f [h1 h2 h3 h4 h5]]]]]] := turn_corners cx cy lx0 ly0 (wrap_range angle) sn cn.
exists c, s, p, q, f; split=> // x y; rewrite -h5; apply: iff_sym; exact: turned_wrap.
Qed.

Theorem rectangle_strips n : (0 < n)%N -> exists ss hi lo,
  [/\ rectangle cx cy lx ly k angle n n = Some ss, size ss = (3 * n + 2)%N, extent (turned_rect cx cy lx ly angle) hi lo,
      stacked_from hi lo ss &
      forall i, (i < size ss)%N -> let s := nth (Rect 0 0 0 0 k) ss i in
        follows (turned_rect cx cy lx ly angle) s /\ r_index s = k].
Proof.
move=> n0; have [c [s [p [q [f [[c0 s0 cs] [p0 q0 _] e hf h]]]]]] := oblique_corners.
have [g1 g2] := canon_good c0 s0 cs p0 q0 k hf n0.
exists (strips (outline f n n) k), (top1 f).2, (top4 f).2; rewrite rectangle_oblique e; split=> //.
- rewrite (canon_outline c0 s0 cs k hf n0) /rows size_cat /= size_cat /= !size_mkseq.
  by rewrite !addnS addn0 !mulSn addn0 !addnA.
- apply: (@extent_iff (inS cx cy c s p q)); first by move=> x y; apply: iff_sym; exact: h.
  by case: (hf) => -> -> _ _ _; exact: canon_extent.
move=> i hi /=; split; last exact: all_index.
by apply: (@follows_iff (inS cx cy c s p q)); [move=> x y; apply: iff_sym; exact: h|exact: g2].
Qed.

Theorem rectangle_area n : (0 < n)%N -> exists ss, rectangle cx cy lx ly k angle n n = Some ss /\ area_of ss = lx * ly.
Proof.
move=> n0; have [c [s [p [q [f [[c0 s0 cs] [p0 q0 pq] e hf h]]]]]] := oblique_corners.
exists (strips (outline f n n) k); rewrite rectangle_oblique e; split=> //.
by rewrite -pq; exact: (canon_area c0 s0 cs k hf n0).
Qed.

Theorem rectangle_unequal nt np : (0 < nt)%N -> (0 < np)%N -> nt <> np ->
  exists ss, [/\ rectangle cx cy lx ly k angle nt np = Some ss, (0 < size ss)%N &
                 ~ follows (turned_rect cx cy lx ly angle) (nth (Rect 0 0 0 0 k) ss 0)].
Proof.
move=> t0 n0 ne; have [c [s [p [q [f [[c0 s0 cs] [p0 q0 pq] e hf h]]]]]] := oblique_corners.
exists (strips (outline f nt np) k); rewrite rectangle_oblique e; split=> //.
  rewrite /strips size_mkseq /outline; case: (top2_left f); rewrite !size_cat !size_mkseq; by case: nt t0 {ne}.
move=> hh; apply: (canon_unequal c0 s0 cs p0 q0 hf t0 n0 ne).
by apply: (follows_iff h); exact: hh.
Qed.
End Rectangle.

(** ** Multiples of a quarter turn *)
Lemma wrap_quarter (d : Z) (r : nat) : (r < 4)%N -> wrap_angle (IZR (4 * d + Z.of_nat r) * (PI / 2)) = INR r * PI / 2.
Proof.
move=> hr; have pi := PI_RGT_0; rewrite plus_IZR mult_IZR -INR_IZR_INZ.
have r0 := pos_INR r.
have r4 : INR r <= 3 by apply: (Rle_trans _ (INR 3)); [apply: le_INR; apply/leP|rewrite /=; lra].
have -> : wrap_angle ((4 * IZR d + INR r) * (PI / 2)) = (4 * IZR d + INR r) * (PI / 2) - 2 * PI * IZR (Int_part (IZR d + INR r / 4)).
  by rewrite /wrap_angle; have -> : (4 * IZR d + INR r) * (PI / 2) / (2 * PI) = IZR d + INR r / 4 by field; lra.
rewrite /Int_part -(tech_up _ (d + 1)%Z); try by rewrite plus_IZR; lra.
by rewrite Z.add_simpl_r; field.
Qed.

Lemma rectangle_quarter cx cy lx ly k (z : Z) nt np : exists s, rectangle cx cy lx ly k (IZR z * (PI / 2)) nt np = Some [:: s] /\
  r_index s = k /\
  forall x y, turned_rect cx cy lx ly (IZR z * (PI / 2)) x y <-> (r_left s <= x <= r_right s /\ r_top s <= y <= r_bottom s).
Proof.
have pi := PI2_1.
have [d [r [hr ->]]] : exists d r, (r < 4)%N /\ z = (4 * d + Z.of_nat r)%Z.
  exists (Z.div z 4), (Z.to_nat (Z.modulo z 4)).
  have h := Z.mod_pos_bound z 4 (erefl : (0 < 4)%Z).
  split; last by rewrite Z2Nat.id; [exact: (Z.div_mod z 4)|case: h].
  by apply/ltP; apply/(Nat2Z.inj_lt _ 4); rewrite Z2Nat.id; case: h.
have w := wrap_quarter d hr.
have [es ec] := wrap_cs (IZR (4 * d + Z.of_nat r) * (PI / 2)).
have yes m : near_quarter m (INR m * PI / 2) = true by rewrite /near_quarter !le_dec //; lra.
have no m : (m < r)%N -> near_quarter m (INR r * PI / 2) = false.
  move=> hm; rewrite /near_quarter andbC nle_dec //.
  have : INR m + 1 <= INR r by rewrite -S_INR; apply: le_INR; apply/leP.
  move: (INR m) (INR r) => a b h; nra.
rewrite /rectangle w /turned_rect -es -ec w => {w es ec}.
case: r hr yes no => [|[|[|[|//]]]] _ yes no.
- rewrite yes; eexists; (split; first by []); (split; first by []) => x y /=; rewrite !abs_le.
  have -> : 0 * PI / 2 = 0 by field.
  rewrite sin_0 cos_0; lra.
- rewrite (no 0%N) // yes; eexists; (split; first by []); (split; first by []) => x y /=; rewrite !abs_le.
  have -> : 1 * PI / 2 = PI / 2 by field.
  rewrite sin_PI2 cos_PI2; lra.
- rewrite (no 0%N) // (no 1%N) // yes; eexists; (split; first by []); (split; first by []) => x y /=; rewrite !abs_le.
  have -> : (1 + 1) * PI / 2 = PI by field.
  rewrite sin_PI cos_PI; lra.
rewrite (no 0%N) // (no 1%N) // (no 2%N) // yes; eexists; (split; first by []); (split; first by []) => x y /=; rewrite !abs_le.
have -> : (1 + 1 + 1) * PI / 2 = PI / 2 + PI by field.
rewrite neg_sin neg_cos sin_PI2 cos_PI2; lra.
Qed.

(** The angle is a quarter turn off a half diagonal: never near a multiple of a quarter turn. *)
Lemma oblique_diag : oblique (PI / 4).
Proof.
move=> z; have pi := PI2_1.
have -> : PI / 4 - IZR z * (PI / 2) = IZR (1 - 2 * z) * (PI / 4) by rewrite minus_IZR mult_IZR; field.
rewrite Rabs_mult (Rabs_pos_eq (PI / 4)); last lra.
have : 1 <= Rabs (IZR (1 - 2 * z)).
  rewrite -abs_IZR; apply: IZR_le; have : (1 - 2 * z <> 0)%Z by case: z => [|[]|[]].
  by case: (1 - 2 * z)%Z => // p _; case: p.
move: (Rabs _) => w h; nra.
Qed.
