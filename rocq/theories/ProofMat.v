(** Lemmas about material lookup. *)
From Coq Require Import Reals ZArith Lra Lia.
From Coquelicot Require Import Coquelicot.
From mathcomp Require Import all_ssreflect ssralg.
From Verif Require Import Cplx ModelVec ModelMat SpecMat.

Set Implicit Arguments.
Unset Strict Implicit.
Unset Printing Implicit Defensive.
Local Open Scope ring_scope.
Import GRing.Theory.

Lemma rltbP a b : reflect (a < b)%coqR (rltb a b).
Proof. by rewrite /rltb; case: Rlt_dec => h; constructor. Qed.
Lemma rlebP a b : reflect (a <= b)%coqR (rleb a b).
Proof. by rewrite /rleb; case: Rle_dec => h; constructor. Qed.

(** ** np.interp *)
Definition asc (ps : seq (R * R)) := forall i j, (i <= j < size ps)%N ->
  ((nth (0, 0) ps i).1 <= (nth (0, 0) ps j).1)%coqR.

Lemma asc_tail p ps : asc (p :: ps) -> asc ps.
Proof. by move=> h i j hij; apply: (h i.+1 j.+1). Qed.

Lemma nth_last_pair (p : R * R) ps : last p ps = nth (0, 0)%coqR (p :: ps) (size ps).
Proof. by elim: ps p => [|q ps ih] p //=; rewrite ih. Qed.

Lemma interp_go_line x p ps i : asc (p :: ps) -> (i < size ps)%N ->
  ((nth (0, 0) (p :: ps) i).1 <= x < (nth (0, 0) (p :: ps) i.+1).1)%coqR ->
  on_line (nth (0, 0)%coqR (p :: ps) i).1 (nth (0, 0)%coqR (p :: ps) i).2
    (nth (0, 0)%coqR (p :: ps) i.+1).1 (nth (0, 0)%coqR (p :: ps) i.+1).2 x (interp_go x p ps).
Proof.
elim: ps p i => [|q ps ih] p i // ha hi hx; case: i hi hx => [_|i hi] hx.
  rewrite /interp_go -/interp_go; case: rlebP => hq; first by move: hx; simpl; lra.
  case: Req_EM_T => e; rewrite /on_line /=; first by rewrite e; ring.
  by field; move: hx; simpl; lra.
have h1 : ((nth (0, 0) (p :: q :: ps) 1).1 <= (nth (0, 0) (p :: q :: ps) i.+1).1)%coqR.
  by apply: ha; exact: ltnW hi.
have hq : (q.1 <= x)%coqR by apply: Rle_trans h1 _; exact: (proj1 hx).
rewrite /interp_go -/interp_go; case: rlebP => // _.
exact: (ih q i (asc_tail ha) hi hx).
Qed.

Lemma interp_go_last x p ps : asc (p :: ps) -> ((last p ps).1 <= x)%coqR -> interp_go x p ps = (last p ps).2.
Proof.
elim: ps p => [|q ps ih] p //= ha hl.
have h1 : ((nth (0, 0) (p :: q :: ps) 1).1 <= (nth (0, 0) (p :: q :: ps) (size ps).+1).1)%coqR.
  by apply: ha; rewrite /= ltnS leqnn.
have hq : (q.1 <= x)%coqR.
  by apply: Rle_trans h1 _; rewrite (_ : nth _ _ _ = last q ps) // nth_last_pair.
by case: rlebP => // _; apply: ih => //; exact: asc_tail ha.
Qed.

Lemma on_line_within x1 y1 x2 y2 x y : (x1 <= x < x2)%coqR -> on_line x1 y1 x2 y2 x y -> within y1 y2 y.
Proof.
move=> hx; rewrite /on_line => e.
have e' : y = (y1 + (y2 - y1) * ((x - x1) / (x2 - x1)))%coqR.
  have -> : y = (y1 + (y - y1) * (x2 - x1) / (x2 - x1))%coqR by field; lra.
  by rewrite e; field; lra.
set t := ((x - x1) / (x2 - x1))%coqR in e'.
have t0 : (0 <= t)%coqR by apply: Rmult_le_pos; [lra|left; apply: Rinv_0_lt_compat; lra].
have t1 : (t <= 1)%coqR.
  by apply: (Rmult_le_reg_r (x2 - x1)); [lra|]; rewrite /t /Rdiv Rmult_assoc Rinv_l; lra.
rewrite e' /within /Rmin /Rmax; case: Rle_dec => h; split; nra.
Qed.

Lemma interp_line x ps i : asc ps -> (i.+1 < size ps)%N ->
  ((nth (0, 0) ps i).1 <= x < (nth (0, 0) ps i.+1).1)%coqR ->
  exists2 y, interp x ps = Some y &
    on_line (nth (0, 0)%coqR ps i).1 (nth (0, 0)%coqR ps i).2 (nth (0, 0)%coqR ps i.+1).1 (nth (0, 0)%coqR ps i.+1).2 x y.
Proof.
case: ps => [|p ps] // ha hi hx; rewrite /interp.
have hl : ((nth (0, 0) (p :: ps) i.+1).1 <= (last p ps).1)%coqR.
  by rewrite nth_last_pair; apply: ha; rewrite /= leqnn andbT -ltnS.
have hf : (p.1 <= (nth (0, 0) (p :: ps) i).1)%coqR.
  by apply: (ha 0%N i); rewrite /=; exact: ltnW hi.
case: rltbP => h; first by exfalso; move: hx h hl; lra.
case: rltbP => h2; first by exfalso; move: hx h2 hf; lra.
by exists (interp_go x p ps) => //; apply: interp_go_line.
Qed.

Lemma interp_low x p ps : asc (p :: ps) -> (x < p.1)%coqR -> interp x (p :: ps) = Some p.2.
Proof.
move=> ha hx; rewrite /interp; case: rltbP => h; last by case: rltbP.
have h1 : (p.1 <= (last p ps).1)%coqR by rewrite nth_last_pair; apply: (ha 0%N (size ps)); rewrite /= ltnSn.
by exfalso; lra.
Qed.

Lemma interp_high x p ps : asc (p :: ps) -> ((last p ps).1 <= x)%coqR -> interp x (p :: ps) = Some (last p ps).2.
Proof.
move=> ha hx; rewrite /interp; case: rltbP => h //; case: rltbP => h2; last by rewrite interp_go_last.
have h1 : (p.1 <= (last p ps).1)%coqR by rewrite nth_last_pair; apply: (ha 0%N (size ps)); rewrite /= ltnSn.
by exfalso; lra.
Qed.

(** A bound on the ordinates is a bound on the result, sorted or not ... for sorted tables. *)
Lemma interp_none x ps : interp x ps = None -> ps = [::].
Proof. by case: ps. Qed.

(** Columns *)
Lemma asc_col (f : row -> R) rs : ascending rs -> asc [seq (r_wl r, f r) | r <- rs].
Proof.
move=> h i j; rewrite size_map => hij.
by rewrite !(nth_map (Row 0 0 0)) /=; [apply: h|case/andP: hij|case/andP: hij => h1 h2; exact: leq_ltn_trans h1 h2].
Qed.
Lemma strict_weak rs : strictly_ascending rs -> ascending rs.
Proof.
move=> h i j /andP[hij hj]; case: (ltngtP i j) hij => // [hlt _|-> _]; last lra.
by left; apply: h; rewrite hlt.
Qed.
Lemma nth_col (f : row -> R) rs i : (i < size rs)%N ->
  nth (0, 0)%coqR [seq (r_wl r, f r) | r <- rs] i = (r_wl (nth (Row 0 0 0) rs i), f (nth (Row 0 0 0) rs i)).
Proof. by move=> h; rewrite (nth_map (Row 0 0 0)). Qed.

(** ** Range and warning *)
Lemma fold_min_le x xs y : List.In y (x :: xs) -> (foldl Rmin x xs <= y)%coqR.
Proof.
elim: xs x y => [|z xs ih] x y /=; first by case=> [->|] //; lra.
have h0 := ih (Rmin x z) _ (or_introl erefl); have h1 := Rmin_l x z; have h2 := Rmin_r x z.
move=> h; case: h => [<-|[<-|h]]; [lra|lra|by apply: ih; right].
Qed.
Lemma fold_min_in x xs : List.In (foldl Rmin x xs) (x :: xs).
Proof.
elim: xs x => [|z xs ih] x /=; first by left.
case: (ih (Rmin x z)) => [<-|h]; last by right; right.
by rewrite /Rmin; case: Rle_dec; auto.
Qed.
Lemma fold_max_ge x xs y : List.In y (x :: xs) -> (y <= foldl Rmax x xs)%coqR.
Proof.
elim: xs x y => [|z xs ih] x y /=; first by case=> [->|] //; lra.
have h0 := ih (Rmax x z) _ (or_introl erefl); have h1 := Rmax_l x z; have h2 := Rmax_r x z.
move=> h; case: h => [<-|[<-|h]]; [lra|lra|by apply: ih; right].
Qed.
Lemma fold_max_in x xs : List.In (foldl Rmax x xs) (x :: xs).
Proof.
elim: xs x => [|z xs ih] x /=; first by left.
case: (ih (Rmax x z)) => [<-|h]; last by right; right.
by rewrite /Rmax; case: Rle_dec; auto.
Qed.

Lemma In_map_wl rs y : List.In y (map r_wl rs) <-> exists2 r, List.In r rs & r_wl r = y.
Proof.
elim: rs => [|r rs [ih1 ih2]] /=; first by split=> // -[].
split=> [[<-|h]|[q [<-|h] e]]; first by exists r => //; left.
- by have [q h1 h2] := ih1 h; exists q => //; right.
- by left.
- by right; apply: ih2; exists q.
Qed.

Lemma nth_In' (rs : seq row) i : (i < size rs)%N -> List.In (nth (Row 0 0 0) rs i) rs.
Proof. by elim: rs i => [|r rs ih] [|i] //= h; [left|right; apply: ih]. Qed.

Lemma In_nth' x0 (rs : seq row) r : List.In r rs -> exists2 i, (i < size rs)%N & nth x0 rs i = r.
Proof.
elim: rs => [|q rs ih] //= [->|/ih[i hi e]]; first by exists 0%N.
by exists i.+1.
Qed.

Lemma warns_rows rs wl : rs <> [::] -> exists2 w, warns (Rows rs) wl = Some w &
  (w = true <-> (forall r, List.In r rs -> wl < r_wl r)%coqR \/ (forall r, List.In r rs -> r_wl r < wl)%coqR).
Proof.
case: rs => [|r rs] // _; rewrite /warns /range_of /=; set lo := foldl _ _ _; set hi := foldl _ _ _.
exists (rltb wl lo || rltb hi wl) => //.
have e : r_wl r :: map r_wl rs = map r_wl (r :: rs) by [].
split=> [/orP[/rltbP h|/rltbP h]|[h|h]].
- left=> q hq; apply: Rlt_le_trans h _; apply: fold_min_le; rewrite e; apply/In_map_wl; by exists q.
- right=> q hq; apply: Rle_lt_trans h; apply: fold_max_ge; rewrite e; apply/In_map_wl; by exists q.
- apply/orP; left; apply/rltbP; have := fold_min_in (r_wl r) (map r_wl rs).
  by rewrite e => /In_map_wl[q hq eq]; have := h q hq; rewrite eq.
- apply/orP; right; apply/rltbP; have := fold_max_in (r_wl r) (map r_wl rs).
  by rewrite e => /In_map_wl[q hq eq]; have := h q hq; rewrite eq.
Qed.

(** ** Tabulated materials *)
Section Tab.
Variables (wofz : C -> C) (quad : (R -> R) -> R -> R -> R -> R).
Notation find := (find_nk_index wofz quad).

Lemma find_rows m table wl rs b : resolve m table = Some (Rows rs, b) -> rs <> [::] ->
  exists n k w, [/\ interp wl [seq (r_wl r, r_n r) | r <- rs] = Some n, interp wl [seq (r_wl r, r_k r) | r <- rs] = Some k,
    warns (Rows rs) wl = Some w
   & find m table wl = Some (w, if b then RtoC n else RtoC n - ci * RtoC k)].
Proof.
move=> e h; have [w ew _] := warns_rows wl h; case: rs e h ew => [|r rs] // e h ew.
exists (odflt 0%coqR (interp wl [seq (r_wl r, r_n r) | r <- r :: rs])), (odflt 0%coqR (interp wl [seq (r_wl r, r_k r) | r <- r :: rs])), w.
split=> //; rewrite /find_nk_index e ew /index_of.
by case: b e.
Qed.

Lemma Re_nk n k : Re (RtoC n - ci * RtoC k) = n. Proof. by rewrite /Re /=; ring. Qed.
Lemma Im_nk n k : Im (RtoC n - ci * RtoC k) = (- k)%coqR. Proof. by rewrite /Im /=; ring. Qed.

Lemma tab_line m table wl rs i : resolve m table = Some (Rows rs, false) -> ascending rs -> (i.+1 < size rs)%N ->
  let r1 := nth (Row 0 0 0) rs i in let r2 := nth (Row 0 0 0) rs i.+1 in
  (r_wl r1 <= wl < r_wl r2)%coqR ->
  exists z, [/\ find m table wl = Some (false, z),
     on_line (r_wl r1) (r_n r1) (r_wl r2) (r_n r2) wl (Re z), on_line (r_wl r1) (r_k r1) (r_wl r2) (r_k r2) wl (- Im z)%coqR,
     within (r_n r1) (r_n r2) (Re z) & within (r_k r1) (r_k r2) (- Im z)%coqR].
Proof.
move=> e ha hi r1 r2 hx.
have hne : rs <> [::] by move=> h; rewrite h in hi.
have [n [k [w [en ek ew ef]]]] := find_rows wl e hne; rewrite ef.
have hi' : (i < size rs)%N by exact: ltnW.
have hl f y : interp wl [seq (r_wl r, f r) | r <- rs] = Some y -> on_line (r_wl r1) (f r1) (r_wl r2) (f r2) wl y.
  move=> ey; have h := @interp_line wl _ i (@asc_col f _ ha); rewrite size_map !nth_col // in h.
  by have [y' e' hl] := h hi hx; move: e'; rewrite ey => -[->].
have w0 : w = false.
  have [w' ew' hw] := warns_rows wl hne; move: ew'; rewrite ew => -[ew']; rewrite ew'.
  have in1 : List.In r1 rs by exact: nth_In'.
  have in2 : List.In r2 rs by exact: nth_In'.
  by case: (w') hw => // -[/(_ erefl) [/(_ _ in1)|/(_ _ in2)]]; lra.
exists (RtoC n - ci * RtoC k); rewrite Re_nk Im_nk Ropp_involutive w0.
by split=> //; [exact: hl|exact: hl|exact: on_line_within hx (hl _ _ en)|exact: on_line_within hx (hl _ _ ek)].
Qed.

Lemma tab_exact m table rs i : resolve m table = Some (Rows rs, false) -> strictly_ascending rs -> (i < size rs)%N ->
  let r := nth (Row 0 0 0) rs i in find m table (r_wl r) = Some (false, RtoC (r_n r) - ci * RtoC (r_k r)).
Proof.
move=> e hs hi r; have ha := strict_weak hs.
have hne : rs <> [::] by move=> h; rewrite h in hi.
have [n [k [w [en ek ew ef]]]] := find_rows (r_wl r) e hne; rewrite ef.
have hr : List.In r rs by exact: nth_In'.
have w0 : w = false.
  have [w' ew' hw] := warns_rows (r_wl r) hne; move: ew'; rewrite ew => -[ew']; rewrite ew'.
  by case: (w') hw => // -[/(_ erefl) [/(_ _ hr)|/(_ _ hr)]]; lra.
have hl f y : interp (r_wl r) [seq (r_wl r, f r) | r <- rs] = Some y -> y = f r.
  move=> ey; case: (ltnP i.+1 (size rs)) => hi2.
    have h := @interp_line (r_wl r) _ i (@asc_col f _ ha); rewrite size_map !nth_col // in h.
    have hx : (r_wl r <= r_wl r < r_wl (nth (Row 0 0 0) rs i.+1))%coqR.
      by split; [lra|apply: hs; rewrite ltnSn].
    have [y' e' hl] := h hi2 hx; move: e'; rewrite ey => -[e']; rewrite -e' /on_line /= -/r in hl.
    apply: Rminus_diag_uniq; apply: (Rmult_eq_reg_r (r_wl (nth (Row 0 0 0) rs i.+1) - r_wl r)); last by lra.
    by rewrite hl; ring.
  case: rs e hs hi ha @r hne en ek ew ef hr w0 ey hi2 => [|r0 rs] // e hs hi ha r _ _ _ _ _ _ _ ey hi2.
  have ei : i = size rs by apply/eqP; rewrite eqn_leq -ltnS hi -ltnS hi2.
  have el : last (r_wl r0, f r0) [seq (r_wl r, f r) | r <- rs] = (r_wl r, f r).
    by rewrite nth_last_pair size_map -ei (nth_col f (rs := r0 :: rs)).
  have h := @interp_high (r_wl r) (r_wl r0, f r0) [seq (r_wl r, f r) | r <- rs] (@asc_col f _ ha).
  rewrite el in h; move: ey; rewrite [interp _ _]h; first by case.
  by rewrite /=; lra.
by rewrite w0 (hl _ _ en) (hl _ _ ek).
Qed.

Lemma tab_low m table wl rs : resolve m table = Some (Rows rs, false) -> ascending rs -> (0 < size rs)%N ->
  let r := nth (Row 0 0 0) rs 0 in (wl < r_wl r)%coqR ->
  find m table wl = Some (true, RtoC (r_n r) - ci * RtoC (r_k r)).
Proof.
case: rs => [|r rs] // e ha _ r' hx; have hne : r :: rs <> [::] by [].
have [n [k [w [en ek ew ef]]]] := find_rows wl e hne; rewrite ef.
have w0 : w = true.
  have [w' ew' hw] := warns_rows wl hne; move: ew'; rewrite ew => -[->]; apply/hw; left=> q /(In_nth' (Row 0 0 0)) [j hj <-].
  by apply: Rlt_le_trans hx _; apply: (ha 0%N j).
have := interp_low (@asc_col r_n _ ha) hx; have := interp_low (@asc_col r_k _ ha) hx.
by rewrite -/(map _ (r :: rs)) en ek w0 => -[->] [->].
Qed.

Lemma tab_high m table wl rs : resolve m table = Some (Rows rs, false) -> ascending rs -> (0 < size rs)%N ->
  let r := nth (Row 0 0 0) rs (size rs).-1 in (r_wl r < wl)%coqR ->
  find m table wl = Some (true, RtoC (r_n r) - ci * RtoC (r_k r)).
Proof.
case: rs => [|r rs] // e ha _ r' hx; have hne : r :: rs <> [::] by [].
have [n [k [w [en ek ew ef]]]] := find_rows wl e hne; rewrite ef.
have w0 : w = true.
  have [w' ew' hw] := warns_rows wl hne; move: ew'; rewrite ew => -[->]; apply/hw; right=> q /(In_nth' (Row 0 0 0)) [j hj <-].
  by apply: Rle_lt_trans hx; apply: (ha j (size rs)); rewrite -ltnS hj /= ltnSn.
have el (f : row -> R) : last (r_wl r, f r) [seq (r_wl r, f r) | r <- rs] = (r_wl r', f r').
  by rewrite nth_last_pair size_map (nth_col f (rs := r :: rs)) //= ltnSn.
have hh (f : row -> R) : interp wl [seq (r_wl r, f r) | r <- r :: rs] = Some (f r').
  rewrite [interp _ _](@interp_high wl (r_wl r, f r) [seq (r_wl r, f r) | r <- rs] (@asc_col f _ ha)) el //=; lra.
by move: en ek; rewrite !hh w0 => -[->] [->].
Qed.
End Tab.
