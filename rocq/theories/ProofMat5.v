(** Lemmas about material lookup: names, files, substitution. *)
From Coq Require Import Reals ZArith Lra Lia.
From Coquelicot Require Import Coquelicot.
From mathcomp Require Import all_ssreflect ssralg.
From Verif Require Import Cplx ModelVec ModelMat SpecMat ProofMat ProofMat2.

Set Implicit Arguments.
Unset Strict Implicit.
Unset Printing Implicit Defensive.
Local Open Scope ring_scope.
Import GRing.Theory.

(** ** Letter case *)
Lemma upc_eq x y : (x = y \/ (65 <= x <= 90 /\ y = x + 32)%N \/ (65 <= y <= 90 /\ x = y + 32)%N) <-> upc x = upc y.
Proof.
rewrite /upc; split.
  case=> [->|[[/andP[h1 h2] ->]|[/andP[h1 h2] ->]]] //.
    have -> : (97 <= x + 32 <= 122)%N by rewrite -(leq_add2r 32) in h1; rewrite -(leq_add2r 32) in h2; rewrite h1 h2.
    by rewrite leqNgt (leq_ltn_trans h2) // addnK.
  have -> : (97 <= y + 32 <= 122)%N by rewrite -(leq_add2r 32) in h1; rewrite -(leq_add2r 32) in h2; rewrite h1 h2.
  by rewrite [(97 <= y)%N]leqNgt (leq_ltn_trans h2) // addnK.
have hs n : (97 <= n <= 122)%N -> (65 <= n - 32 <= 90 /\ n = (n - 32) + 32)%N.
  case/andP=> h1 h2; split; last by rewrite subnK //; exact: leq_trans h1.
  by rewrite leq_subRL ?h1 /= ?leq_subLR //; exact: leq_trans h1.
case: ifP => hx; case: ifP => hy e.
- have [_ ex] := hs x hx; have [_ ey] := hs y hy; left; by rewrite ex ey e.
- by have [h1 ex] := hs x hx; right; right; rewrite -e.
- by have [h1 ey] := hs y hy; right; left; rewrite e.
- by left.
Qed.

Lemma same_upper a b : same_letters a b <-> upper a = upper b.
Proof.
rewrite /same_letters /upper; split.
  move=> [hs h]; apply: (@eq_from_nth _ 0%N); rewrite !size_map // => i hi.
  by rewrite !(nth_map 0%N) -?hs //; apply/upc_eq; apply: h.
move=> e; have hs : size a = size b by rewrite -(size_map upc a) e size_map.
split=> // i hi; apply/upc_eq; rewrite -!(nth_map 0%N 0%N) -?hs //.
by have := f_equal (fun s => nth 0%N s i) e.
Qed.

Section Names.
Variables (wofz : C -> C) (quad : (R -> R) -> R -> R -> R -> R).
Notation find := (find_nk_index wofz quad).

Lemma find_case s s' table wl : same_letters s s' -> last_n 6 s <> real_suffix -> last_n 6 s' <> real_suffix ->
  find (ByName s) table wl = find (ByName s') table wl.
Proof.
move=> /same_upper e /eqP h1 /eqP h2.
by rewrite /find_nk_index /resolve (negbTE h1) (negbTE h2) e.
Qed.

Lemma last_cat s : last_n 6 (s ++ real_suffix) = real_suffix.
Proof. by rewrite /last_n size_cat addnK drop_size_cat. Qed.
Lemma but_cat s : but_last 6 (s ++ real_suffix) = s.
Proof. by rewrite /but_last size_cat addnK take_size_cat. Qed.

Lemma find_case_real s s' table wl : same_letters s s' ->
  find (ByName (s ++ real_suffix)) table wl = find (ByName (s' ++ real_suffix)) table wl.
Proof.
by move=> /same_upper e; rewrite /find_nk_index /resolve !last_cat !but_cat eqxx e.
Qed.

Lemma find_unknown s table wl : last_n 6 s <> real_suffix -> (forall k, List.In k (map fst table) -> ~ same_letters k s) ->
  (forall k, List.In k (map fst table) -> upper k = k) -> find (ByName s) table wl = None.
Proof.
move=> /eqP h1 h2 h3; rewrite /find_nk_index /resolve (negbTE h1).
suff -> : lookup table (upper s) = None by [].
elim: table h2 h3 => [|[k d] t ih] h2 h3 //=; case: eqP => e.
  case: (h2 k (or_introl erefl)); apply/same_upper; rewrite -e; apply: h3; by left.
by apply: ih => k' hk; [apply: h2|apply: h3]; right.
Qed.
End Names.

(** ** Dictionaries *)
Lemma InP' (x : str) s : x \in s <-> List.In x s.
Proof.
elim: s => [|y s ih] /=; first by rewrite in_nil; split.
rewrite in_cons; split=> [/orP[/eqP->|/ih]|[->|/ih ->]]; auto; by rewrite ?eqxx ?orbT.
Qed.
Section Dict.
Variable A : Type.
Lemma lookup_store (d : dict A) k a k' : lookup (store d k a) k' = if k == k' then Some a else lookup d k'.
Proof.
elim: d => [|[q b] d ih] //=.
by case: eqP => [->|hq] /=; [case: eqP|rewrite ih; case: (q =P k') => [e|] //; case: (k =P k') => // e'; case: hq; rewrite e e'].
Qed.
Lemma lookup_cat (d e : dict A) k : lookup (d ++ e) k = if lookup d k is Some a then Some a else lookup e k.
Proof. by elim: d => [|[q b] d ih] //=; case: eqP. Qed.
Lemma keys_store (d : dict A) k a x : List.In x (map fst (store d k a)) <-> x = k \/ List.In x (map fst d).
Proof.
elim: d => [|[q b] d ih] /=; first by split=> [[->|]|[->|]] //; left.
case: eqP => [->|hq] /=; first by split=> [[->|h]|[->|[->|h]]]; auto.
by rewrite ih; split=> [[->|[->|h]]|[->|[->|h]]]; auto.
Qed.
Lemma uniq_store (d : dict A) k a : uniq (map fst d) -> uniq (map fst (store d k a)).
Proof.
elim: d => [|[q b] d ih] //= /andP[h1 h2]; case: eqP => [e|hq] /=; first by rewrite h1 h2.
rewrite ih // andbT; apply/negP => /InP'; rewrite keys_store => -[e|h]; first by case: hq.
by move/negP: h1; apply; apply/InP'.
Qed.
End Dict.

(** ** The table read from the files *)
Section Files.
Variables (pf : str -> option R) (pi : str -> option Z) (lt : seq str -> option (seq row)).
Notation load := (load_file pf pi lt).
Definition stem (f : file) : str := but_last 4 f.1.

Lemma read_keys table files table' : (forall k, List.In k (map fst table) -> upper k = k) -> uniq (map fst table) ->
  read_go pf pi lt table files = Some table' ->
  (forall k, List.In k (map fst table') -> upper k = k) /\ uniq (map fst table').
Proof.
elim: files table => [|f fs ih] table h1 h2 /=; first by case=> <-.
case: (load f) => [[d|]|] // e; last exact: ih e.
apply: ih e; last exact: uniq_store.
move=> k /keys_store[->|h]; last exact: h1.
rewrite /upper -map_comp; apply: eq_map => c /=; rewrite /upc.
case: (boolP (97 <= c <= 122)%N) => [/andP[h3 h4]|/negbTE ->] //.
have h5 : (c - 32 <= 90)%N by rewrite leq_subLR.
by have h6 : (c - 32 < 97)%N by [apply: leq_ltn_trans h5 _]; rewrite leqNgt h6.
Qed.

Lemma read_skip table fs table' k : read_go pf pi lt table fs = Some table' ->
  (forall f d, List.In f fs -> load f = Some (Some d) -> upper (stem f) <> k) -> lookup table' k = lookup table k.
Proof.
elim: fs table => [|f fs ih] table /=; first by case=> <-.
case e: (load f) => [[d|]|] // hr h.
  rewrite (ih _ hr); last by move=> f' d' hf; apply: h; right.
  by rewrite lookup_store; case: eqP => // e'; case: (h f d (or_introl erefl) e).
by apply: (ih _ hr) => f' d' hf; apply: h; right.
Qed.

Lemma read_last table l1 f l2 table' d k : read_go pf pi lt table (l1 ++ f :: l2) = Some table' ->
  load f = Some (Some d) -> upper (stem f) = k ->
  (forall g d', List.In g l2 -> load g = Some (Some d') -> upper (stem g) <> k) -> lookup table' k = Some d.
Proof.
elim: l1 table => [|g l1 ih] table /=.
  move=> hr e ek h; rewrite e in hr; rewrite (read_skip hr h) lookup_store.
  by rewrite -/(stem f) ek eqxx.
by case: (load g) => [[d'|]|] // hr e ek h; exact: (ih _ hr e ek h).
Qed.

Lemma lookup_file files table l1 f l2 d s : read_material_table pf pi lt files = Some table ->
  files = l1 ++ f :: l2 -> load f = Some (Some d) -> same_letters (stem f) s ->
  (forall g d', List.In g l2 -> load g = Some (Some d') -> ~ same_letters (stem g) s) ->
  lookup table (upper s) = Some d.
Proof.
move=> hr ef e; rewrite ef in hr; move: e => e /same_upper es h; apply: (read_last hr e es) => g d' hg hl /same_upper.
exact: h hg hl.
Qed.

Lemma lookup_nofile files table s : read_material_table pf pi lt files = Some table ->
  (forall g d', List.In g files -> load g = Some (Some d') -> ~ same_letters (stem g) s) ->
  lookup table (upper s) = None.
Proof.
move=> hr h; rewrite (read_skip hr) // => g d' hg hl /same_upper.
exact: h hg hl.
Qed.
End Files.

(** ** Substitution into a cell *)
Section Put.
Variable (wofz : C -> C) (quad : (R -> R) -> R -> R -> R -> R).
Notation find := (find_nk_index wofz quad).
Notation stands disk table wl := (stands_for find disk table wl).
Variables (disk : option (dict mat_data)) (wl : R).

Lemma spec_table s T T' : find (BySpec s) T wl = find (BySpec s) T' wl.
Proof. by []. Qed.

Lemma used_idem table T : table_used disk table = Some T -> table_used disk T = Some T.
Proof. by rewrite /table_used; case: table => [|x t] h; [case: T h => //|case: h => <-]. Qed.

Lemma stands_used table T f c : table_used disk table = Some T -> stands disk T wl f c <-> stands disk table wl f c.
Proof.
move=> h; case: f => [[s|s]|v] //=; split=> -[T' [b [h1 h2]]]; exists T', b; split=> //.
  by rewrite h -h1 (used_idem h).
by rewrite (used_idem h) -h1 h.
Qed.

Lemma INR_inj_C i j : RtoC (INR i) = RtoC (INR j) -> i = j.
Proof. by move/RtoC_inj/INR_eq. Qed.

Lemma put_spec table labels i mats res t' res' : size res = size labels ->
  put_go wofz quad disk wl labels i mats table res = (t', Some res') ->
  size res' = size labels /\ forall j, (j < size labels)%N ->
    (forall k, (k < size mats)%N -> nth 0 labels j = RtoC (INR (i + k)) -> stands disk table wl (nth (Value 0) mats k) (nth 0 res' j)) /\
    ((forall k, (k < size mats)%N -> nth 0 labels j <> RtoC (INR (i + k))) -> nth 0 res' j = nth 0 res j).
Proof.
elim: mats i table res => [|f mats ih] i table res hs /=; first by case=> _ <-.
set wr := fun c => [seq (if x.1 == RtoC (INR i) then c else x.2) | x <- zip labels res].
have wr_size c : size (wr c) = size labels by rewrite size_map size_zip hs minnn.
have wr_nth c j : (j < size labels)%N -> nth 0 (wr c) j = if nth 0 labels j == RtoC (INR i) then c else nth 0 res j.
  move=> hj; rewrite (nth_map (0, 0)); last by rewrite size_zip hs minnn.
  by rewrite nth_zip.
(* the common part: writing c and going on with a table that gives names the same meaning *)
have main c T : (forall g x, stands disk T wl g x <-> stands disk table wl g x) -> stands disk table wl f c ->
    put_go wofz quad disk wl labels i.+1 mats T (wr c) = (t', Some res') ->
    size res' = size labels /\ forall j, (j < size labels)%N ->
    (forall k, (k < (size mats).+1)%N -> nth 0 labels j = RtoC (INR (i + k)) ->
       stands disk table wl (nth (Value 0) (f :: mats) k) (nth 0 res' j)) /\
    ((forall k, (k < (size mats).+1)%N -> nth 0 labels j <> RtoC (INR (i + k))) -> nth 0 res' j = nth 0 res j).
  move=> hT hf hp; have [h1 h2] := ih _ _ _ (wr_size c) hp; split=> // j hj; have [h3 h4] := h2 j hj; split.
    case=> [_|k hk]; rewrite /= ?addn0 => e.
      rewrite h4 ?wr_nth ?e ?eqxx // => k _ /INR_inj_C e'.
      by have := leq_addr k i.+1; rewrite -e' ltnn.
    by apply/hT; apply: h3 => //; rewrite e addSnnS.
  move=> h; rewrite h4; last by move=> k hk; rewrite addSnnS; apply: h.
  by rewrite wr_nth //; case: eqP => // e; case: (h 0%N isT); rewrite addn0.
case: f main => [[s|s]|v] main.
- have -> : (if table is [::] then disk else Some table) = table_used disk table by [].
  case eT: (table_used disk table) => [T|] //; case ef: (find _ _ _) => [[b c]|] // hp.
  apply: (main c T) => //; first by move=> g x; exact: stands_used.
  by exists T, b.
- case ef: (find _ _ _) => [[b c]|] // hp; apply: (main c table) => //.
  by exists b.
- by apply: main.
Qed.

Lemma put_fails table labels i mats res :
  (put_go wofz quad disk wl labels i mats table res).2 = None <->
  exists k, (k < size mats)%N /\ forall c, ~ stands disk table wl (nth (Value 0) mats k) c.
Proof.
elim: mats i table res => [|f mats ih] i table res /=; first by split=> // -[k []].
have shift T : (forall g x, stands disk T wl g x <-> stands disk table wl g x) -> (exists c, stands disk table wl f c) ->
    ((exists k, (k < size mats)%N /\ forall c, ~ stands disk T wl (nth (Value 0) mats k) c) <->
     (exists k, (k < (size mats).+1)%N /\ forall c, ~ stands disk table wl (nth (Value 0) (f :: mats) k) c)).
  move=> hT [c0 hc]; split=> [[k [hk h]]|[[|k] [hk h]]].
  - by exists k.+1; split=> // c; rewrite -hT; exact: h.
  - by case: (h c0).
  - by exists k; split=> // c; rewrite hT; exact: h.
case: f shift => [[s|s]|v] shift.
- have -> : (if table is [::] then disk else Some table) = table_used disk table by [].
  case eT: (table_used disk table) => [T|]; last first.
    split=> // _; exists 0%N; split=> // c [T [b [h _]]]; by rewrite h in eT.
  case ef: (find _ _ _) => [[b c]|].
    rewrite ih; apply: shift; first by move=> g x; exact: stands_used.
    by exists c, T, b.
  split=> // _; exists 0%N; split=> // c [T' [b [h h']]]; move: h'; rewrite eT in h; case: h => <-; by rewrite ef.
- case ef: (find _ _ _) => [[b c]|].
    by rewrite ih; apply: shift => //; exists c, b.
  by split=> // _; exists 0%N; split=> // c [b h]; rewrite (spec_table s [::] table) ef in h.
- by rewrite ih; apply: shift => //; exists v.
Qed.
End Put.
