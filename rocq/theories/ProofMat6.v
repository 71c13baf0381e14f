(** Lemmas about material lookup: headers and the list of materials. *)
From Coq Require Import Reals ZArith Lra Lia.
From Coquelicot Require Import Coquelicot.
From mathcomp Require Import all_ssreflect ssralg.
From Verif Require Import Cplx ModelVec ModelMat SpecMat ProofMat ProofMat2 ProofMat5.

Set Implicit Arguments.
Unset Strict Implicit.
Unset Printing Implicit Defensive.
Local Open Scope ring_scope.
Import GRing.Theory.

(** ** strip, split, partition *)
Lemma lstrip_id s : ~~ space (head 65%N s) -> lstrip s = s.
Proof. by case: s => [|c s] //= /negbTE ->. Qed.
Lemma head_rev (s : str) : head 65%N (rev s) = last 65%N s.
Proof. by case: (lastP s) => [|s' x] //; rewrite rev_rcons last_rcons. Qed.
Lemma strip_id s : trimmed s -> rev (lstrip (rev s)) = s.
Proof. by case/andP=> _ h2; rewrite lstrip_id ?revK // head_rev. Qed.

Lemma strip_key s : trimmed s -> strip (32%N :: s) = s.
Proof. by move=> h; rewrite /strip /= (lstrip_id (s := s)); [exact: strip_id|case/andP: h]. Qed.
Lemma strip_value s : trimmed s -> strip (32%N :: s ++ [:: 10%N]) = s.
Proof.
case: s => [|c s] // h; rewrite /strip [lstrip _]/= (negbTE (proj1 (andP h))).
by rewrite -cat_cons rev_cat [rev [:: _]]/= [lstrip _]/=; exact: strip_id.
Qed.

Lemma partition_cat k v : 58%N \notin k -> partition (k ++ 58%N :: v) = (k, v).
Proof.
move=> h; rewrite /partition index_cat (negbTE h) [index _ (_ :: _)]/= addn0 take_size_cat //.
by rewrite drop_cat ltnNge leqnSn /= subSnn /= drop0.
Qed.

Lemma words_word cur w s : word w -> words_go cur (w ++ 32%N :: s) = (rev cur ++ w) :: words_go [::] s.
Proof.
case/andP=> + h; elim: w cur h => [|c w ih] cur //= /andP[/negbTE -> hw] _; case: w ih hw => [|c' w] ih hw.
  by rewrite /= rev_cons -cats1.
by rewrite ih // rev_cons cat_rcons.
Qed.
Lemma words_last cur w : word w -> words_go cur w = [:: rev cur ++ w].
Proof.
case/andP=> + h; elim: w cur h => [|c w ih] cur //= /andP[/negbTE -> hw] _; case: w ih hw => [|c' w] ih hw.
  by rewrite /= rev_cons -cats1.
by rewrite ih // rev_cons cat_rcons.
Qed.
Lemma words_join ws : all word ws -> words (join ws) = ws.
Proof.
case: ws => [|w ws] //= /andP[hw hs]; rewrite /words; elim: ws w hw hs => [|v ws ih] w hw /=.
  by rewrite cats0 words_last.
by case/andP=> hv hs; rewrite words_word // -[rev [::] ++ w]/w; congr (_ :: _); exact: ih.
Qed.

Lemma all_nospace (w : str) c s : all (fun c => ~~ space c) (c :: w) -> [&& c == 32%N, head 0%N s == 45%N & true] -> False.
Proof. by move=> /= /andP[h _] /andP[/eqP e _]; rewrite e in h. Qed.

Lemma dashes_word cur w s : all (fun c => ~~ space c) w -> dashes_go cur (w ++ a_dash ++ s) = (rev cur ++ w) :: dashes_go [::] s.
Proof.
elim: w cur => [|c w ih] cur; first by rewrite /= cats0.
rewrite cat_cons [all _ _]/= => /andP[hc hw].
have hc' : (c == 32%N) = false by apply/eqP => e; rewrite e in hc.
have e : dashes_go cur (c :: (w ++ a_dash ++ s)) = dashes_go (c :: cur) (w ++ a_dash ++ s).
  rewrite /=; case: (w ++ _) => [|c2 [|c3 s']] //; by rewrite hc'.
by rewrite e ih // rev_cons cat_rcons.
Qed.
Lemma dashes_end cur h u : all (fun c => ~~ space c) h -> all (fun c => ~~ space c) u ->
  dashes_go cur (h ++ 32%N :: u) = [:: rev cur ++ h ++ 32%N :: u].
Proof.
move=> hh hu.
have nosp s c : all (fun c => ~~ space c) s -> dashes_go c s = [:: rev c ++ s].
  elim: s c => [|x s ih] c; first by rewrite /= cats0.
  rewrite [all _ _]/= => /andP[hx hs].
  have hx' : (x == 32%N) = false by apply/eqP => e; rewrite e in hx.
  have e : dashes_go c (x :: s) = dashes_go (x :: c) s by rewrite /=; case: (s) => [|c2 [|c3 s']] //; rewrite hx'.
  by rewrite e ih // rev_cons cat_rcons.
elim: h cur hh => [|x h ih] cur.
  move=> _; have e : dashes_go cur (32%N :: u) = dashes_go (32%N :: cur) u.
    rewrite /=; case: u hu => [|c2 [|c3 s']] // /and3P[h2 h3 _].
    have -> : (c3 == 32%N) = false by apply/eqP => e; rewrite e in h3.
    by rewrite !andbF.
  by rewrite cat0s e nosp // rev_cons cat_rcons.
rewrite [all _ _]/= => /andP[hx hs].
have hx' : (x == 32%N) = false by apply/eqP => e; rewrite e in hx.
have e : dashes_go cur (x :: (h ++ 32%N :: u)) = dashes_go (x :: cur) (h ++ 32%N :: u).
  by rewrite /=; case: (h ++ _) => [|c2 [|c3 s']] //; rewrite hx'.
by rewrite cat_cons e ih // rev_cons cat_rcons.
Qed.

Lemma after_word_cat w s : all (fun c => ~~ space c) w -> after_word (w ++ 32%N :: s) = strip s.
Proof. by elim: w => [|c w ih] //= /andP[/negbTE -> h]; exact: ih. Qed.

(** ** Headers *)

Lemma comments_cons entry l ls : comments_go entry ((35%N :: l) :: ls)
  = comments_go (store entry (strip (partition l).1) (strip (partition l).2)) ls.
Proof. by []. Qed.

Lemma comments_lookup kvs entry rest k : all clean kvs -> no_comment rest ->
  lookup (comments_go entry (map comment_line kvs ++ rest)) k
  = if last_value kvs k is Some v then Some v else lookup entry k.
Proof.
move=> hk hr; elim: kvs entry hk => [|[a b] kvs ih] entry hk.
  case: rest hr => [|[|c l] rest] //= hc; by rewrite (negbTE hc).
case/andP: hk => /and3P[/= ha hb hc] hk.
transitivity (lookup (comments_go entry
  ((35%N :: ((32%N :: a) ++ 58%N :: (32%N :: b ++ [:: 10%N]))) :: (map comment_line kvs ++ rest))) k); first by [].
rewrite comments_cons partition_cat; last by rewrite in_cons negb_or hc.
rewrite strip_key // strip_value // ih // /last_value rev_cons -cats1 lookup_cat.
by case: (lookup (rev kvs) k) => // ; rewrite lookup_store /=; case: eqP.
Qed.

Lemma comments_value hdr kvs rest k : all clean kvs -> no_comment rest ->
  lookup (comments (hdr :: map comment_line kvs ++ rest)) k = last_value kvs k.
Proof. by move=> h1 h2; rewrite /comments /= comments_lookup //; case: (last_value _ _). Qed.

Section Parse.
Variables (pf : str -> option R) (pi : str -> option Z).
Variables (hdr : str) (kvs : seq (str * str)) (rest : seq str).
Hypotheses (hk : all clean kvs) (hr : no_comment rest).
Notation parse := (parse_header pf pi (hdr :: map comment_line kvs ++ rest)).

Lemma parse_table : last_value kvs k_coefficients = None -> parse = Some None.
Proof. by move=> h; rewrite /parse_header !comments_value // -/k_coefficients h. Qed.

Lemma all_floatsE ws xs : List.Forall2 (fun w x => pf w = Some x) ws xs -> all_floats pf ws = Some xs.
Proof. by elim=> [|w x ws' xs' h _ ih] //=; rewrite h ih. Qed.

Lemma parse_tail cs xs lo hi u a b nm : last_value kvs k_coefficients = Some (join cs) -> all word cs ->
  List.Forall2 (fun w x => pf w = Some x) cs xs ->
  last_value kvs k_range = Some (lo ++ a_dash ++ hi ++ 32%N :: u) -> word lo -> word hi -> all (fun c => ~~ space c) u ->
  pf lo = Some a -> pf hi = Some b ->
  (let kind := if last_value kvs k_type is Some k then k else [::] in
   (if starts w_formula kind then
                    Some (if words kind is _ :: w :: _ then (if pi w is Some z then Some (FNum z) else None) else None)
                  else if starts w_model kind then
                    Some (if words kind is _ :: _ :: _ then Some (FName (after_word kind)) else None)
                  else None) = Some (Some nm)) ->
  parse = Some (Some (Spec nm xs (a, Some b))).
Proof.
move=> e1 hc hx e2 hlo hhi hu ha hb hn; rewrite /parse_header !comments_value // -/k_coefficients -/k_type -/k_range e1.
rewrite {}hn e2 /dashes dashes_word; last by case/andP: hlo.
rewrite -[hi ++ _](cat0s) dashes_end //; last by case/andP: hhi.
rewrite (words_join hc) (all_floatsE hx) /= ha.
by rewrite /words words_word //= hb.
Qed.

Lemma starts_cat p s : starts p (p ++ s).
Proof. by rewrite /starts take_size_cat. Qed.

Lemma parse_formula cs xs lo hi u a b n z : last_value kvs k_coefficients = Some (join cs) -> all word cs ->
  List.Forall2 (fun w x => pf w = Some x) cs xs ->
  last_value kvs k_range = Some (lo ++ a_dash ++ hi ++ 32%N :: u) -> word lo -> word hi -> all (fun c => ~~ space c) u ->
  pf lo = Some a -> pf hi = Some b ->
  last_value kvs k_type = Some (w_formula ++ 32%N :: n) -> word n -> pi n = Some z ->
  parse = Some (Some (Spec (FNum z) xs (a, Some b))).
Proof.
move=> e1 hc hx e2 hlo hhi hu ha hb et hn ez; apply: (parse_tail e1 hc hx e2 hlo hhi hu ha hb).
rewrite et; cbv zeta; rewrite starts_cat /words words_word // words_last // [rev [::] ++ n]/= ez.
by [].
Qed.

Lemma parse_model cs xs lo hi u a b n : last_value kvs k_coefficients = Some (join cs) -> all word cs ->
  List.Forall2 (fun w x => pf w = Some x) cs xs ->
  last_value kvs k_range = Some (lo ++ a_dash ++ hi ++ 32%N :: u) -> word lo -> word hi -> all (fun c => ~~ space c) u ->
  pf lo = Some a -> pf hi = Some b ->
  last_value kvs k_type = Some (w_model ++ 32%N :: n) -> word n ->
  parse = Some (Some (Spec (FName n) xs (a, Some b))).
Proof.
move=> e1 hc hx e2 hlo hhi hu ha hb et hn; apply: (parse_tail e1 hc hx e2 hlo hhi hu ha hb).
rewrite et; cbv zeta; rewrite (_ : starts w_formula (w_model ++ 32%N :: n) = false) //.
rewrite starts_cat /words words_word // words_last // after_word_cat // /strip.
have tr : trimmed n.
  by case/andP: hn => hne h; apply/andP; case: n {et} h hne => [|c n] // h _; split;
    [case/andP: h|apply: (allP h); exact: mem_last].
by rewrite (lstrip_id (s := n)) ?strip_id //; case/andP: tr.
Qed.
End Parse.

(** ** The list of materials *)
Lemma str_leb_total : total str_leb.
Proof.
elim=> [|x a ih] [|y b] //=; case: (ltngtP x y) => //= _; exact: ih.
Qed.

Lemma mem_In (k : str) l : (k \in l) = true <-> List.In k l.
Proof.
elim: l => [|x l ih] //=; rewrite in_cons; split.
  by case/orP=> [/eqP->|h]; [left|right; apply/ih].
by case=> [->|/ih ->]; rewrite ?eqxx ?orbT.
Qed.

Section List_.
Variables (wofz : C -> C) (quad : (R -> R) -> R -> R -> R -> R).
Variables (pf : str -> option R) (pi : str -> option Z) (lt : seq str -> option (seq row)).
Notation find := (find_nk_index wofz quad).

Lemma list_go_spec table names es : list_go table names = Some es ->
  map fst es = names /\ forall k r, List.In (k, r) es -> exists2 d, lookup table k = Some d & range_of d = Some r.
Proof.
elim: names es => [|k ks ih] es /=; first by case=> <-.
case e: (lookup table k) => [d|] //; case er: (range_of d) => [r|] //; case el: (list_go _ _) => [es'|] // [<-].
have [h1 h2] := ih _ el; split; first by rewrite /= h1.
by move=> k' r' [[<- <-]|h]; [exists d|exact: h2].
Qed.

Lemma real_not_upper s : upper s = s -> (last_n 6 s == real_suffix) = false.
Proof.
move=> e; apply/eqP => h.
have h2 : upper (last_n 6 s) = last_n 6 s by rewrite /last_n /upper map_drop -/(upper s) e.
by rewrite h in h2.
Qed.

Lemma list_spec files es : list_materials pf pi lt files = Some es ->
  exists table, [/\ read_material_table pf pi lt files = Some table,
    sorted str_leb (map fst es), perm_eq (map fst es) (map fst table), uniq (map fst es)
   & forall k lo hi, List.In (k, (lo, hi)) es ->
       forall wl w z, find (ByName k) table wl = Some (w, z) ->
         (w = true <-> (wl < lo)%coqR \/ exists2 h, hi = Some h & (h < wl)%coqR)].
Proof.
rewrite /list_materials; case e: (read_material_table _ _ _ _) => [table|] // hl.
have [h1 h2] := list_go_spec hl; exists table.
have [hu hq] : (forall k, List.In k (map fst table) -> upper k = k) /\ uniq (map fst table).
  by apply: (read_keys _ _ e).
have hp : perm_eq (map fst es) (map fst table) by rewrite h1 perm_sort.
split=> //.
- by rewrite h1; apply: sort_sorted; exact: str_leb_total.
- by rewrite (perm_uniq hp).
move=> k lo hi hin wl w z; have [d e1 e2] := h2 _ _ hin.
have uk : upper k = k.
  apply: hu; apply/mem_In; rewrite -(perm_mem hp).
  apply/mem_In; elim: (es) hin => [|[a b] l ih] //= [[-> _]|h]; [by left|by right; apply: ih].
rewrite /find_nk_index /resolve (real_not_upper uk) uk e1 /warns e2.
case: (index_of _ _ _ _ _) => [z'|] // [<- _]; split.
  by case/orP=> [/rltbP h|]; [left|case: (hi) => // h /rltbP hh; right; exists h].
by case=> [/rltbP ->|[h -> /rltbP ->]] //; rewrite orbT.
Qed.
End List_.

(** ** Requests *)
Lemma not_real s : ~ ends_real s -> (last_n 6 s == real_suffix) = false.
Proof.
move=> h; apply/eqP => e; apply: h; exists (take (size s - 6) s).
by rewrite -[lit _]/real_suffix -e /last_n cat_take_drop.
Qed.
Lemma is_real s : (last_n 6 s == real_suffix) = false -> ~ ends_real s.
Proof. by move=> h [s' e]; move: h; rewrite e -[lit _]/real_suffix last_cat eqxx. Qed.
Lemma refers_resolve m table d : refers m table d -> resolve m table = Some (d, false).
Proof. by case: m => [s [h e]|sp ->] //; rewrite /resolve (not_real h) e. Qed.

Section Req.
Variables (wofz : C -> C) (quad : (R -> R) -> R -> R -> R -> R).
Notation find := (find_nk_index wofz quad).

Lemma find_fit_warn m table sp wl w z : refers m table (Fit sp) -> find m table wl = Some (w, z) ->
  (w = true <-> (wl < (s_range sp).1)%coqR \/ exists2 h, (s_range sp).2 = Some h & (h < wl)%coqR).
Proof.
move=> /refers_resolve h; rewrite /find_nk_index h /warns /range_of; case: (s_range sp) => lo hi.
case: (index_of _ _ _ _ _) => [z'|] // [<- _]; split.
  by case/orP=> [/rltbP hh|]; [left|case: (hi) => // a /rltbP hh; right; exists a].
by case=> [/rltbP ->|[a /= -> /rltbP ->]] //; rewrite orbT.
Qed.

Lemma find_sell m table sp pole wl w z : refers m table (Fit sp) -> pole_of sp pole -> find m table wl = Some (w, z) ->
  exists2 z', formula_sellmeier pole (s_coefs sp) wl = Some z' & z = conj z'.
Proof.
move=> /refers_resolve h hp; rewrite /find_nk_index h; case: (warns _ _) => [w'|] //.
rewrite /index_of /evaluate; case: hp => [[-> ->]|[-> ->]].
  by rewrite /formula_1; case: (formula_sellmeier _ _ _) => [z'|] // [_ <-]; exists z'.
by rewrite /formula_2; case: (formula_sellmeier _ _ _) => [z'|] // [_ <-]; exists z'.
Qed.

Lemma fit_sellmeier m table sp pole wl w z : refers m table (Fit sp) -> pole_of sp pole -> find m table wl = Some (w, z) ->
  Im z = 0%coqR /\ (0 <= Re z)%coqR /\
  (Re z * Re z - 1 = nth 0 (s_coefs sp) 0 + sellmeier_sum pole (behead (s_coefs sp)) wl)%coqR.
Proof.
move=> h hp hf; have [z' e ->] := find_sell h hp hf; have [h1 [h2 h3]] := sellmeier_eq e.
have -> : Im (conj z') = (- Im z')%coqR by [].
by rewrite h1; split; [ring|].
Qed.

Lemma fit_falls m table sp pole c0 cs x y wx wy zx zy : refers m table (Fit sp) -> pole_of sp pole ->
  s_coefs sp = c0 :: cs -> (0 <= x <= y)%coqR -> no_pole_between pole cs x y ->
  find m table x = Some (wx, zx) -> find m table y = Some (wy, zy) -> (Re zy <= Re zx)%coqR.
Proof.
move=> h hp hc hxy hn h1 h2; have [z1 e1 ->] := find_sell h hp h1; have [z2 e2 ->] := find_sell h hp h2.
rewrite hc in e1 e2; exact: (sellmeier_falls hxy (between_ok hn) e1 e2).
Qed.

Lemma fit_defined m table sp pole c0 cs x : refers m table (Fit sp) -> pole_of sp pole ->
  s_coefs sp = c0 :: cs -> (0 <= x)%coqR -> (-1 <= c0)%coqR -> above_poles pole cs x -> ~~ odd (size cs) ->
  exists w z, find m table x = Some (w, z).
Proof.
move=> /refers_resolve h hp hc hx h0 ha ho.
have [z e] := sellmeier_defined hx h0 (above_ok ha) ho.
rewrite /find_nk_index h /warns /range_of [s_range sp]surjective_pairing.
rewrite /index_of /evaluate; case: hp => [[-> ep]|[-> ep]]; rewrite /formula_1 /formula_2 hc -ep e; by eexists _, _.
Qed.
End Req.
