(** Properties of material lookup. *)
From Coq Require Import Reals ZArith Lra Ascii String.
From Coquelicot Require Import Coquelicot.
From mathcomp Require Import all_ssreflect ssralg.
From Verif Require Import Cplx ModelVec ModelMat SpecMat ProofMat ProofMat2 ProofMat3 ProofMat4 ProofMat5 ProofMat6 ProofMat7.

Set Implicit Arguments.
Unset Strict Implicit.
Unset Printing Implicit Defensive.
Local Open Scope ring_scope.
Import GRing.Theory.

(** A table and a library for the examples. *)
Definition rows_ex : seq row := [:: Row 1 2 0; Row 3 4 1].
Definition table_ex : dict mat_data := [:: (lit "GLASS", Rows rows_ex)].

Lemma no_real_ex (s : str) : (last_n 6 s == lit "__real") = false -> ~ ends_real s.
Proof. exact: is_real. Qed.
Lemma refers_ex : refers (ByName (lit "Glass")) table_ex (Rows rows_ex).
Proof. by split; [exact: no_real_ex|]. Qed.
Lemma strict_ex : strictly_ascending rows_ex.
Proof. by case=> [|[|i]] [|[|j]] //=; rewrite ?ltnS ?ltn0 ?andbF //= => _; lra. Qed.
Lemma asc_ex : ascending rows_ex.
Proof. exact: strict_weak strict_ex. Qed.

(** ** C67: tables whose wavelengths are sorted. *)
Theorem C67_line wofz quad m table wl rs i : refers m table (Rows rs) -> ascending rs -> (i.+1 < size rs)%N ->
  let r1 := nth (Row 0 0 0) rs i in let r2 := nth (Row 0 0 0) rs i.+1 in
  (r_wl r1 <= wl < r_wl r2)%coqR ->
  exists z, [/\ find_nk_index wofz quad m table wl = Some (false, z),
     on_line (r_wl r1) (r_n r1) (r_wl r2) (r_n r2) wl (Re z), on_line (r_wl r1) (r_k r1) (r_wl r2) (r_k r2) wl (- Im z)%coqR,
     within (r_n r1) (r_n r2) (Re z) & within (r_k r1) (r_k r2) (- Im z)%coqR].
Proof. exact (@table_line wofz quad m table wl rs i). Qed.
Print Assumptions C67_line.

Example C67_line_ex wofz quad : exists z, find_nk_index wofz quad (ByName (lit "Glass")) table_ex 2 = Some (false, z) /\
  Re z = 3%coqR /\ Im z = (-1/2)%coqR.
Proof.
have h : (1 <= 2 < 3)%coqR by lra.
have [z [h1 h2 h3 _ _]] := @C67_line wofz quad _ _ 2 rows_ex 0 refers_ex asc_ex isT h.
exists z; split=> //; move: h2 h3; rewrite /on_line /= => h2 h3; split; lra.
Qed.

Theorem C67_exact wofz quad m table rs i : refers m table (Rows rs) -> strictly_ascending rs -> (i < size rs)%N ->
  let r := nth (Row 0 0 0) rs i in
  find_nk_index wofz quad m table (r_wl r) = Some (false, RtoC (r_n r) - ci * RtoC (r_k r)).
Proof. exact (@table_exact wofz quad m table rs i). Qed.
Print Assumptions C67_exact.

Example C67_exact_ex wofz quad : find_nk_index wofz quad (ByName (lit "gLaSS")) table_ex 3 = Some (false, RtoC 4 - ci * RtoC 1).
Proof.
have h : refers (ByName (lit "gLaSS")) table_ex (Rows rows_ex) by split; [exact: no_real_ex|].
exact (@C67_exact wofz quad _ _ _ 1 h strict_ex isT).
Qed.

Theorem C67_ends wofz quad m table wl rs : refers m table (Rows rs) -> ascending rs -> (0 < size rs)%N ->
  let r := nth (Row 0 0 0) rs 0 in let r' := nth (Row 0 0 0) rs (size rs).-1 in
  ((wl < r_wl r)%coqR -> find_nk_index wofz quad m table wl = Some (true, RtoC (r_n r) - ci * RtoC (r_k r))) /\
  ((r_wl r' < wl)%coqR -> find_nk_index wofz quad m table wl = Some (true, RtoC (r_n r') - ci * RtoC (r_k r'))).
Proof. exact (@table_ends wofz quad m table wl rs). Qed.
Print Assumptions C67_ends.

Example C67_ends_ex wofz quad : find_nk_index wofz quad (ByName (lit "Glass")) table_ex 7 = Some (true, RtoC 4 - ci * RtoC 1).
Proof. by apply: (proj2 (@C67_ends wofz quad _ _ 7 rows_ex refers_ex asc_ex isT)) => /=; lra. Qed.

(** The warning, for any table with at least one row, sorted or not. *)
Theorem C67_warns wofz quad m table wl rs : refers m table (Rows rs) -> rs <> [::] ->
  exists w z, find_nk_index wofz quad m table wl = Some (w, z) /\
  (w = true <-> (forall r, List.In r rs -> wl < r_wl r)%coqR \/ (forall r, List.In r rs -> r_wl r < wl)%coqR).
Proof. exact (@table_warns wofz quad m table wl rs). Qed.
Print Assumptions C67_warns.

Example C67_warns_ex wofz quad : exists z, find_nk_index wofz quad (ByName (lit "Glass")) table_ex 0 = Some (true, z).
Proof.
have hn : rows_ex <> [::] by [].
have [w [z [h1 [_ h2]]]] := @C67_warns wofz quad _ _ 0 rows_ex refers_ex hn.
exists z; rewrite h1 h2 //; left=> r [<-|[<-|//]] /=; lra.
Qed.

(** ** C35 is false without the order: four consecutive rows of the shipped Al2O3_querry-o.txt, whose second and third row
    are swapped.  At the wavelength of the second row the index of that row is not what is returned. *)
Definition querry_ex : seq row :=
  [:: Row (38610 / 10 ^ 10) (1684 / 1000) (21 / 1000); Row (38976 / 10 ^ 10) (1683 / 1000) (21 / 1000);
      Row (38911 / 10 ^ 10) (1683 / 1000) (21 / 1000); Row (39063 / 10 ^ 10) (1682 / 1000) (20 / 1000)].

Theorem C35_exact_refuted wofz quad : exists table r z,
  [/\ refers (ByName (lit "Al2O3_querry-o")) table (Rows querry_ex), List.In r querry_ex,
      forall r', List.In r' querry_ex -> r_wl r' = r_wl r -> r' = r,
      find_nk_index wofz quad (ByName (lit "Al2O3_querry-o")) table (r_wl r) = Some (false, z)
    & Re z <> r_n r].
Proof.
exists [:: (lit "AL2O3_QUERRY-O", Rows querry_ex)], (nth (Row 0 0 0) querry_ex 1).
have hr : refers (ByName (lit "Al2O3_querry-o")) [:: (lit "AL2O3_QUERRY-O", Rows querry_ex)] (Rows querry_ex).
  by split; [exact: no_real_ex|].
have hn : querry_ex <> [::] by [].
have [n [k [w [h1 h2 h3 h4]]]] := find_rows wofz quad (r_wl (nth (Row 0 0 0) querry_ex 1)) (refers_resolve hr) hn.
have ew : w = false.
  have [w' e hw] := warns_rows (r_wl (nth (Row 0 0 0) querry_ex 1)) hn.
  rewrite e in h3; case: h3 => <-; case: w' e hw => // _ [/(_ erefl) hw _].
  case: hw => [/(_ _ (or_introl erefl))|/(_ _ (or_intror (or_intror (or_intror (or_introl erefl)))))] /=; lra.
rewrite ew in h4; exists (RtoC n - ci * RtoC k); split=> //.
- by right; left.
- by move=> r' [<-|[<-|[<-|[<-|//]]]] //= h; exfalso; lra.
rewrite Re_nk; move: h1; rewrite /interp /= /interp_go.
case: rltbP => [h|_]; first by exfalso; lra.
case: rltbP => [h|_]; first by exfalso; lra.
case: rlebP => [_|h]; last by exfalso; lra.
case: rlebP => [_|h]; last by exfalso; lra.
case: rlebP => [h|_]; first by exfalso; lra.
case: Req_EM_T => h; first by exfalso; move: h => /=; lra.
move=> [<-] /= e.
have : ((1682 / 1000 - 1683 / 1000) / (39063 / 10 ^ 10 - 38911 / 10 ^ 10) * (38976 / 10 ^ 10 - 38911 / 10 ^ 10) = - 65 / 152000)%coqR.
  by field.
move=> e'; move: e; rewrite e'; lra.
Qed.
Print Assumptions C35_exact_refuted.

(** ** C36: sign convention. *)
Theorem C36_table_sign wofz quad m table wl rs w z : refers m table (Rows rs) ->
  (forall r, List.In r rs -> 0 <= r_k r)%coqR -> find_nk_index wofz quad m table wl = Some (w, z) -> (Im z <= 0)%coqR.
Proof. exact (@table_sign wofz quad m table wl rs w z). Qed.
Print Assumptions C36_table_sign.

Theorem C36_real_variant wofz quad s table wl w z : ~ ends_real s ->
  find_nk_index wofz quad (ByName s) table wl = Some (w, z) ->
  find_nk_index wofz quad (ByName (s ++ lit "__real")) table wl = Some (w, RtoC (Re z)).
Proof. exact (@real_name wofz quad s table wl w z). Qed.
Print Assumptions C36_real_variant.

Example C36_ex wofz quad : exists z, [/\ find_nk_index wofz quad (ByName (lit "Glass")) table_ex 2 = Some (false, z), (Im z <= 0)%coqR
  & find_nk_index wofz quad (ByName (lit "Glass__real")) table_ex 2 = Some (false, RtoC 3)].
Proof.
have [z [h1 [h2 h3]]] := C67_line_ex wofz quad; exists z; split=> //.
  by apply: (C36_table_sign refers_ex _ h1) => r [<-|[<-|//]] /=; lra.
by rewrite -h2; apply: (@C36_real_variant wofz quad (lit "Glass")) => //; exact: no_real_ex.
Qed.

(** ** C69: Sellmeier fits. *)
Theorem C69_equation wofz quad m table sp pole wl w z : refers m table (Fit sp) -> pole_of sp pole ->
  find_nk_index wofz quad m table wl = Some (w, z) ->
  Im z = 0%coqR /\ (0 <= Re z)%coqR /\
  (Re z * Re z - 1 = nth 0 (s_coefs sp) 0 + sellmeier_sum pole (behead (s_coefs sp)) wl)%coqR.
Proof. exact (@fit_sellmeier wofz quad m table sp pole wl w z). Qed.
Print Assumptions C69_equation.

(** Normal dispersion. *)
Theorem C69_falls wofz quad m table sp pole c0 cs x y wx wy zx zy : refers m table (Fit sp) -> pole_of sp pole ->
  s_coefs sp = c0 :: cs -> (0 <= x <= y)%coqR -> no_pole_between pole cs x y ->
  find_nk_index wofz quad m table x = Some (wx, zx) -> find_nk_index wofz quad m table y = Some (wy, zy) ->
  (Re zy <= Re zx)%coqR.
Proof. exact (@fit_falls wofz quad m table sp pole c0 cs x y wx wy zx zy). Qed.
Print Assumptions C69_falls.

Theorem C69_defined wofz quad m table sp pole c0 cs x : refers m table (Fit sp) -> pole_of sp pole ->
  s_coefs sp = c0 :: cs -> (0 <= x)%coqR -> (-1 <= c0)%coqR -> above_poles pole cs x -> ~~ odd (size cs) ->
  exists w z, find_nk_index wofz quad m table x = Some (w, z).
Proof. exact (@fit_defined wofz quad m table sp pole c0 cs x). Qed.
Print Assumptions C69_defined.

Definition sell_ex : spec := Spec (FNum 1) [:: 0; 3; 1]%coqR (1, Some 5)%coqR.
Example C69_ex wofz quad : exists z2 z3, [/\ find_nk_index wofz quad (BySpec sell_ex) [::] 2 = Some (false, z2),
  find_nk_index wofz quad (BySpec sell_ex) [::] 3 = Some (false, z3),
  (Re z2 * Re z2 = 5)%coqR & (Re z3 <= Re z2)%coqR].
Proof.
have hr : refers (BySpec sell_ex) [::] (Fit sell_ex) by [].
have hp : pole_of sell_ex (fun b => b * b)%coqR by left.
have ab x : (1 < x)%coqR -> above_poles (fun b => b * b)%coqR [:: 3; 1]%coqR x by move=> hx [|i] //= _; split; [lra|nra].
have df x : (1 < x < 5)%coqR -> exists z, find_nk_index wofz quad (BySpec sell_ex) [::] x = Some (false, z).
  move=> hx; have hx0 : (0 <= x)%coqR by lra.
  have h1 : (-1 <= 0)%coqR by lra.
  have [w [z e]] := @C69_defined wofz quad _ _ _ _ _ _ x hr hp erefl hx0 h1 (ab x (proj1 hx)) isT.
  exists z; rewrite e; have [hw _] := find_fit_warn hr e; case: w e hw => // _ /(_ erefl).
  by case=> [/=|[h [<-]]]; lra.
have [|z2 e2] := df 2%coqR; first lra.
have [|z3 e3] := df 3%coqR; first lra.
exists z2, z3; split=> //.
  by have [_ [_ h]] := C69_equation hr hp e2; move: h; rewrite /sellmeier_sum /=; lra.
apply: (C69_falls hr hp (erefl : s_coefs sell_ex = 0%coqR :: [:: 3; 1]%coqR) _ _ e2 e3); first lra.
by move=> [|i] //= _; split; [lra|split; [lra|left; lra]].
Qed.

(** ** C70: the Brendel-Bormann fits are sums of Gaussian-broadened Lorentz oscillators, and absorb. *)
Theorem C70_ev wofz quad m table sp p st g os wl : faddeeva wofz -> refers m table (Fit sp) ->
  s_formula sp = FName bb_ev_name -> s_coefs sp = p :: st :: g :: coefs_ev os ->
  (0 < wl)%coqR -> (0 <= st)%coqR -> (0 <= g)%coqR -> (forall o, List.In o os -> passive_osc o) ->
  exists b z cs, [/\ find_nk_index wofz quad m table wl = Some (b, z),
    conj (z * z) = drude st p g (omega_ev wl) + \sum_(x <- cs) x,
    List.Forall2 (fun (o : osc) chi => let: (f, g, c, s) := o in broadened (omega_ev wl) (f * (p * p)) g c s chi) os cs
   & absorbing z].
Proof. exact (@fit_bb_ev wofz quad m table sp p st g os wl). Qed.
Print Assumptions C70_ev.

Theorem C70_cm wofz quad m table sp e0 os wl : faddeeva wofz -> refers m table (Fit sp) ->
  s_formula sp = FName bb_cm_name -> s_coefs sp = e0 :: coefs_cm os -> os <> [::] ->
  (0 < wl)%coqR -> (forall o, List.In o os -> passive_osc o) ->
  exists b z cs, [/\ find_nk_index wofz quad m table wl = Some (b, z),
    conj (z * z) = RtoC e0 + \sum_(x <- cs) x,
    List.Forall2 (fun (o : osc) chi => let: (f, g, c, s) := o in broadened (1 / 100 / wl) f g c s chi) os cs
   & absorbing z].
Proof. exact (@fit_bb_cm wofz quad m table sp e0 os wl). Qed.
Print Assumptions C70_cm.

(** A function with the assumed integral representation exists, so the hypothesis on wofz can be met. *)
Example C70_faddeeva_ex : exists w, faddeeva w.
Proof. exact: faddeeva_exists. Qed.

(** The first coefficients of the shipped gold fit. *)
Definition gold_ex : spec :=
  Spec (FName bb_ev_name) [:: 920007/100000; 85195/100000; 9509/100000; 3361/100000; 8138/100000; 24435/100000; 66983/100000]%coqR (15 / 10 ^ 8, Some (1 / 10 ^ 4))%coqR.
Example C70_ex quad : exists w b z, [/\ faddeeva w,
  find_nk_index w quad (BySpec gold_ex) [::] (1 / 10 ^ 6) = Some (b, z) & absorbing z].
Proof.
have [w hw] := faddeeva_exists; exists w.
have h1 : (0 < 1 / 10 ^ 6)%coqR by lra.
have h2 : (0 <= 85195/100000)%coqR by lra.
have h3 : (0 <= 9509/100000)%coqR by lra.
have h4 o : List.In o [:: (3361/100000, 8138/100000, 24435/100000, 66983/100000)%coqR] -> passive_osc o by case=> [<-|//] /=; lra.
have [b [z [cs [e _ _ ha]]]] := @C70_ev w quad (BySpec gold_ex) [::] gold_ex _ _ _
  [:: (3361/100000, 8138/100000, 24435/100000, 66983/100000)%coqR] _ hw erefl erefl erefl h1 h2 h3 h4.
by exists b, z.
Qed.

(** ** C71: graphene. *)
Theorem C71_graphene wofz quad f mob temp th wl sp : graphene_spec f mob temp th = Some sp -> (0 < wl)%coqR ->
  exists z, find_nk_index wofz quad (BySpec sp) [::] wl = Some (false, z) /\ (0 < Re z)%coqR /\ (Im z < 0)%coqR.
Proof. exact (@graphene wofz quad f mob temp th wl sp). Qed.
Print Assumptions C71_graphene.

Theorem C71_accepts f mob temp th :
  (exists sp, graphene_spec f mob temp th = Some sp) <-> [/\ (0 < f)%coqR, (0 < mob)%coqR, (0 < temp)%coqR & (0 < th)%coqR].
Proof. exact (@graphene_accepts f mob temp th). Qed.
Print Assumptions C71_accepts.

Example C71_ex wofz quad : exists sp z, [/\ graphene_spec (2/10) 10000 300 (34 / 10 ^ 11) = Some sp,
  find_nk_index wofz quad (BySpec sp) [::] (1 / 10 ^ 5) = Some (false, z) & (Im z < 0)%coqR].
Proof.
have [_ h] := C71_accepts (2/10) 10000 300 (34 / 10 ^ 11).
have [|sp e] := h; first by split; lra.
have [|z [h1 [_ h3]]] := @C71_graphene wofz quad _ _ _ _ (1 / 10 ^ 5) sp e; first lra.
by exists sp, z.
Qed.

(** ** C37 is false: the suffix must be in lower case. *)
Theorem C37_suffix_refuted wofz quad : exists table s s' wl,
  [/\ same_letters s s', find_nk_index wofz quad (ByName s) table wl <> None
    & find_nk_index wofz quad (ByName s') table wl = None].
Proof.
exists table_ex, (lit "Glass__real"), (lit "GLASS__REAL"), 2%coqR; split.
- by apply/same_upper.
- by have [z [_ _ ->]] := C36_ex wofz quad.
apply: (@find_unknown wofz quad); first by [].
  by move=> k [<-|//] /same_upper.
by move=> k [<-|//].
Qed.
Print Assumptions C37_suffix_refuted.

(** ** C68: what holds of names.  A name finds the last file whose name without extension differs from it in letter case
    only; other names are not found; letter case does not matter, before a lower-case suffix either. *)
Theorem C68_case wofz quad s s' table wl : same_letters s s' -> ~ ends_real s -> ~ ends_real s' ->
  find_nk_index wofz quad (ByName s) table wl = find_nk_index wofz quad (ByName s') table wl /\
  find_nk_index wofz quad (ByName (s ++ lit "__real")) table wl = find_nk_index wofz quad (ByName (s' ++ lit "__real")) table wl.
Proof. exact (@name_case wofz quad s s' table wl). Qed.
Print Assumptions C68_case.

Theorem C68_found pf pi lt files table l1 f l2 d s : read_material_table pf pi lt files = Some table ->
  files = l1 ++ f :: l2 -> load_file pf pi lt f = Some (Some d) -> same_letters (but_last 4 f.1) s ->
  (forall g d', List.In g l2 -> load_file pf pi lt g = Some (Some d') -> ~ same_letters (but_last 4 g.1) s) ->
  ~ ends_real s -> refers (ByName s) table d.
Proof. exact (@file_found pf pi lt files table l1 f l2 d s). Qed.
Print Assumptions C68_found.

Theorem C68_unknown wofz quad pf pi lt files table s wl : read_material_table pf pi lt files = Some table ->
  (forall g d', List.In g files -> load_file pf pi lt g = Some (Some d') -> ~ same_letters (but_last 4 g.1) s) ->
  ~ ends_real s ->
  find_nk_index wofz quad (ByName s) table wl = None /\ find_nk_index wofz quad (ByName (s ++ lit "__real")) table wl = None.
Proof. exact (@file_unknown wofz quad pf pi lt files table s wl). Qed.
Print Assumptions C68_unknown.

(** Two text files and one of another kind; two of the names coincide. *)
Definition files_ex : seq file := [:: (lit "glass.txt", Text [:: lit "old"]); (lit "readme.md", Text [::]); (lit "Glass.txt", Text [::])].
Definition loadtxt_ex (lines : seq str) : option (seq row) := Some (if lines is [::] then rows_ex else [:: Row 0 0 0; Row 0 0 0]).
Example C68_ex wofz quad : exists table,
  [/\ read_material_table (fun _ => None) (fun _ => None) loadtxt_ex files_ex = Some table,
      refers (ByName (lit "GLASS")) table (Rows rows_ex)
    & find_nk_index wofz quad (ByName (lit "readme")) table 2 = None].
Proof.
exists table_ex; split; first by [].
  by apply: (@C68_found (fun _ => None) (fun _ => None) loadtxt_ex files_ex table_ex
    [:: (lit "glass.txt", Text [:: lit "old"]); (lit "readme.md", Text [::])] _ [::] _ _ erefl erefl erefl) => //;
    [apply/same_upper|exact: no_real_ex].
apply: (proj1 (@C68_unknown wofz quad (fun _ => None) (fun _ => None) loadtxt_ex files_ex table_ex _ 2 erefl _ _)).
  by move=> g d' [<-|[<-|[<-|//]]] // _ /same_upper.
exact: no_real_ex.
Qed.

(** ** C38: substitution of materials for labels. *)
Theorem C38_cells wofz quad disk table labels mats wl t' res :
  put_refractive_index wofz quad disk table labels mats wl = (t', Some res) ->
  size res = size labels /\ forall j, (j < size labels)%N ->
    (forall k, (k < size mats)%N -> nth 0 labels j = RtoC (INR k) ->
       stands_for (find_nk_index wofz quad) disk table wl (nth (Value 0) mats k) (nth 0 res j)) /\
    ((forall k, (k < size mats)%N -> nth 0 labels j <> RtoC (INR k)) -> nth 0 res j = 0).
Proof. exact (@put_cells wofz quad disk table labels mats wl t' res). Qed.
Print Assumptions C38_cells.

Theorem C38_raises wofz quad disk table labels mats wl :
  (put_refractive_index wofz quad disk table labels mats wl).2 = None <->
  exists k, (k < size mats)%N /\ forall c, ~ stands_for (find_nk_index wofz quad) disk table wl (nth (Value 0) mats k) c.
Proof. exact (@put_raises wofz quad disk table labels mats wl). Qed.
Print Assumptions C38_raises.

(** The value 1 put in for label 0 is not taken for label 1 afterwards; label 2 has no material. *)
Example C38_ex wofz quad : exists t' res,
  put_refractive_index wofz quad (Some table_ex) [::] [:: RtoC (INR 1); RtoC (INR 0); RtoC (INR 2); RtoC (INR 1)]
    [:: Value (RtoC 1); Named (ByName (lit "Glass__real"))] 2 = (t', Some res) /\
  [/\ nth 0 res 0 = RtoC 3, nth 0 res 1 = RtoC 1, nth 0 res 2 = 0 & nth 0 res 3 = RtoC 3].
Proof.
have [z [_ _ eg]] := C36_ex wofz quad.
set labels := [:: _; _; _; _]; set mats := [:: _; _].
case e: (put_refractive_index wofz quad (Some table_ex) [::] labels mats 2) => [t' [res|]]; last first.
  have : (put_refractive_index wofz quad (Some table_ex) [::] labels mats 2).2 = None by rewrite e.
  move/C38_raises=> [k [hk h]]; exfalso; case: k hk h => [|[|k]] hk h; [exact: (h (RtoC 1))| |by []].
  by apply: (h (RtoC 3)); exists table_ex, false.
exists t', res; split=> //; have [_ h] := C38_cells e.
have hn i j : RtoC (INR i) = RtoC (INR j) -> i = j by exact: INR_inj_C.
split.
- have [/(_ 1%N isT erefl) [T [b [[<-] ef]]] _] := h 0%N isT.
  by have := eq_trans (esym eg) ef; case.
- by have [/(_ 0%N isT erefl) -> _] := h 1%N isT.
- by have [_ ->] := h 2%N isT => // -[|[|k]] // _ /hn.
have [/(_ 1%N isT erefl) [T [b [[<-] ef]]] _] := h 3%N isT.
by have := eq_trans (esym eg) ef; case.
Qed.

(** ** C72: headers of the form "# key: value".  [hdr] is the first line, which is skipped. *)
Theorem C72_table pf pi hdr kvs rest : all clean kvs -> no_comment rest -> last_value kvs k_coefficients = None ->
  parse_header pf pi (hdr :: map comment_line kvs ++ rest) = Some None.
Proof. exact (@parse_table pf pi hdr kvs rest). Qed.
Print Assumptions C72_table.

Theorem C72_formula pf pi hdr kvs rest : all clean kvs -> no_comment rest -> forall cs xs lo hi u a b n z,
  last_value kvs k_coefficients = Some (join cs) -> all word cs -> List.Forall2 (fun w x => pf w = Some x) cs xs ->
  last_value kvs k_range = Some (lo ++ a_dash ++ hi ++ 32%N :: u) -> word lo -> word hi -> all (fun c => ~~ space c) u ->
  pf lo = Some a -> pf hi = Some b ->
  last_value kvs k_type = Some (w_formula ++ 32%N :: n) -> word n -> pi n = Some z ->
  parse_header pf pi (hdr :: map comment_line kvs ++ rest) = Some (Some (Spec (FNum z) xs (a, Some b))).
Proof. exact (@parse_formula pf pi hdr kvs rest). Qed.
Print Assumptions C72_formula.

Theorem C72_model pf pi hdr kvs rest : all clean kvs -> no_comment rest -> forall cs xs lo hi u a b n,
  last_value kvs k_coefficients = Some (join cs) -> all word cs -> List.Forall2 (fun w x => pf w = Some x) cs xs ->
  last_value kvs k_range = Some (lo ++ a_dash ++ hi ++ 32%N :: u) -> word lo -> word hi -> all (fun c => ~~ space c) u ->
  pf lo = Some a -> pf hi = Some b ->
  last_value kvs k_type = Some (w_model ++ 32%N :: n) -> word n ->
  parse_header pf pi (hdr :: map comment_line kvs ++ rest) = Some (Some (Spec (FName n) xs (a, Some b))).
Proof. exact (@parse_model pf pi hdr kvs rest). Qed.
Print Assumptions C72_model.

Definition kvs_ex : seq (str * str) :=
  [:: (k_type, lit "formula 1"); (lit "source", lit "somewhere"); (k_coefficients, lit "0 1.5"); (k_range, lit "2e-07 - 6e-06 m")].
Example C72_ex pi z : pi (lit "1") = Some z ->
  parse_header (fun w => Some (INR (size w))) pi (lit "wl n k" :: map comment_line kvs_ex ++ [:: lit "1 2 3"])
  = Some (Some (Spec (FNum z) [:: INR 1; INR 3] (INR 5, Some (INR 5)))).
Proof.
move=> hz; apply: (@C72_formula _ _ _ kvs_ex [:: lit "1 2 3"] isT isT [:: lit "0"; lit "1.5"] _ (lit "2e-07") (lit "6e-06") (lit "m")
  _ _ (lit "1")) => //.
by do 2 (apply: List.Forall2_cons => //).
Qed.

(** ** C73: the list of materials. *)
Theorem C73_list wofz quad pf pi lt files es : list_materials pf pi lt files = Some es ->
  exists table, [/\ read_material_table pf pi lt files = Some table,
    sorted str_leb (map fst es), perm_eq (map fst es) (map fst table), uniq (map fst es)
   & forall k lo hi, List.In (k, (lo, hi)) es ->
       forall wl w z, find_nk_index wofz quad (ByName k) table wl = Some (w, z) ->
         (w = true <-> (wl < lo)%coqR \/ exists2 h, hi = Some h & (h < wl)%coqR)].
Proof. exact (@list_spec wofz quad pf pi lt files es). Qed.
Print Assumptions C73_list.

Example C73_ex : exists es, list_materials (fun _ => None) (fun _ => None) loadtxt_ex files_ex = Some es /\
  map fst es = [:: lit "GLASS"].
Proof. by eexists. Qed.
