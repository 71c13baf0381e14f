(** Lemmas about material lookup: the statements of the properties, and a Faddeeva function. *)
From Coq Require Import Reals ZArith Lra Lia Ascii String.
From Coquelicot Require Import Coquelicot.
From mathcomp Require Import all_ssreflect ssralg.
From Verif Require Import Cplx ModelVec ModelMat SpecMat ProofMat ProofMat2 ProofMat3 ProofMat4 ProofMat5 ProofMat6.

Set Implicit Arguments.
Unset Strict Implicit.
Unset Printing Implicit Defensive.
Local Open Scope ring_scope.
Import GRing.Theory.

Section S.
Variables (wofz : C -> C) (quad : (R -> R) -> R -> R -> R -> R).
Notation find := (find_nk_index wofz quad).

Lemma table_warns m table wl rs : refers m table (Rows rs) -> rs <> [::] -> exists w z, find m table wl = Some (w, z) /\
  (w = true <-> (forall r, List.In r rs -> wl < r_wl r)%coqR \/ (forall r, List.In r rs -> r_wl r < wl)%coqR).
Proof.
move=> /refers_resolve h hn; have [n [k [w [_ _ e ef]]]] := find_rows wofz quad wl h hn.
have [w' e' hw] := warns_rows wl hn; rewrite e in e'; case: e' => ew; subst w'.
by exists w, (RtoC n - ci * RtoC k).
Qed.

Lemma table_line m table wl rs i : refers m table (Rows rs) -> ascending rs -> (i.+1 < size rs)%N ->
  let r1 := nth (Row 0 0 0) rs i in let r2 := nth (Row 0 0 0) rs i.+1 in
  (r_wl r1 <= wl < r_wl r2)%coqR ->
  exists z, [/\ find m table wl = Some (false, z),
     on_line (r_wl r1) (r_n r1) (r_wl r2) (r_n r2) wl (Re z), on_line (r_wl r1) (r_k r1) (r_wl r2) (r_k r2) wl (- Im z)%coqR,
     within (r_n r1) (r_n r2) (Re z) & within (r_k r1) (r_k r2) (- Im z)%coqR].
Proof. by move=> /refers_resolve; exact: tab_line. Qed.
Lemma table_exact m table rs i : refers m table (Rows rs) -> strictly_ascending rs -> (i < size rs)%N ->
  let r := nth (Row 0 0 0) rs i in find m table (r_wl r) = Some (false, RtoC (r_n r) - ci * RtoC (r_k r)).
Proof. by move=> /refers_resolve; exact: tab_exact. Qed.
Lemma table_ends m table wl rs : refers m table (Rows rs) -> ascending rs -> (0 < size rs)%N ->
  let r := nth (Row 0 0 0) rs 0 in let r' := nth (Row 0 0 0) rs (size rs).-1 in
  ((wl < r_wl r)%coqR -> find m table wl = Some (true, RtoC (r_n r) - ci * RtoC (r_k r))) /\
  ((r_wl r' < wl)%coqR -> find m table wl = Some (true, RtoC (r_n r') - ci * RtoC (r_k r'))).
Proof. by move=> /refers_resolve h h1 h2; split=> h3; [exact: (tab_low _ _ h h1 h2)|exact: (tab_high _ _ h h1 h2)]. Qed.

Lemma table_sign m table wl rs w z : refers m table (Rows rs) -> (forall r, List.In r rs -> 0 <= r_k r)%coqR ->
  find m table wl = Some (w, z) -> (Im z <= 0)%coqR.
Proof. by move=> /refers_resolve; exact: sign_table. Qed.
Lemma real_name s table wl w z : ~ ends_real s -> find (ByName s) table wl = Some (w, z) ->
  find (ByName (s ++ lit "__real")) table wl = Some (w, RtoC (Re z)).
Proof. by move=> h; apply: real_variant; rewrite not_real. Qed.

Lemma name_case s s' table wl : same_letters s s' -> ~ ends_real s -> ~ ends_real s' ->
  find (ByName s) table wl = find (ByName s') table wl /\
  find (ByName (s ++ lit "__real")) table wl = find (ByName (s' ++ lit "__real")) table wl.
Proof.
move=> h h1 h2; split; last exact: find_case_real.
by apply: find_case => //; apply/eqP; rewrite not_real.
Qed.

(** *** Lookup in the files *)
Variables (pf : str -> option R) (pi : str -> option Z) (lt : seq str -> option (seq row)).
Notation load := (load_file pf pi lt).
Lemma file_found files table l1 f l2 d s : read_material_table pf pi lt files = Some table ->
  files = l1 ++ f :: l2 -> load f = Some (Some d) -> same_letters (stem f) s ->
  (forall g d', List.In g l2 -> load g = Some (Some d') -> ~ same_letters (stem g) s) ->
  ~ ends_real s -> refers (ByName s) table d.
Proof. by move=> h1 h2 h3 h4 h5 h6; split=> //; exact: (lookup_file h1 h2 h3 h4 h5). Qed.
Lemma file_unknown files table s wl : read_material_table pf pi lt files = Some table ->
  (forall g d', List.In g files -> load g = Some (Some d') -> ~ same_letters (stem g) s) ->
  ~ ends_real s -> find (ByName s) table wl = None /\ find (ByName (s ++ lit "__real")) table wl = None.
Proof.
move=> h1 h2 h3; have e := lookup_nofile h1 h2; rewrite /find_nk_index /resolve not_real // e; split=> //.
by rewrite -[lit _]/real_suffix last_cat eqxx but_cat e.
Qed.

(** *** Cells *)
Lemma put_cells disk table labels mats wl t' res : put_refractive_index wofz quad disk table labels mats wl = (t', Some res) ->
  size res = size labels /\ forall j, (j < size labels)%N ->
    (forall k, (k < size mats)%N -> nth 0 labels j = RtoC (INR k) ->
       stands_for find disk table wl (nth (Value 0) mats k) (nth 0 res j)) /\
    ((forall k, (k < size mats)%N -> nth 0 labels j <> RtoC (INR k)) -> nth 0 res j = 0).
Proof.
move=> h; have hs : size (nseq (size labels) (0 : C)) = size labels by rewrite size_nseq.
have [h1 h2] := put_spec hs h; split=> // j hj; have [h3 h4] := h2 j hj; split=> // h5.
by rewrite h4 // nth_nseq; case: ifP.
Qed.
Lemma put_raises disk table labels mats wl :
  (put_refractive_index wofz quad disk table labels mats wl).2 = None <->
  exists k, (k < size mats)%N /\ forall c, ~ stands_for find disk table wl (nth (Value 0) mats k) c.
Proof. exact: put_fails. Qed.

Lemma fit_bb_ev m table sp p st g os wl : faddeeva wofz -> refers m table (Fit sp) ->
  s_formula sp = FName bb_ev_name -> s_coefs sp = p :: st :: g :: coefs_ev os ->
  (0 < wl)%coqR -> (0 <= st)%coqR -> (0 <= g)%coqR -> (forall o, List.In o os -> passive_osc o) ->
  exists b z cs, [/\ find m table wl = Some (b, z),
    conj (z * z) = drude st p g (omega_ev wl) + \sum_(x <- cs) x,
    List.Forall2 (fun (o : osc) chi => let: (f, g, c, s) := o in broadened (omega_ev wl) (f * (p * p)) g c s chi) os cs
   & absorbing z].
Proof. by move=> hw /refers_resolve; exact: bb_ev. Qed.
Lemma fit_bb_cm m table sp e0 os wl : faddeeva wofz -> refers m table (Fit sp) ->
  s_formula sp = FName bb_cm_name -> s_coefs sp = e0 :: coefs_cm os -> os <> [::] ->
  (0 < wl)%coqR -> (forall o, List.In o os -> passive_osc o) ->
  exists b z cs, [/\ find m table wl = Some (b, z),
    conj (z * z) = RtoC e0 + \sum_(x <- cs) x,
    List.Forall2 (fun (o : osc) chi => let: (f, g, c, s) := o in broadened (1 / 100 / wl) f g c s chi) os cs
   & absorbing z].
Proof. by move=> hw /refers_resolve; exact: bb_cm. Qed.
End S.

(** ** A function with the integral representation exists *)
Local Open Scope R_scope.
Lemma atan_cont x : continuous (fun t => / (1 + t * t)) x.
Proof.
apply/continuity_pt_filterlim; apply: continuity_pt_inv; last by have := Rle_0_sqr x; rewrite /Rsqr => h; lra.
apply: continuity_pt_plus; first exact: continuity_pt_const.
by apply: continuity_pt_mult; apply: continuity_pt_id.
Qed.

Lemma atan_int (N : R) : is_RInt (fun t => / (1 + t * t)) (- N) N (atan N - atan (- N)).
Proof.
apply: (is_RInt_derive (V := R_CompleteNormedModule) atan).
  move=> x _; have -> : / (1 + x * x) = / (1 + x ^ 2) by congr (/ (1 + _)); rewrite /= Rmult_1_r.
  by apply/is_derive_Reals; exact: derivable_pt_lim_atan.
move=> x _; exact: atan_cont.
Qed.

Lemma grow_conv (f : R -> R) M : (forall a b, ex_RInt f a b) -> (forall t, 0 <= f t <= M / (1 + t * t)) -> 0 <= M ->
  exists l : R, is_lim_seq (fun N => RInt f (- INR N) (INR N)) l.
Proof.
move=> hf hb hM.
have grow n : RInt f (- INR n) (INR n) <= RInt f (- INR n.+1) (INR n.+1).
  have hn : INR n <= INR n.+1 by apply: le_INR; lia.
  have h0 : 0 <= INR n by exact: pos_INR.
  have pos a b : a <= b -> 0 <= RInt f a b.
    by move=> hab; apply: RInt_ge_0 => // x _; case: (hb x).
  rewrite -(RInt_Chasles f (- INR n.+1) (- INR n) (INR n.+1)) // -(RInt_Chasles f (- INR n) (INR n) (INR n.+1)) // /plus /=.
  have h1 := pos (- INR n.+1) (- INR n); have h2 := pos (INR n) (INR n.+1).
  by move: (h1 ltac:(lra)) (h2 ltac:(lra)) => h3 h4; set u := RInt _ _ _ in h3 *; set v := RInt _ _ _ in h4 *; lra.
have bnd n : RInt f (- INR n) (INR n) <= M * (2 * PI).
  have h0 : 0 <= INR n by exact: pos_INR.
  have hi := is_RInt_scal _ _ _ M _ (@atan_int (INR n)).
  apply: Rle_trans (_ : M * (atan (INR n) - atan (- INR n)) <= _); last first.
    by apply: Rmult_le_compat_l => //; have := atan_bound (INR n); have := atan_bound (- INR n); have := PI_RGT_0; lra.
  rewrite -[M * _]/(scal M (atan (INR n) - atan (- INR n))) -(is_RInt_unique _ _ _ _ hi); apply: RInt_le; first lra; [exact: hf|by eexists; exact: hi|].
  by move=> x _; case: (hb x).
by have := ex_finite_lim_seq_incr _ _ grow bnd; case=> l hl; exists l.
Qed.

Lemma dom_conv (f : R -> R) M : (forall a b, ex_RInt f a b) -> (forall t, Rabs (f t) <= M / (1 + t * t)) ->
  exists l : R, is_lim_seq (fun N => RInt f (- INR N) (INR N)) l.
Proof.
move=> hf hb.
have hM : 0 <= M by have := hb 0; have := Rabs_pos (f 0); rewrite Rmult_0_l Rplus_0_r /Rdiv Rinv_1; lra.
pose g t := M / (1 + t * t).
have hg a b : ex_RInt g a b.
  apply: ex_RInt_scal; apply: ex_RInt_continuous => x _; exact: atan_cont.
have gp t : 0 <= g t.
  by apply: Rmult_le_pos => //; left; apply: Rinv_0_lt_compat; have := Rle_0_sqr t; rewrite /Rsqr; lra.
have hfg a b : ex_RInt (fun t => f t + g t) a b by exact: (ex_RInt_plus f g).
have [l1 h1] : exists l : R, is_lim_seq (fun N => RInt (fun t => f t + g t) (- INR N) (INR N)) l.
  apply: (@grow_conv _ (2 * M)) => //; last lra.
  move=> t; have := hb t; rewrite -/(g t) => h; have [h2 h3] : - g t <= f t <= g t by move: h; rewrite /Rabs; case: Rcase_abs; lra.
  have -> : 2 * M / (1 + t * t) = 2 * g t by rewrite /g /Rdiv; ring.
  by lra.
have [l2 h2] : exists l : R, is_lim_seq (fun N => RInt g (- INR N) (INR N)) l.
  by apply: (@grow_conv _ M) => // t; split; [exact: gp|rewrite /g; lra].
exists (l1 - l2); apply: is_lim_seq_ext (is_lim_seq_minus' _ _ _ _ h1 h2) => n.
by rewrite (RInt_plus f g) // /plus /=; ring.
Qed.

Lemma exp_le t : exp (- (t * t)) <= / (1 + t * t).
Proof.
have h := Rle_0_sqr t; rewrite /Rsqr in h; rewrite exp_Ropp; apply: Rinv_le_contravar; first lra.
exact: exp_ineq1_le.
Qed.

Lemma fad_bound z : (0 < Im z) -> exists M, forall t,
  Rabs (Re (fad_kernel z t)) <= M / (1 + t * t) /\ Rabs (Im (fad_kernel z t)) <= M / (1 + t * t).
Proof.
move=> hz; exists (/ PI * / Im z) => t; have [-> ->] := fad_ReE t hz.
have hp := PI_RGT_0; set u := Re z - t; set v := Im z in hz *.
have hq : 0 < u * u + v * v by exact: sq_pos.
have he := exp_le t; have he0 := exp_pos (- (t * t)).
have key c : Rabs c <= / v -> Rabs (exp (- (t * t)) / PI * c) <= / PI * / v / (1 + t * t).
  move=> hc; rewrite Rabs_mult (Rabs_right (_ / _)); last first.
    by apply: Rle_ge; apply: Rmult_le_pos; [lra|left; exact: Rinv_0_lt_compat].
  have -> : / PI * / v / (1 + t * t) = / (1 + t * t) / PI * / v by rewrite /Rdiv; ring.
  apply: Rmult_le_compat => //; [|exact: Rabs_pos|].
    by apply: Rmult_le_pos; [lra|left; exact: Rinv_0_lt_compat].
  by apply: Rmult_le_compat_r => //; left; exact: Rinv_0_lt_compat.
have vv : / v = (u * u + v * v) / (v * (u * u + v * v)) by field; split; lra.
split.
  rewrite (_ : _ / _ = exp (- (t * t)) / PI * (v / (u * u + v * v))); last by rewrite /Rdiv; ring.
  apply: key; rewrite Rabs_right; last by apply: Rle_ge; apply: Rmult_le_pos; [lra|left; exact: Rinv_0_lt_compat].
  apply/Rle_div_l => //; rewrite Rmult_plus_distr_l.
  have -> : / v * (v * v) = v by field; lra.
  have : 0 <= / v * (u * u) by apply: Rmult_le_pos; [left; exact: Rinv_0_lt_compat|exact: Rle_0_sqr].
  lra.
rewrite (_ : _ / _ = exp (- (t * t)) / PI * (u / (u * u + v * v))); last by rewrite /Rdiv; ring.
apply: key; rewrite Rabs_mult (Rabs_right (/ _)); last by apply: Rle_ge; left; exact: Rinv_0_lt_compat.
apply/Rle_div_l => //.
have : Rabs u * v <= u * u + v * v.
  have := Rle_0_sqr (Rabs u - v); have := Rsqr_abs u; have := Rabs_pos u; rewrite /Rsqr; nra.
move=> h; apply: (Rmult_le_reg_l v) => //; rewrite -Rmult_assoc Rinv_r ?Rmult_1_l; lra.
Qed.

Lemma faddeeva_exists : exists w, faddeeva w.
Proof.
exists (fun z => (real (Lim_seq (fun N => RInt (fun t => Re (fad_kernel z t)) (- INR N) (INR N))),
                  real (Lim_seq (fun N => RInt (fun t => Im (fad_kernel z t)) (- INR N) (INR N))))) => z hz.
have [M hM] := fad_bound hz.
have [l1 h1] : exists l : R, is_lim_seq (fun N => RInt (fun t => Re (fad_kernel z t)) (- INR N) (INR N)) l.
  by apply: (@dom_conv _ M) => [a b|t]; [case: (fad_ex a b hz)|case: (hM t)].
have [l2 h2] : exists l : R, is_lim_seq (fun N => RInt (fun t => Im (fad_kernel z t)) (- INR N) (INR N)) l.
  by apply: (@dom_conv _ M) => [a b|t]; [case: (fad_ex a b hz)|case: (hM t)].
by split; [rewrite [Re _]/= (is_lim_seq_unique _ _ h1)|rewrite [Im _]/= (is_lim_seq_unique _ _ h2)].
Qed.
