(** Lemmas about solver objects: rejected assignments, normal forms, dispatch, independence of history, layer counts. *)
From Coq Require Import Reals ZArith Lra Lia.
From mathcomp Require Import all_ssreflect ssralg matrix.
From Coquelicot Require Import Complex.
From Verif Require Import Cplx Spec SpecSolve SpecLayer ModelTM ModelFourier ModelVec ModelField ModelState SpecState ProofState.

Set Implicit Arguments.
Unset Strict Implicit.
Unset Printing Implicit Defensive.
Local Open Scope ring_scope.
Import GRing.Theory.

(** ** Rejected assignments *)

Lemma theta_atomic v o o' : assign_theta v o = (o', true) -> o' = o.
Proof. by rewrite /assign_theta; case: v => [|x|x|[|[x|] []]|x|[|x []]|? ? ? ?|?|?|] //=; (move=> [<-] || move=> ? ? [<-] || move=> ? [<-]). Qed.

Lemma phi_atomic v o o' : assign_phi v o = (o', true) -> o' = o.
Proof. by rewrite /assign_phi; case: v => [|x|x|[|[x|] []]|x|[|x []]|? ? ? ?|?|?|] //=; (move=> [<-] || move=> ? ? [<-] || move=> ? [<-]). Qed.

Lemma pol_atomic v o o' : assign_pol v o = (o', true) -> o' = o.
Proof. by rewrite /assign_pol; case: ifP => _; [case: (scalar v) => [x|] [<-] // | move=> [<-]]. Qed.

Lemma psi_atomic v o o' : ~~ is_psi_list (SetPsi v) -> assign_psi v o = (o', true) -> o' = o.
Proof.
by case: v => [|x|x|[|[x|] [|? ?]]|x|[|x [|? ?]]|? ? ? ?|?|?|] //= _ [<-].
Qed.

Lemma period_atomic v o o' : assign_period v o = (o', true) -> o' = o.
Proof.
case: v => [|[z|r|c]|x|[|x [|y xs]]|x|[|x [|? ?]]|? ? ? ?|?|?|] //=; try by move=> [<-].
- by case: (list_float x) => [?|] [<-].
- by case: (list_float x) => [?|]; last (by move=> [<-]); case: (list_float y) => [?|]; last (by move=> [<-]);
    case: (all_some _ _) => [?|] [<-].
- by case: x => [z|r|c] //= [<-].
Qed.

Lemma thickness_atomic v o o' : assign_thickness v o = (o', true) -> o' = o.
Proof.
by case: v => [|[z|r|c]|x|xs|x|xs|? ? ? ?|?|?|] //=; try (by move=> [<-]); case: (all_some _ _) => [?|] [<-].
Qed.

Definition is_array (v : pyval) : bool := match v with VArr0 _ | VArr1 _ | VArr3 _ _ _ _ => true | _ => false end.

Lemma fto_atomic v o o' : ~~ is_array v -> assign_fto v o = (o', true) -> o' = o.
Proof.
case: v => [|[z|r|c]|x|[|x [|y [|? ?]]]|x|xs|? ? ? ?|?|?|] //= _; try by move=> [<-].
- by case: (if x is Some y then _ else _) => [?|] [<-].
- by case: (if x is Some y then _ else _) => [?|] //; [case: (if y is Some y then _ else _) => [?|] [<-] | move=> [<-]].
Qed.

Lemma ucell_atomic v o o' : ~~ is_array v -> assign_ucell v o = (o', true) -> o' = o.
Proof. by case: v => [|x|x|xs|x|xs|[] ? ? ?|?|?|] //= _ [<-]. Qed.

Lemma retype_ok b o x y : o_fto o = Fto x y -> (retype b o).2 = false.
Proof.
move=> e; rewrite /retype /=.
have -> : assign_theta (val_angle (o_theta o)) (set_single b o) =
  (set_angles (if o_theta o is Some t then Some (if t == 0 then o_pert o else t) else None) (o_phi o) (set_single b o), false).
  by rewrite /assign_theta; case: (o_theta o).
set o2 := set_angles _ _ _.
have -> : assign_phi (val_angle (o_phi o2)) o2 = (set_angles (o_theta o2) (o_phi o2) o2, false).
  by rewrite /assign_phi /o2 /=; case: (o_phi o).
set o3 := set_angles _ _ o2.
have e3 : o_fto o3 = Fto x y by [].
rewrite e3 /=; case: (o_thickness _) => //.
Qed.

Lemma type_complex_atomic v o o' x y : o_fto o = Fto x y -> assign_type_complex v o = (o', true) -> o' = o.
Proof.
move=> e; rewrite /assign_type_complex.
have H b : retype b o = (o', true) -> o' = o by move=> h; have := retype_ok b e; rewrite h.
have G z : (if cnum z == 0 then retype false o else if cnum z == 1 then retype true o else (o, true)) = (o', true) -> o' = o.
  by case: ifP => _; [exact: H | case: ifP => _; [exact: H | move=> [<-]]].
by case: v => [|z|z|xs|z|[|z [|? ?]]|? ? ? ?|?|?|] //=; try (by move=> [<-]); first [exact: G | exact: H].
Qed.

(** ** Normal forms *)

Lemma fto_normal v o o' : assign_fto v o = (o', false) -> exists x y : Z, o' = set_fto (Fto x y) o.
Proof.
case: v => [|[z|r|c]|x|[|x [|y [|? ?]]]|x|[|x [|y [|? ?]]]|? ? ? ?|?|?|] //=.
- by move=> [<-]; exists z, 0%Z.
- by case: (rltb _ _) => -[<-]; do 2 eexists.
- by case: (if x is Some y then _ else _) => [a|] // [<-]; exists a, 0%Z.
- by case: (if x is Some y then _ else _) => [a|] //; case: (if y is Some y then _ else _) => [b|] // [<-]; exists a, b.
- by case: (py_int x) => [a|] // [<-]; exists a, 0%Z.
- by case: (py_int x) => [a|] // [<-]; exists a, 0%Z.
- by case: (py_int x) => [a|] //; case: (py_int y) => [b|] // [<-]; exists a, b.
Qed.

Lemma fto_reassign o x y : o_fto o = Fto x y -> assign_fto (val_fto (o_fto o)) o = (o, false).
Proof. by move=> e; rewrite e /=; congr (_, _); case: o e => ? ? ? ? ? ? ? ? ? ? ? ? ? ? ? ? ? ? ? ? /= ->. Qed.

Lemma period_normal v o o' : assign_period v o = (o', false) ->
  o' = set_period (o_period o') o /\ (o_period o' = AMany \/ exists2 rs, o_period o' = A1 rs & size rs <> 1%N).
Proof.
case: v => [|[z|r|c]|x|[|x [|y xs]]|x|[|x [|y xs]]|? ? ? ?|?|?|] //=; try by move=> [<-]; split=> //; right; eexists.
- by case: (list_float x) => [?|] // [<-]; split=> //; right; eexists.
- case: (list_float x) => [?|] //; case: (list_float y) => [?|] //; case: (all_some _ _) => [?|] // [<-].
  by split=> //; right; eexists.
- by case: x => [z|r|c] // [<-]; split=> //; right; eexists.
- by move=> [<-]; split=> //; left.
Qed.

Lemma period_reassign o : o_period o = AMany \/ (exists2 rs, o_period o = A1 rs & size rs <> 1%N) ->
  assign_period (val_farray (o_period o)) o = (o, false).
Proof.
move=> [e|[rs e hs]]; rewrite e /=; first by congr (_, _); case: o e => ? ? ? ? ? ? ? ? ? ? ? ? ? ? ? ? ? ? ? ? /= ->.
have mf (l : seq R) : map arr_float (map NFloat l) = l by elim: l => //= ? ? ->.
case: rs e hs => [|a [|b rs]] // e _ /=; congr (_, _); rewrite ?mf /arr_float /=;
  by case: o e => ? ? ? ? ? ? ? ? ? ? ? ? ? ? ? ? ? ? ? ? /= ->.
Qed.

Lemma thickness_reassign o : assign_thickness (val_farray (o_thickness o)) o = (o, false).
Proof.
have mf (l : seq R) : map arr_float (map NFloat l) = l by elim: l => //= ? ? ->.
case e: (o_thickness o) => [r|rs|] /=; congr (_, _); rewrite ?mf /arr_float /=;
  by case: o e => ? ? ? ? ? ? ? ? ? ? ? ? ? ? ? ? ? ? ? ? /= ->.
Qed.

(** ** Dispatch and history *)

Section Solving.
Variable pinv : forall n, 'M[C]_n -> 'M[C]_n.
Variable eig : forall n, 'M[C]_n -> 'rV[C]_n * 'M[C]_n.

Lemma same_convs o1 o2 fx fy : same_settings o1 o2 -> convs_of pinv o1 fx fy = convs_of pinv o2 fx fy.
Proof.
move=> [[_ _ _ _] [[_ _ _ e4] [[_ _ _ e5] [e6 e7 e8 e9]]]].
by rewrite /convs_of /period_of e4 e5 e6 e7 e8 e9.
Qed.

Lemma convs_grating o fx fy cs : convs_of pinv o fx fy = Some cs -> exists2 g, grating_of o fy = Some g &
  forall o', same_settings o o' -> grating_of o' fy = Some g.
Proof.
rewrite /convs_of /grating_of; case em: (o_mtype o) => [[]|] //.
- move=> _; exists 2%N => // o' [_ [_ [_ [e1 e2 _ _]]]]; by rewrite -e2 em.
- case ec: (o_cell o) => [|ny nx ls|ins|] // _.
  have h : exists g, grating_of o fy = Some g.
    by rewrite /grating_of em ec; case: (ny == 1%N); first case: (_ && _); eexists.
  case: h => g eg; exists g; first by rewrite -eg /grating_of em ec.
  move=> o' [[_ _ _ e0] [[_ e3 _ _] [_ [e1 e2 _ _]]]].
  by rewrite -eg /grating_of -e2 -e1 em ec -e3 -e0.
Qed.

Lemma same_solve_with o1 o2 fx fy th p (cs : seq (conv3 (fy.*2.+1 * fx.*2.+1))) g : same_settings o1 o2 ->
  solve_with pinv eig o1 th p cs g = solve_with pinv eig o2 th p cs g.
Proof.
move=> [[e1 e2 _ e3] [[e4 e5 _ _] [[e6 e7 e8 e9] _]]].
by rewrite /solve_with /setup_of e1 e2 e3 e4 e5 e6 e7 e8 e9.
Qed.

Lemma same_solve o1 o2 : same_settings o1 o2 ->
  (conv_solve pinv eig o1).2 = (conv_solve pinv eig o2).2 /\
  forall r, (conv_solve pinv eig o1).2 = Solved r ->
    o_grating (conv_solve pinv eig o1).1 = o_grating (conv_solve pinv eig o2).1 /\
    o_memo (conv_solve pinv eig o1).1 = o_memo (conv_solve pinv eig o2).1.
Proof.
move=> h; rewrite /conv_solve /fto_of /period_of.
have [[_ _ e1 _] [[_ _ e2 e3] [[e4 _ _ _] _]]] := h.
rewrite e1 e2 e3 e4 -/(fto_of o2) -/(period_of o2).
case: (fto_of o2) => [[fx fy]|] //; rewrite -(same_convs fx fy h).
case ec: (convs_of pinv o1 fx fy) => [cs|] //.
have [g eg eg'] := convs_grating ec; rewrite eg (eg' _ h).
case: (o_theta o2) => [th|] //; case: (period_of o2) => [p|] //; case: (reqb _ _) => //.
rewrite (same_solve_with th p cs _ h).
by case: (solve_with pinv eig o2 th p cs (Some g)).
Qed.

Lemma grating_promised o fx fy cs : fto_of o = Some (fx, fy) -> convs_of pinv o fx fy = Some cs ->
  exists2 g, grating_of o fy = Some g & promised o g.
Proof.
move=> ef; rewrite /convs_of /grating_of; case em: (o_mtype o) => [[]|] //.
- by move=> _; exists 2%N => //; apply: Pvec.
case ec: (o_cell o) => [|ny nx ls|ins|] // _.
case: eqP => [e1|n1]; last by exists 2%N => //; apply: P2d em ec n1.
rewrite e1 in ec; case: ifP => [/andP [/andP [hp hf] hy]|hn].
  exists 0%N => //; apply: P1d em ec _ _ _.
  - by case/orP: hp => /eqP; [left | right].
  - by case: (o_phi o) hf.
  - by exists fx => //; rewrite ef (eqP hy).
exists 1%N => //; apply: Pcon em ec _ => -[h1 [h2 [f h3 _]]].
move: hn; rewrite h2 /=; case: h3; rewrite ef => -[_ ->]; rewrite eqxx !andbT.
by case: h1 => ->; rewrite eqxx ?orbT.
Qed.

Lemma promised_unique o g g' : promised o g -> promised o g' -> g = g'.
Proof.
move=> [nx ls m c p f y|nx ls m c n|ny nx ls m c n|m] [nx' ls' m' c' p' f' y'|nx' ls' m' c' n'|ny' nx' ls' m' c' n'|m'] //;
  try (by rewrite m in m').
- by case: n'.
- by rewrite c in c'; case: c' n' => <-.
- by case: n.
- by rewrite c in c'; case: c' n' => <-.
- by rewrite c in c'; case: c' n => ->.
- by rewrite c in c'; case: c' n => ->.
Qed.

Lemma solve_dispatch o o' r : conv_solve pinv eig o = (o', Solved r) ->
  exists2 g, o_grating o' = Some g & promised o g /\ (o_algo o = TMM -> ran (o_memo o') = g).
Proof.
rewrite /conv_solve; case ef: (fto_of o) => [[fx fy]|] //; case ec: (convs_of pinv o fx fy) => [cs|] //.
have [g eg pg] := grating_promised ef ec; rewrite eg.
case: (o_theta o) => [th|] //; case: (period_of o) => [p|] //; case: (reqb _ _) => //.
case es: (solve_with _ _ _ _ _ _ _) => [m out] [<- eo]; exists g => //; split=> // et; rewrite /=.
have hg : (g < 3)%N by case: pg.
move: es; rewrite eo /solve_with et andbF; case: (o_thickness o) => // ts.
case: g eg pg hg => [|[|[|g]]] // _ _ _.
- by case: (solve_1d _ _ _ _ _ _) => [[[? ?] ?]|] // [<-].
- by case: (solve_1d_conical _ _ _ _ _ _) => [[? ?]|] // [<-].
- by case: (solve_2d _ _ _ _ _ _) => [[? ?]|] // [<-].
Qed.

(** ** Unsupported algorithms *)
Lemma solve_smm o o' r : o_algo o <> TMM -> conv_solve pinv eig o = (o', Solved r) ->
  [/\ o_algo o = SMM, promised o 1, r = @Report 0 None None None & o_memo o' = MNone].
Proof.
move=> ha; rewrite /conv_solve; case ef: (fto_of o) => [[fx fy]|] //; case ec: (convs_of pinv o fx fy) => [cs|] //.
have [g eg pg] := grating_promised ef ec; rewrite eg.
case: (o_theta o) => [th|] //; case: (period_of o) => [p|] //; case: (reqb _ _) => //.
rewrite /solve_with; case ea: (o_algo o) => //; rewrite ?andbF //= andbT.
by case: eqP => // -[e1] [<- <-]; rewrite e1 in pg.
Qed.

End Solving.
