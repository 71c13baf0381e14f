From Coq Require Import Reals ZArith Lra Psatz.
From mathcomp Require Import all_ssreflect ssralg matrix.
From Coquelicot Require Import Complex.
From Verif Require Import Cplx Mx ModelTM ModelFourier ModelVec ModelState ModelTree SpecState SpecTree ProofState.

Set Implicit Arguments.
Unset Strict Implicit.
Unset Printing Implicit Defensive.
Local Open Scope ring_scope.
Import GRing.Theory.

(** Periods are never a scalar or a single number. *)
Definition period_ok (p : farray) : bool := match p with A0 _ => false | A1 [:: _] => false | _ => true end.
Definition inv (o : obj) : Prop := coherent o /\ period_ok (o_period o).

Lemma pol_psi c : pol_of (psi_of c) = c.
Proof.
rewrite /psi_of /pol_of; have pn : RtoC PI != 0 by apply/eqP => -[]; have := PI_RGT_0; lra.
have -> : RtoC 2 * (RtoC (PI / 2) * (1 - c)) / RtoC PI = (RtoC 2 * RtoC (PI / 2)) * (1 - c) / RtoC PI by cring.
rewrite -RtoC_mul; have -> : (2 * (PI / 2) = PI)%coqR by field.
by rewrite mulrC mulrA mulVf // mul1r; cring.
Qed.

Lemma theta_period v o : o_period (assign_theta v o).1 = o_period o.
Proof. by rewrite /assign_theta; case: v => [|x|x|[|[x|] []]|x|[|x []]|? ? ? ?|?|?|] //=. Qed.
Lemma phi_period v o : o_period (assign_phi v o).1 = o_period o.
Proof. by rewrite /assign_phi; case: v => [|x|x|[|[x|] []]|x|[|x []]|? ? ? ?|?|?|] //=. Qed.
Lemma fto_period v o : o_period (assign_fto v o).1 = o_period o.
Proof.
rewrite /assign_fto; case: v => [|[z|r|c]|x|xs|x|xs|? ? ? ?|?|?|] //=.
- case: xs => [|x [|y [|? ?]]] //=; first by case: x => [x|] //=; case: (py_int x).
  by case: x => [x|] //=; case: (py_int x) => //; case: y => [y|] //=; case: (py_int y).
- by case: (py_int x).
case: xs => [|x [|y [|? ?]]] //=; first by case: (py_int x).
by case: (py_int x) => //; case: (py_int y).
Qed.
Lemma thickness_period v o : o_period (assign_thickness v o).1 = o_period o.
Proof.
rewrite /assign_thickness; case: v => [|[z|r|c]|x|xs|x|xs|? ? ? ?|?|?|] //=.
by case: (all_some _ _).
Qed.
Lemma type_period v o : o_period (assign_type_complex v o).1 = o_period o.
Proof.
have H b : o_period (retype b o).1 = o_period o.
  rewrite /retype; move: (theta_period (val_angle (o_theta (set_single b o))) (set_single b o)).
  case: (assign_theta _ _) => o2 [] /= E2 //.
  move: (phi_period (val_angle (o_phi o2)) o2); case: (assign_phi _ _) => o3 [] /= E3; first by rewrite E3.
  move: (fto_period (val_fto (o_fto o3)) o3); case: (assign_fto _ _) => o4 [] /= E4; first by rewrite E4 E3.
  by rewrite thickness_period E4 E3.
have G x : o_period (if cnum x == 0 then retype false o else if cnum x == 1 then retype true o else (o, true)).1 = o_period o.
  by case: ifP => // _; case: ifP.
by rewrite /assign_type_complex; case: v => [|x|x|xs|x|[|x []]|? ? ? ?|?|?|] //=.
Qed.
Lemma period_set v o : period_ok (o_period o) -> period_ok (o_period (assign_period v o).1).
Proof.
move=> h; case: v => [|[z|r|c]|x|[|x [|y xs]]|x|[|x [|? ?]]|? ? ? ?|?|?|] //=; try (by case: x => // -[]); try (by case: x).
by case: (list_float x) => // ?; case: (list_float y) => // ?; case: (all_some _ _).
Qed.
Lemma ucell_jax_frame v o : [/\ o_psi (assign_ucell_jax v o).1 = o_psi o, o_pol (assign_ucell_jax v o).1 = o_pol o &
  o_period (assign_ucell_jax v o).1 = o_period o].
Proof. by case: v => [|x|x|xs|x|xs|[] ? ? ?|?|?|]. Qed.
Lemma pol_jax_coherent v o : coherent o -> coherent (assign_pol_jax v o).1.
Proof.
move=> h; rewrite /assign_pol_jax.
have H c : coherent (if in_unit c then (set_polar (psi_of c) c o, false) else (o, true)).1.
  by rewrite /=; case: ifP.
by case: v => [|[z|r|c]|x|xs|x|[|x []]|? ? ? ?|?|?|] //=; exact: H.
Qed.
Lemma pol_jax_period v o : o_period (assign_pol_jax v o).1 = o_period o.
Proof.
have H c : o_period (if in_unit c then (set_polar (psi_of c) c o, false) else (o, true)).1 = o_period o.
  by rewrite /=; case: ifP.
by rewrite /assign_pol_jax; case: v => [|[z|r|c]|x|xs|x|[|x []]|? ? ? ?|?|?|] //=; exact: H.
Qed.
Lemma psi_period v o : o_period (assign_psi v o).1 = o_period o.
Proof. by case: v => [|x|x|[|[x|] []]|x|[|x []]|? ? ? ?|?|?|]. Qed.

Lemma step_inv a o : (forall x, a <> JPsi (VSeq [:: Some x])) -> inv o -> inv (do_jop a o).
Proof.
move=> na [hc hp]; have [F1 [F2 [F3 F4]]] := assign_polar_frame o.
have fr o' : o_psi o' = o_psi o /\ o_pol o' = o_pol o -> o_period o' = o_period o -> inv o'.
  by move=> [h1 h2] h3; split; [exact: coherent_frame h1 h2 hc | rewrite h3].
case: a na => v na /=.
- exact: fr (F1 v) (theta_period v o).
- exact: fr (F2 v) (phi_period v o).
- split; last by rewrite psi_period.
  apply: psi_coherent => //; case: v na => // -[|[x|] [|? ?]] // na; by case: (na x).
- split; [exact: pol_jax_coherent | by rewrite pol_jax_period].
- exact: fr (F3 v) (fto_period v o).
- split; last exact: period_set.
  by have [h1 h2] := period_polar v o; exact: coherent_frame h1 h2 hc.
- exact: fr (F4 v) (thickness_period v o).
- exact: fr (type_complex_polar v o) (type_period v o).
- by have [h1 h2 h3] := ucell_jax_frame v o; exact: fr (Logic.conj h1 h2) h3.
all: by move: hc hp; rewrite /inv /coherent.
Qed.

Lemma after_inv h o : no_psi_list h -> inv o -> inv (after_jax h o).
Proof.
elim: h o => //= a h IH o nh io; apply: IH => [x hx|]; first by apply: (nh x); right.
by apply: step_inv => // x ea; apply: (nh x); left.
Qed.

Lemma construct_jax_inv a o : construct_jax a = Some o -> inv o.
Proof.
rewrite /construct_jax; case: (ctor_precision _) => // b; set o0 := Obj _ _ _ _ _ _ _ _ _ _ _ _ _ _ _ _ _ _ _ _.
rewrite [assign_all _ _]/=.
have E1 := theta_period (a_theta a) o0.
case: (assign_theta _ _) E1 => o1 [] //= E1; move: (phi_period (a_phi a) o1).
case: (assign_phi _ _) => o2 [] //= E2.
have c3 : forall v, (assign_pol_jax v o2).2 = false -> coherent (assign_pol_jax v o2).1.
  move=> v; rewrite /assign_pol_jax.
  have H c : (if in_unit c then (set_polar (psi_of c) c o2, false) else (o2, true)).2 = false ->
     coherent (if in_unit c then (set_polar (psi_of c) c o2, false) else (o2, true)).1.
    by rewrite /=; case: ifP.
  by case: v => [|[z|r|c]|x|xs|x|[|x []]|? ? ? ?|?|?|] //=; exact: H.
move: (c3 (a_pol a)) (pol_jax_period (a_pol a) o2); case: (assign_pol_jax _ _) => o3 [] //= /(_ erefl) {}c3 E3.
have c4 v : coherent o3 -> (assign_psi v o3).2 = false -> coherent (assign_psi v o3).1.
  by move=> h; case: v => [|x|x|[|[x|] []]|x|[|x []]|? ? ? ?|?|?|] //= _; rewrite /coherent /= -[RHS]/(psi_of (pol_of _)) psi_pol.
move: (c4 (a_psi a) c3) (psi_period (a_psi a) o3); case: (assign_psi _ _) => o4 [] //= /(_ erefl) {}c4 E4.
have [_ [_ [F4 _]]] := assign_polar_frame o4; move: (F4 (a_fto a)) (fto_period (a_fto a) o4).
case: (assign_fto _ _) => o5 [] //= [P5 Q5] E5.
have p5 : period_ok (o_period o5) by rewrite E5 E4 E3 E2 E1.
move: (period_polar (a_period a) o5) (period_set (a_period a) p5); case: (assign_period _ _) => o6 [] //= [P6 Q6] p6.
have [_ [_ [_ F7]]] := assign_polar_frame o6; move: (F7 (a_thickness a)) (thickness_period (a_thickness a) o6).
case: (assign_thickness _ _) => o7 [] //= [P7 Q7] E7.
move: (ucell_jax_frame (a_ucell a) o7); case: (assign_ucell_jax _ _) => o8 [] //= [P8 Q8 E8] [<-].
split; last by rewrite E8 E7.
by apply: (coherent_frame (o := o4)) => //; rewrite ?P8 ?P7 ?P6 ?P5 ?Q8 ?Q7 ?Q6 ?Q5.
Qed.

(** *** The round trip *)
Lemma clt_real a b : clt (RtoC a) (RtoC b) = rltb a b.
Proof.
rewrite /clt /Re /Im /=; have -> : rltb 0 0 = false by rewrite /rltb; case: Rlt_dec => // h; exfalso; lra.
by rewrite andbF orbF.
Qed.
Lemma cle_real a b : cle (RtoC a) (RtoC b) = rleb a b.
Proof.
rewrite /cle /Re /Im /=; have -> : rleb 0 0 = true by rewrite /rleb; case: Rle_dec => // h; exfalso; lra.
rewrite andbT /reqb /rltb /rleb; case: Rlt_dec => h1; case: Rle_dec => h2; case: Req_EM_T => h3 //=; exfalso; lra.
Qed.

Ltac rb := rewrite /rltb /rleb; repeat (let h := fresh in case: Rlt_dec => h /= || case: Rle_dec => h /=); try done; exfalso; lra.

Lemma room_gt0 : (0 < room)%coqR.
Proof. by rewrite /room; apply: Rinv_0_lt_compat; apply: pow_lt; lra. Qed.
Lemma in_unit_real r : in_unit (RtoC r) = rleb 0 r && rleb r 1.
Proof. by rewrite /in_unit -[1 : C]/(RtoC 1) -[0 : C]/(RtoC 0) !cle_real. Qed.
Lemma clamp_real r : clamp_pol (RtoC r) = if rltb 1 r && rltb r (1 + room) then RtoC 1 else if rltb (0 - room) r && rltb r 0 then RtoC 0 else RtoC r.
Proof. by rewrite /clamp_pol -[1 : C]/(RtoC 1) -[0 : C]/(RtoC 0) !clt_real. Qed.

Lemma clamp_in r : (- room < r < 1 + room)%coqR -> in_unit (clamp_pol (RtoC r)).
Proof.
have := room_gt0; move: room (clamp_real r) => d -> d0 h.
case: ifP => h1; first by rewrite in_unit_real; rb.
case: ifP => h2; first by rewrite in_unit_real; rb.
rewrite in_unit_real; move: h1 h2; rb.
Qed.

Lemma arr_floatK rs : map arr_float (map NFloat rs) = rs.
Proof. by elim: rs => //= r rs ->. Qed.

(** The parts of the constructor, as one record update each. *)
Lemma val_theta c o : (c = Some (RtoC 0) -> o_pert o = RtoC 0) ->
  assign_theta (val_angle c) o = (set_angles c (o_phi o) o, false).
Proof.
case: c => [c|] //= h; rewrite /assign_theta /=; case: eqP => // e; by rewrite e h // e.
Qed.
Lemma val_phi c o : assign_phi (val_angle c) o = (set_angles (o_theta o) c o, false).
Proof. by case: c. Qed.
Lemma val_period p o : period_ok p -> assign_period (val_farray p) o = (set_period p o, false).
Proof. by case: p => [|[|x [|y rs]]|] //= _; rewrite /arr_float /= arr_floatK. Qed.
Lemma val_thickness p o : assign_thickness (val_farray p) o = (set_thickness p o, false).
Proof. by case: p => [r|rs|] //=; rewrite ?arr_floatK. Qed.
Lemma val_ucell c o : c <> CJunk -> exists m, assign_ucell_jax (val_cell c) o = (set_cell c m o, false).
Proof. by case: c => //= *; eexists. Qed.

Lemma round_trip o : inv o -> accepted o -> pol_near_unit o -> theta_settled o -> o_use_pinv o = false ->
  exists2 o', tree_unflatten (tree_flatten o) = Some o' & same_settings o o'.
Proof.
move=> [hc hp] [[a [b ef]] hcell] [r er hr] ht hu.
rewrite /tree_unflatten /tree_flatten /construct_jax /=.
rewrite val_theta // val_phi /= er.
rewrite clamp_in //.
rewrite /= ef /= val_period // val_thickness /=.
case: (@val_ucell (o_cell o) (Obj (o_single o) (o_pert o) (o_ntop o) (o_nbot o) (o_theta o) (o_phi o) (o_psi o) (pol_of (o_psi o)) (Fto a b) (o_period o) (o_wavelength o) (o_thickness o) (o_algo o) false CJunk None (o_fourier_type o) (o_enhanced o) None MNone) hcell) => m em.
eexists; first by rewrite [assign_ucell_jax _ _]em.
split=> //=; split=> //; by rewrite er hc er -/(psi_of _) pol_psi.
Qed.

Lemma use_pinv_lost o o' : tree_unflatten (tree_flatten o) = Some o' -> o_use_pinv o' = false.
Proof.
rewrite /tree_unflatten /tree_flatten /construct_jax; case: (ctor_precision _) => // b0.
set o0 := Obj _ _ _ _ _ _ _ _ _ _ _ _ _ _ _ _ _ _ _ _.
have fr (fs : seq (obj -> obj * bool)) : (forall f, List.In f fs -> forall x, o_use_pinv (f x).1 = o_use_pinv x) ->
    forall x y, assign_all fs x = Some y -> o_use_pinv y = o_use_pinv x.
  elim: fs => [_ x y [<-]|f fs IH hf x y] //=; move: (hf f (or_introl erefl) x); case: (f x) => x' [] //= e h.
  by rewrite -e; apply: IH h => g hg; apply: hf; right.
move=> h; rewrite (fr _ _ _ _ h) // => f.
have c1 v x : o_use_pinv (assign_theta v x).1 = o_use_pinv x by rewrite /assign_theta; case: v => [|?|?|[|[?|] []]|?|[|? []]|? ? ? ?|?|?|] //=.
have c2 v x : o_use_pinv (assign_phi v x).1 = o_use_pinv x by rewrite /assign_phi; case: v => [|?|?|[|[?|] []]|?|[|? []]|? ? ? ?|?|?|] //=.
have c3 v x : o_use_pinv (assign_pol_jax v x).1 = o_use_pinv x.
  have H c : o_use_pinv (if in_unit c then (set_polar (psi_of c) c x, false) else (x, true)).1 = o_use_pinv x.
    by rewrite /=; case: ifP.
  by rewrite /assign_pol_jax; case: v => [|[z|r|c]|?|xs|?|[|? []]|? ? ? ?|?|?|] //=; exact: H.
have c4 v x : o_use_pinv (assign_psi v x).1 = o_use_pinv x by case: v => [|?|?|[|[?|] []]|?|[|? []]|? ? ? ?|?|?|].
have c5 v x : o_use_pinv (assign_fto v x).1 = o_use_pinv x.
  rewrite /assign_fto; case: v => [|[z|r|c]|y|xs|y|xs|? ? ? ?|?|?|] //=.
  - case: xs => [|y [|z [|? ?]]] //=; first by case: y => [y|] //=; case: (py_int y).
    by case: y => [y|] //=; case: (py_int y) => //; case: z => [z|] //=; case: (py_int z).
  - by case: (py_int y).
  case: xs => [|y [|z [|? ?]]] //=; first by case: (py_int y).
  by case: (py_int y) => //; case: (py_int z).
have c6 v x : o_use_pinv (assign_period v x).1 = o_use_pinv x.
  case: v => [|[z|r|c]|y|[|y [|z xs]]|y|[|y [|? ?]]|? ? ? ?|?|?|] //=; try (by case: y => // -[]); try (by case: y).
  by case: (list_float y) => // ?; case: (list_float z) => // ?; case: (all_some _ _).
have c7 v x : o_use_pinv (assign_thickness v x).1 = o_use_pinv x.
  rewrite /assign_thickness; case: v => [|[z|r|c]|y|xs|y|xs|? ? ? ?|?|?|] //=.
  by case: (all_some _ _).
have c8 v x : o_use_pinv (assign_ucell_jax v x).1 = o_use_pinv x by case: v => [|?|?|?|?|?|[] ? ? ?|?|?|].
by move=> hin x; move: hin; rewrite /=; do !case=> [<- //|].
Qed.

(** Outside the tolerance the rebuild raises. *)
Lemma out_of_range o (r : R) : o_pol o = RtoC r -> (r <= - / 10 ^ 6 \/ 1 + / 10 ^ 6 <= r)%coqR -> tree_unflatten (tree_flatten o) = None.
Proof.
move=> er hr; rewrite /tree_unflatten /tree_flatten /construct_jax; case: (ctor_precision _) => // b0.
rewrite [assign_all _ _]/=; case: (assign_theta _ _) => o1 [] //=; case: (assign_phi _ _) => o2 [] //=.
rewrite er clamp_real; have := room_gt0; rewrite -/room in hr; move: room hr => d hr d0.
have -> : rltb 1 r && rltb r (1 + d) = false by rb.
have -> : rltb (0 - d) r && rltb r 0 = false by rb.
by rewrite in_unit_real; have -> : rleb 0 r && rleb r 1 = false by rb.
Qed.
