(** Lemmas about solver objects: setters, dispatch, histories. *)
From Coq Require Import Reals ZArith Lra.
From mathcomp Require Import all_ssreflect ssralg matrix.
From Coquelicot Require Import Complex.
From Verif Require Import Cplx Spec SpecSolve SpecLayer ModelTM ModelFourier ModelVec ModelField ModelState SpecState.

Set Implicit Arguments.
Unset Strict Implicit.
Unset Printing Implicit Defensive.
Local Open Scope ring_scope.
Import GRing.Theory.

(** ** Frames *)

Lemma set_memo_id o : set_memo (o_grating o) (o_memo o) o = o.
Proof. by case: o. Qed.

Section Hist.
Variable pinv : forall n, 'M[C]_n -> 'M[C]_n.
Variable eig : forall n, 'M[C]_n -> 'rV[C]_n * 'M[C]_n.

Lemma solve_frame o : exists g m, (conv_solve pinv eig o).1 = set_memo g m o.
Proof.
rewrite /conv_solve; case: (fto_of o) => [[fx fy]|]; last by exists (o_grating o), (o_memo o); rewrite set_memo_id.
case: (convs_of pinv o fx fy) => [cs|]; last by exists (o_grating o), (o_memo o); rewrite set_memo_id.
case: (o_theta o) => [th|]; last by do 2 eexists.
case: (period_of o) => [p|]; last by do 2 eexists.
case: (reqb _ _); first by do 2 eexists.
by case: (solve_with _ _ _ _ _ _ _) => m out; do 2 eexists.
Qed.


(** ** Polarisation *)

Lemma psi_pol c : psi_of (pol_of c) = c.
Proof.
rewrite /psi_of /pol_of; have pn : RtoC PI != 0 by apply/eqP => -[]; have := PI_RGT_0; lra.
have -> : (1 - - (RtoC 2 * c / RtoC PI - 1)) = RtoC 2 * c / RtoC PI by cring.
have -> : RtoC (PI / 2) * (RtoC 2 * c / RtoC PI) = (RtoC (PI / 2) * RtoC 2) * c / RtoC PI by cring.
rewrite -RtoC_mul; have -> : (PI / 2 * 2 = PI)%coqR by field.
by rewrite [_ * c]mulrC mulfK.
Qed.

Lemma assign_polar_frame o :
  (forall v, o_psi (assign_theta v o).1 = o_psi o /\ o_pol (assign_theta v o).1 = o_pol o) /\
  (forall v, o_psi (assign_phi v o).1 = o_psi o /\ o_pol (assign_phi v o).1 = o_pol o) /\
  (forall v, o_psi (assign_fto v o).1 = o_psi o /\ o_pol (assign_fto v o).1 = o_pol o) /\
  (forall v, o_psi (assign_thickness v o).1 = o_psi o /\ o_pol (assign_thickness v o).1 = o_pol o).
Proof.
split; first by move=> v; rewrite /assign_theta; case: v => [|x|x|[|[x|] []]|x|[|x []]|? ? ? ?|?|?|] //=.
split; first by move=> v; rewrite /assign_phi; case: v => [|x|x|[|[x|] []]|x|[|x []]|? ? ? ?|?|?|] //=.
split.
  move=> v; rewrite /assign_fto; case: v => [|[z|r|c]|x|xs|x|xs|? ? ? ?|?|?|] //=.
  - case: xs => [|x [|y [|? ?]]] //=; first by case: x => [x|] //=; case: (py_int x).
    by case: x => [x|] //=; case: (py_int x) => //; case: y => [y|] //=; case: (py_int y).
  - by case: (py_int x).
  case: xs => [|x [|y [|? ?]]] //=; first by case: (py_int x).
  by case: (py_int x) => //; case: (py_int y).
move=> v; rewrite /assign_thickness; case: v => [|[z|r|c]|x|xs|x|xs|? ? ? ?|?|?|] //=.
by case: (all_some _ _).
Qed.

Lemma type_complex_polar v o : o_psi (assign_type_complex v o).1 = o_psi o /\ o_pol (assign_type_complex v o).1 = o_pol o.
Proof.
have H b : o_psi (retype b o).1 = o_psi o /\ o_pol (retype b o).1 = o_pol o.
  rewrite /retype; have [F _] := assign_polar_frame (set_single b o).
  move: (F (val_angle (o_theta (set_single b o)))).
  case: (assign_theta _ _) => o2 [] /= E2 //.
  have [_ [F3 _]] := assign_polar_frame o2.
  move: (F3 (val_angle (o_phi o2))); case: (assign_phi _ _) => o3 e3 /= E3.
  have {}E3 : o_psi o3 = o_psi o /\ o_pol o3 = o_pol o by case: E2 => <- <-.
  case: e3 => //; have [_ [_ [F4 _]]] := assign_polar_frame o3.
  move: (F4 (val_fto (o_fto o3))); case: (assign_fto _ _) => o4 e4 /= E4.
  have {}E4 : o_psi o4 = o_psi o /\ o_pol o4 = o_pol o by case: E3 => <- <-.
  case: e4 => //; have [_ [_ [_ F5]]] := assign_polar_frame o4.
  by case: (F5 (val_farray (o_thickness o4))) => -> ->.
have G x : o_psi (if cnum x == 0 then retype false o else if cnum x == 1 then retype true o else (o, true)).1 = o_psi o /\
           o_pol (if cnum x == 0 then retype false o else if cnum x == 1 then retype true o else (o, true)).1 = o_pol o.
  by case: ifP => // _; case: ifP.
by rewrite /assign_type_complex; case: v => [|x|x|xs|x|[|x []]|? ? ? ?|?|?|] //=.
Qed.

Lemma ucell_polar v o : o_psi (assign_ucell v o).1 = o_psi o /\ o_pol (assign_ucell v o).1 = o_pol o.
Proof. by case: v => [|x|x|xs|x|xs|[] ? ? ?|?|?|]. Qed.

Lemma period_polar v o : o_psi (assign_period v o).1 = o_psi o /\ o_pol (assign_period v o).1 = o_pol o.
Proof.
case: v => [|[z|r|c]|x|[|x [|y xs]]|x|[|x [|? ?]]|? ? ? ?|?|?|] //=; try (by case: x => // -[]); try (by case: x).
by case: (list_float x) => // ?; case: (list_float y) => // ?; case: (all_some _ _).
Qed.

(** What an operation does to the polarisation: only psi and pol setters change it. *)
Definition polar_op (a : op) : bool := match a with SetPsi _ | SetPol _ => true | _ => false end.
Lemma polar_frame a o : ~~ polar_op a ->
  o_psi (do_op pinv eig a o).1 = o_psi o /\ o_pol (do_op pinv eig a o).1 = o_pol o.
Proof.
have [F1 [F2 [F3 F4]]] := assign_polar_frame o.
case: a => //= *; try solve [exact: F1 | exact: F2 | exact: F3 | exact: F4 | exact: period_polar | exact: type_complex_polar
  | exact: ucell_polar].
by have [g [m ->]] := solve_frame o.
Qed.

Lemma coherent_frame o o' : o_psi o' = o_psi o -> o_pol o' = o_pol o -> coherent o -> coherent o'.
Proof. by rewrite /coherent => -> ->. Qed.

Lemma pol_coherent v o : coherent o -> coherent (assign_pol v o).1.
Proof. by rewrite /assign_pol; case: ifP => // _; case: (scalar v). Qed.

Lemma psi_coherent v o : coherent o -> ~~ is_psi_list (SetPsi v) -> coherent (assign_psi v o).1.
Proof.
by case: v => [|x|x|[|[x|] []]|x|[|x []]|? ? ? ?|?|?|] //= h _; rewrite /coherent /= -[RHS]/(psi_of (pol_of _)) psi_pol.
Qed.

Lemma step_coherent a o : ~~ is_psi_list a -> coherent o -> coherent (do_op pinv eig a o).1.
Proof.
move=> ha h; case pa: (polar_op a); last first.
  by have [h1 h2] := polar_frame o (negbT pa); exact: coherent_frame h1 h2 h.
by case: a ha pa => // v hv _; [exact: psi_coherent | exact: pol_coherent].
Qed.

Lemma after_coherent h o : coherent o -> all (fun a => ~~ is_psi_list a) h -> coherent (after pinv eig h o).
Proof.
elim: h o => //= a h IH o ho /andP [ha hh]; exact: IH (step_coherent ha ho) hh.
Qed.

Lemma construct_coherent a o : construct a = Some o -> coherent o.
Proof.
rewrite /construct; case: (ctor_precision _) => // b; set o0 := Obj _ _ _ _ _ _ _ _ _ _ _ _ _ _ _ _ _ _ _ _.
rewrite [assign_all _ _]/=.
case: (assign_theta _ _) => o1 [] //; case: (assign_phi _ _) => o2 [] //.
case e3: (assign_pol _ _) => [o3 []] //.
have c3 : coherent o3.
  move: e3; rewrite /assign_pol; case: ifP => // _; case: (scalar _) => // x [<-] //.
case e4: (assign_psi _ _) => [o4 []] //.
have c4 : coherent o4.
  move: e4 (@psi_coherent (a_psi a) o3 c3); case: (is_psi_list (SetPsi (a_psi a))) / boolP.
    by rewrite /is_psi_list /=; case: (a_psi a) => // -[|[x|] []].
  by move=> _ -> /(_ isT).
case e5: (assign_fto _ _) => [o5 []] //.
have {}c4 : coherent o5.
  have [_ [_ [F _]]] := assign_polar_frame o4; have [h1 h2] := F (a_fto a).
  by rewrite e5 in h1 h2; exact: coherent_frame h1 h2 c4.
case e6: (assign_period _ _) => [o6 []] //.
have {}c4 : coherent o6.
  by have [h1 h2] := period_polar (a_period a) o5; rewrite e6 in h1 h2; exact: coherent_frame h1 h2 c4.
case e7: (assign_thickness _ _) => [o7 []] //.
have {}c4 : coherent o7.
  have [_ [_ [_ F]]] := assign_polar_frame o6; have [h1 h2] := F (a_thickness a).
  by rewrite e7 in h1 h2; exact: coherent_frame h1 h2 c4.
case e8: (assign_ucell _ _) => [o8 []] // -[<-].
by have [h1 h2] := ucell_polar (a_ucell a) o7; rewrite e8 in h1 h2; exact: coherent_frame h1 h2 c4.
Qed.

End Hist.
