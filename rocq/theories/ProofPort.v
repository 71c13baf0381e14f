From Coq Require Import Reals ZArith Lra.
From mathcomp Require Import all_ssreflect ssralg matrix.
From Coquelicot Require Import Complex.
From Verif Require Import Cplx Mx Spec SpecSolve SpecState SpecSym SpecRecip SpecRecipT SpecLayer SpecTorch SpecTorchObj SpecJax ModelTM ModelField ModelState
  ModelJax ModelTorch ModelTorchObj SpecPort ProofSetup ProofEnd ProofPinv ProofTorch ProofTorchObj ProofJax2 ProofTorchObj2.

Set Implicit Arguments.
Unset Strict Implicit.
Unset Printing Implicit Defensive.
Local Open Scope ring_scope.
Import GRing.Theory.

(** ** Reports *)
Lemma same_inv rt r : same_report rt r -> let: Report n a b c := r in
  exists a' b' c' : option (diffraction n), [/\ rt = Report a' b' c', same_block a' a, same_block b' b & same_block c' c].
Proof. by case=> n a b c a' b' c' h1 h2 h3; exists a, b, c. Qed.
Lemma both_same (P Q : forall n, diffraction n -> diffraction n -> Prop) n (a a' t t' : option (diffraction n)) :
  (forall n (d d' e e' : diffraction n), P n d d' -> same_efficiencies e d -> same_efficiencies e' d' -> Q n e e') ->
  same_block t a -> same_block t' a' -> SpecSym.both (P n) a a' -> SpecSym.both (Q n) t t'.
Proof.
move=> h ht ht' hb; case: hb ht ht' => [|d d' hd]; case: t => [e|] //; case: t' => [e'|] // h1 h2; first by constructor.
constructor; exact: h hd h1 h2.
Qed.
Lemma reports_same (P Q : forall n, diffraction n -> diffraction n -> Prop) r r' t t' :
  (forall n (d d' e e' : diffraction n), P n d d' -> same_efficiencies e d -> same_efficiencies e' d' -> Q n e e') ->
  same_report t r -> same_report t' r' -> reports P r r' -> reports Q t t'.
Proof.
move=> h /same_inv ht /same_inv ht' hr; case: hr ht ht' => n a b c a' b' c' ha hb hc [x [y [z [-> hx hy hz]]]] [x' [y' [z' [-> hx' hy' hz']]]].
constructor; [exact: both_same h hx hx' ha|exact: both_same h hy hy' hb|exact: both_same h hz hz' hc].
Qed.

(** ** JAX *)
Section Jax.
Variables (pinv : forall n, 'M[C]_n -> 'M[C]_n) (eig : forall n, 'M[C]_n -> 'rV[C]_n * 'M[C]_n) (broken : forall n, 'M[C]_n -> 'M[C]_n).
Lemma of_jax o o' r : o_use_pinv o = false -> (conv_solve pinv eig o).2 <> Raised ->
  j_conv_solve pinv eig broken o = (o', Solved r) -> conv_solve pinv eig o = (o', Solved r).
Proof.
move=> hu hr hj; have hs : same_inverses pinv o by constructor 1.
have hq : quiet pinv (do_op pinv eig) ConvSolve o by split.
by have e := step_j broken hq; rewrite /= hj in e.
Qed.
End Jax.

(** ** PyTorch *)
Section Torch.
Variables (pinv : forall n, 'M[C]_n -> 'M[C]_n) (eig : forall n, 'M[C]_n -> 'rV[C]_n * 'M[C]_n).
Lemma twin_physical c o : physical_obj (t_attrs o) -> physical_obj (numpy_twin c o).
Proof. by case=> q1 q2 q3 [x q4] q5; split=> //; exists (- x)%coqR; rewrite /= RtoC_opp q4. Qed.
Lemma twin_mirror my mx po c o : numpy_twin (moved_cell my mx c) (t_mirror_sp my mx po o) = mirror_sp my mx po (numpy_twin c o).
Proof. by rewrite /numpy_twin /t_mirror_sp /mirror_sp /turned_psi /=; case: (_ (+) _). Qed.
Lemma twin_move my mx c o : numpy_twin (moved_cell my mx c) (t_move_cell my mx o) = move_cell my mx (numpy_twin c o).
Proof. by []. Qed.
Lemma twin_classical c o : numpy_twin (moved_cell Keep Reverse c) (t_mirror_classical o) = mirror_classical (numpy_twin c o).
Proof. by []. Qed.
Lemma twin_other c o : numpy_twin c (t_other_side o) = other_side (numpy_twin c o).
Proof. by []. Qed.
Lemma twin_back th c o : numpy_twin (upturned_cell c) (t_sent_back th o) = sent_back th (numpy_twin c o).
Proof. by []. Qed.
Lemma same_moved my mx t c : same_cell t c -> same_cell (t_moved_cell my mx t) (moved_cell my mx c).
Proof. by case=> *; constructor. Qed.
Lemma same_upturned t c : same_cell t c -> same_cell (t_upturned t) (upturned_cell c).
Proof. by case=> [ny nx ls|ins] /=; [|rewrite -!map_rev]; constructor. Qed.

(** The classical mount at an angle to either side of the normal. *)
Lemma torch_tilted up s w convs r T1 infos (t : R) : phi s = None -> is_real (n_top s) -> is_real (n_bot s) -> theta s = RtoC t ->
  (- (PI / 2) < t < PI / 2)%coqR -> solve_1d pinv eig up s w convs = Some (r, T1, infos) ->
  exists2 r', t_solve_1d pinv eig up s w convs = Some (r', T1, infos) & same_efficiencies r' r.
Proof.
move=> hphi ht hb eth hth; rewrite /solve_1d /t_solve_1d; case: (layers_of _ _) => [ls|] //.
have est : sin_theta s = csin (theta s).
  by rewrite /sin_theta eth Re_RtoC; case: (Rle_dec _ _) => // h; exfalso; have := pi32_gt; lra.
have ek : t_kx_vector s w = kx_vector s w by rewrite /t_kx_vector /kx_vector est.
have hk i : exists x : R, kx_vector s w i = RtoC x.
  rewrite /kx_vector est; case: ht => nt ->; rewrite eth /phi_val hphi -[ccos 0]/(ccos (RtoC 0)) ccos_0 csin_real mulr1 -!RtoC_mul -RtoC_add conjR.
  by eexists; reflexivity.
rewrite ek /t_rcwa_1d /rcwa_1d t11E //.
case: (transfer_1d_1 _ _ _ _ _) => [[[[[kt kb] F] G] T]|] //.
case e: (stack_with _ _ _) => [[[[F' G'] T'] is']|] //.
rewrite (stack_mono (@s1_t _ _ _ _ _ _ _) e).
case e4: (transfer_1d_4 _ _ _ _ _ _ _ _ _ _ _) => [[r' T1']|] // [<- <- <-].
by have [r2 -> [h _]] := t14_t (kx_vector s w) e4; exists r2.
Qed.
Lemma twin_tilted o c n r : same_cell (t_cell o) c -> promised (numpy_twin c o) 0 -> tilted o ->
  conv_solve pinv eig (numpy_twin c o) = (n, Solved r) -> exists o' r', t_conv_solve pinv eig o = (o', Solved r') /\ same_report r' r.
Proof.
move=> hc hpr [/pos_is_real ht hb hth] /conv_solveE [fx [fy [cs [g [th [p [[ef ec eg pg et] [ep ew hg es]]]]]]]].
have hphi : o_phi (t_attrs o) = None by inversion hpr.
have eg0 : g = 0%N.
  inversion hpr as [nx ls h1 h2 h3 h4 [f h5 _]| | |].
  have fy0 : fy = 0%N by move: ef; rewrite h5 => -[].
  by move: eg; rewrite /grating_of h1 h2 h4 fy0 /=; case: h3 => ->; rewrite eqxx ?orbT => -[].
rewrite {}eg0 {hg pg} in eg es.
have hph0 : o_phi (t_attrs o) <> Some 0 by rewrite hphi.
have ef' : fto_of (t_attrs o) = Some (fx, fy) by exact ef.
have et' : o_theta (t_attrs o) = Some th by exact et.
have ep' : period_of (t_attrs o) = Some p by exact ep.
have ec' := convs_twin hc ec; have eg' : t_grating o fy = Some 0%N by rewrite (twin_grating hc hph0 ec).
rewrite /t_conv_solve ef' ec' et' ep' eg'.
have -> : reqb (o_wavelength (t_attrs o)) 0 = false by rewrite /reqb; case: (Req_EM_T _ _).
move: es; rewrite /solve_with /t_solve_with /=.
case: (o_algo (t_attrs o)) => //; case: (o_thickness (t_attrs o)) => [|ts|] //.
case e1: (solve_1d _ _ _ _ _ _) => [[[d T1] infos]|] // [_ <-].
have [t hth' eth] := hth th et.
have [r' e' he] := @torch_tilted _ (setup_of (t_attrs o) fx fy th p ts) _ _ _ _ _ t hphi ht hb eth hth' e1.
rewrite e'; do 2 eexists; split; first reflexivity.
by constructor.
Qed.
Lemma tilted_other o : tilted o -> tilted (t_other_side o).
Proof.
case=> h1 h2 h3; split=> // th /=; case e: (o_theta (t_attrs o)) => [x|] //= [<-].
by have [y h hy] := h3 x e; exists (- y)%coqR; [lra|rewrite RtoC_opp hy].
Qed.
Lemma promised_other c o : promised (numpy_twin c o) 0 -> promised (numpy_twin c (t_other_side o)) 0.
Proof. by move=> h; inversion h as [nx ls h1 h2 h3 h4 h5| | |]; apply: (@P1d _ nx ls). Qed.
Lemma promised_flip c o : promised (numpy_twin c o) 0 -> promised (numpy_twin (moved_cell Keep Reverse c) (t_mirror_classical o)) 0.
Proof.
move=> h; inversion h as [nx ls h1 h2 h3 h4 h5| | |]; move: h2; rewrite /= => ->.
by apply: (@P1d _ nx [seq (fun i j => l (source Keep 1 i) (source Reverse nx j)) | l : nat -> nat -> C <- ls]).
Qed.
Lemma promised_back th c o : promised (numpy_twin c o) 0 -> promised (numpy_twin (upturned_cell c) (t_sent_back th o)) 0.
Proof.
move=> h; inversion h as [nx ls h1 h2 h3 h4 h5| | |]; move: h2; rewrite /= => ->.
by apply: (@P1d _ nx (rev ls)).
Qed.
Lemma tilted_back th sg o : is_real (o_ntop (t_attrs o)) -> leaves_along sg (t_attrs o) th -> tilted (t_sent_back th o).
Proof. by move=> h [b1 b2 _]; split=> //= t [<-]. Qed.
Lemma tilted_phys o : physical_obj (t_attrs o) -> is_real (o_nbot (t_attrs o)) -> tilted o.
Proof. by case=> q1 q2 q3 q4 q5 hb; split=> // th e; have [t h ->] := q2 th e; exists t => //; have := PI_RGT_0; lra. Qed.
End Torch.

Lemma to_jax pinv eig broken o o' r : o_use_pinv o = false -> conv_solve pinv eig o = (o', Solved r) ->
  np_runs pinv eig o /\ j_conv_solve pinv eig broken o = (o', Solved r).
Proof.
move=> hu e; have hr : np_runs pinv eig o by rewrite /np_runs e.
split=> //; have hs : same_inverses pinv o by constructor 1.
have hq : quiet pinv (do_op pinv eig) ConvSolve o by split.
by have := step_j broken hq; rewrite /= e.
Qed.
