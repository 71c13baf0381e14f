(** pinv gives the same results as inv whenever inv works; superposition; independence of psi. *)
From Coq Require Import Reals Lra Psatz.
From mathcomp Require Import all_ssreflect ssralg matrix mxalgebra.
From Coquelicot Require Import Complex.
From Verif Require Import Cplx Mx Spec ModelTM SpecSolve ProofFlux ProofEnergy1D ProofEnergy2D.

Set Implicit Arguments.
Unset Strict Implicit.
Unset Printing Implicit Defensive.
Local Open Scope ring_scope.
Import GRing.Theory.

Section Pinv.
Variable pinv : forall n, 'M[C]_n -> 'M[C]_n.
Variable eig : forall n, 'M[C]_n -> 'rV[C]_n * 'M[C]_n.
Hypothesis hp : pinv_oracle pinv.

Lemma pinv_inv n (A : 'M[C]_n) : A \in unitmx -> pinv A = invmx A.
Proof.
move=> u; have h := hp A.
have e : A *m pinv A = 1%:M by rewrite -[LHS](mulmxK u) h mulmxV.
by rewrite -[LHS](mulKmx u) e mulmx1.
Qed.

Lemma meeinv_pinv n (A B : 'M[C]_n) : meeinv pinv false A = Some B -> meeinv pinv true A = Some B.
Proof. by move/meeinv_some=> [u ->]; rewrite /meeinv pinv_inv. Qed.

Ltac inv1 h := match goal with |- context [meeinv pinv false ?A] =>
  case h: (meeinv pinv false A) => [?|] //; rewrite (meeinv_pinv h) end.

Lemma update_pinv m (W V X F G T : 'M[C]_m) r :
  layer_update pinv false W V X F G T = Some r -> layer_update pinv true W V X F G T = Some r.
Proof. by rewrite /layer_update; inv1 h1; inv1 h2; inv1 h3. Qed.

Lemma t12_pinv pol n kx (ex ey ez : 'M[C]_n) r :
  transfer_1d_2 pinv eig false pol kx ex ey ez = Some r -> transfer_1d_2 pinv eig true pol kx ex ey ez = Some r.
Proof.
rewrite /transfer_1d_2; case: ifP => // _; case: ifP => // _.
by case: (eig _) => l W; inv1 h1.
Qed.

Lemma t22_pinv n kx ky (ex ey ez : 'M[C]_n) r :
  transfer_2d_2 pinv eig false kx ky ex ey ez = Some r -> transfer_2d_2 pinv eig true kx ky ex ey ez = Some r.
Proof. by rewrite /transfer_2d_2; case: (eig _) => l W; inv1 h1. Qed.

Lemma tc2_pinv n kx ky (ex ey ez : 'M[C]_n) r :
  transfer_1d_conical_2 pinv eig false kx ky ex ey ez = Some r ->
  transfer_1d_conical_2 pinv eig true kx ky ex ey ez = Some r.
Proof.
by rewrite /transfer_1d_conical_2; case: (eig _) => l W; case: (eig _) => l' W'; inv1 h1; inv1 h2.
Qed.

Lemma stack_mono (L S : Type) (f g : L -> S -> option S) ls st r :
  (forall l s r, f l s = Some r -> g l s = Some r) ->
  stack_with f ls st = Some r -> stack_with g ls st = Some r.
Proof.
move=> h; elim: ls r => [|l ls IH] r //=.
by case e: (stack_with f ls st) => [s|] //; rewrite (IH _ e) => /h.
Qed.

Lemma s1_pinv pol n kx k0 (l : layer n) st r :
  step_1d pinv eig false pol kx k0 l st = Some r -> step_1d pinv eig true pol kx k0 l st = Some r.
Proof.
case: st => [[[F G] T] is']; rewrite /step_1d.
case e: (transfer_1d_2 _ _ _ _ _ _ _ _) => [[[W V] q]|] //; rewrite (t12_pinv e) /transfer_1d_3.
by case u: (layer_update _ _ _ _ _ _ _ _) => [[[[[? ?] ?] ?] ?]|] //; rewrite (update_pinv u).
Qed.

Lemma s2_pinv n kx ky c s k0 (l : layer n) st r :
  step_2d pinv eig false kx ky c s k0 l st = Some r -> step_2d pinv eig true kx ky c s k0 l st = Some r.
Proof.
case: st => [[[F G] T] is']; rewrite /step_2d.
case e: (transfer_2d_2 _ _ _ _ _ _ _ _) => [[[W V] q]|] //; rewrite (t22_pinv e) /transfer_2d_3; case: (big_2d W V c s) => bW bV.
by case u: (layer_update _ _ _ _ _ _ _ _) => [[[[[? ?] ?] ?] ?]|] //; rewrite (update_pinv u).
Qed.

Lemma sc_pinv n kx ky c s k0 (l : layer n) st r :
  step_conical pinv eig false kx ky c s k0 l st = Some r -> step_conical pinv eig true kx ky c s k0 l st = Some r.
Proof.
case: st => [[[F G] T] is']; rewrite /step_conical.
case e: (transfer_1d_conical_2 _ _ _ _ _ _ _ _) => [[[W V] q]|] //; rewrite (tc2_pinv e) /transfer_1d_conical_3; case: (conical_big W V c s) => bW bV.
by case u: (layer_update _ _ _ _ _ _ _ _) => [[[[[? ?] ?] ?] ?]|] //; rewrite (update_pinv u).
Qed.

Lemma t14_pinv pol n (F G T : 'M[C]_n) kt kb th nt nb r :
  transfer_1d_4 pinv false pol F G T kt kb th nt nb = Some r -> transfer_1d_4 pinv true pol F G T kt kb th nt nb = Some r.
Proof.
rewrite /transfer_1d_4; case: ifP => _; first by inv1 h1.
by case: ifP => // _; inv1 h1.
Qed.

Lemma tsp4_pinv n (F G T : 'M[C]_(n + n)) kt kb ps th nt nb r :
  transfer_sp_4 pinv false F G T kt kb ps th nt nb = Some r -> transfer_sp_4 pinv true F G T kt kb ps th nt nb = Some r.
Proof. by rewrite /transfer_sp_4; inv1 h1. Qed.

Lemma solve_1d_pinv s w convs r :
  solve_1d pinv eig false s w convs = Some r -> solve_1d pinv eig true s w convs = Some r.
Proof.
rewrite /solve_1d; case: (layers_of _ _) => [ls|] //; rewrite /rcwa_1d.
case: (transfer_1d_1 _ _ _ _ _) => [[[[[kt kb] F] G] T]|] //.
case e: (stack_with _ _ _) => [[[[F' G'] T'] is']|] //.
rewrite (stack_mono (@s1_pinv _ _ _ _) e).
by case e4: (transfer_1d_4 _ _ _ _ _ _ _ _ _ _ _) => [[r' T1]|] //; rewrite (t14_pinv e4).
Qed.

Lemma solve_2d_pinv s w convs r :
  solve_2d pinv eig false s w convs = Some r -> solve_2d pinv eig true s w convs = Some r.
Proof.
rewrite /solve_2d; case: (layers_of _ _) => [ls|] //; rewrite /rcwa_2d.
case: (transfer_sp_1 _ _ _ _ _) => [[[[[[[kt kb] c] s'] F] G] T]|] //.
case e: (stack_with _ _ _) => [[[[F' G'] T'] is']|] //.
rewrite (stack_mono (@s2_pinv _ _ _ _ _ _) e).
by case e4: (transfer_sp_4 _ _ _ _ _ _ _ _ _ _ _) => [r'|] //; rewrite (tsp4_pinv e4).
Qed.

Lemma solve_conical_pinv s w convs r :
  solve_1d_conical pinv eig false s w convs = Some r -> solve_1d_conical pinv eig true s w convs = Some r.
Proof.
rewrite /solve_1d_conical; case: ifP => // _; case: (layers_of _ _) => [ls|] //; rewrite /rcwa_conical.
case: (transfer_sp_1 _ _ _ _ _) => [[[[[[[kt kb] c] s'] F] G] T]|] //.
case e: (stack_with _ _ _) => [[[[F' G'] T'] is']|] //.
rewrite (stack_mono (@sc_pinv _ _ _ _ _ _) e).
by case e4: (transfer_sp_4 _ _ _ _ _ _ _ _ _ _ _) => [r'|] //; rewrite (tsp4_pinv e4).
Qed.
End Pinv.

(** ** Superposition *)
Section Super.
Variable pinv : forall n, 'M[C]_n -> 'M[C]_n.
Variable eig : forall n, 'M[C]_n -> 'rV[C]_n * 'M[C]_n.
Variable up : bool.

Lemma csin_pi2 : csin (RtoC (PI / 2)) = 1.
Proof. by rewrite csin_real sin_PI2. Qed.
Lemma ccos_pi2 : ccos (RtoC (PI / 2)) = 0.
Proof. by rewrite ccos_real cos_PI2. Qed.
Lemma csin_0 : csin (RtoC 0) = 0.
Proof. by rewrite csin_real sin_0. Qed.
Lemma ccos_0 : ccos (RtoC 0) = 1.
Proof. by rewrite ccos_real cos_0. Qed.

Lemma final_B_lin n psi theta nt :
  final_B n psi theta nt =
  csin psi *: final_B n (RtoC (PI / 2)) theta nt + ccos psi *: final_B n (RtoC 0) theta nt.
Proof.
rewrite /final_B csin_pi2 ccos_pi2 csin_0 ccos_0 !scale_col_mx !add_col_mx !scalerA -!scalerDl.
congr (col_mx (col_mx (_ *: _) (_ *: _)) (col_mx (_ *: _) (_ *: _))).
- by rewrite mulrN mulr1 oppr0 mulr0 addr0.
- by rewrite !mul0r mulr0 add0r mul1r.
- by cring.
- by rewrite !mulr0 mulr1 add0r [RHS]mulrC.
Qed.

Lemma extract_super n (RT1 RT2 : 'cV[C]_((n + n) + (n + n))) T kt kb th nt nb a b :
  superposed a b (extract_sp (a *: RT1 + b *: RT2) T kt kb th nt nb).1
    (extract_sp RT1 T kt kb th nt nb).1 (extract_sp RT2 T kt kb th nt nb).1.
Proof.
move=> i; rewrite /extract_sp /=; split.
- by rewrite !mxE.
- by rewrite !mxE.
- by rewrite linearD !linearZ /= mulmxDr -!scalemxAr linearD !linearZ !mxE.
- by rewrite linearD !linearZ /= mulmxDr -!scalemxAr linearD !linearZ !mxE.
Qed.

Lemma super_4 n (F G T : 'M[C]_(n + n)) kt kb ps th nt nb r :
  transfer_sp_4 pinv up F G T kt kb ps th nt nb = Some r ->
  superposed (csin ps) (ccos ps) (res r) (res_te_inc r) (res_tm_inc r).
Proof.
rewrite /transfer_sp_4; case: (meeinv _ _ _) => [M|] //.
have h := extract_super (M *m final_B n (RtoC (PI / 2)) th nt) (M *m final_B n (RtoC 0) th nt) T kt kb th nt nb
  (csin ps) (ccos ps).
rewrite !scalemxAr -mulmxDr -final_B_lin in h.
move: h; case: (extract_sp _ _ _ _ _ _ _) => r0 t0.
case: (extract_sp _ _ _ _ _ _ _) => r1 t1; case: (extract_sp _ _ _ _ _ _ _) => r2 t2 /= h.
by case=> <-.
Qed.

Lemma super_2d s w convs r infos :
  solve_2d pinv eig up s w convs = Some (r, infos) ->
  superposed (csin (psi s)) (ccos (psi s)) (res r) (res_te_inc r) (res_tm_inc r).
Proof.
rewrite /solve_2d; case: (layers_of _ _) => [ls|] //; rewrite /rcwa_2d.
case: (transfer_sp_1 _ _ _ _ _) => [[[[[[[kt kb] c] s'] F] G] T]|] //.
case: (stack_with _ _ _) => [[[[F' G'] T'] is']|] //.
case e4: (transfer_sp_4 _ _ _ _ _ _ _ _ _ _ _) => [r'|] // [<- _].
exact: super_4 e4.
Qed.

Lemma super_conical s w convs r infos :
  solve_1d_conical pinv eig up s w convs = Some (r, infos) ->
  superposed (csin (psi s)) (ccos (psi s)) (res r) (res_te_inc r) (res_tm_inc r).
Proof.
rewrite /solve_1d_conical; case: ifP => // _; case: (layers_of _ _) => [ls|] //; rewrite /rcwa_conical.
case: (transfer_sp_1 _ _ _ _ _) => [[[[[[[kt kb] c] s'] F] G] T]|] //.
case: (stack_with _ _ _) => [[[[F' G'] T'] is']|] //.
case e4: (transfer_sp_4 _ _ _ _ _ _ _ _ _ _ _) => [r'|] // [<- _].
exact: super_4 e4.
Qed.

(** psi = pi/2 and psi = 0 give exactly the auxiliary results (also the efficiencies). *)
Lemma pure_4 n (F G T : 'M[C]_(n + n)) kt kb ps th nt nb r :
  transfer_sp_4 pinv up F G T kt kb ps th nt nb = Some r ->
  (ps = RtoC (PI / 2) -> res r = res_te_inc r) /\ (ps = RtoC 0 -> res r = res_tm_inc r).
Proof.
rewrite /transfer_sp_4; case: (meeinv _ _ _) => [M|] //.
by case=> <- /=; split=> ->.
Qed.

(** Changing psi changes [res] and its T1 only. *)
Lemma psi_4 n (F G T : 'M[C]_(n + n)) kt kb ps ps' th nt nb r :
  transfer_sp_4 pinv up F G T kt kb ps th nt nb = Some r ->
  exists2 r', transfer_sp_4 pinv up F G T kt kb ps' th nt nb = Some r' &
    res_te_inc r' = res_te_inc r /\ res_tm_inc r' = res_tm_inc r.
Proof.
rewrite /transfer_sp_4; case: (meeinv _ _ _) => [M|] //.
by case=> <-; eexists; first by [].
Qed.

Lemma psi_2d s w convs p r infos :
  solve_2d pinv eig up s w convs = Some (r, infos) ->
  exists r', [/\ solve_2d pinv eig up (with_psi s p) w convs = Some (r', infos),
    res_te_inc r' = res_te_inc r & res_tm_inc r' = res_tm_inc r].
Proof.
rewrite /solve_2d /=; case: (layers_of _ _) => [ls|] //; rewrite /rcwa_2d.
rewrite -/(kx_tiled (with_psi s p) w) -/(ky_tiled (with_psi s p) w).
case: (transfer_sp_1 _ _ _ _ _) => [[[[[[[kt kb] c] s'] F] G] T]|] //.
case: (stack_with _ _ _) => [[[[F' G'] T'] is']|] //.
case e4: (transfer_sp_4 _ _ _ _ _ _ _ _ _ _ _) => [r'|] // [<- <-].
by have [r2 -> [h1 h2]] := psi_4 p e4; exists r2.
Qed.

Lemma psi_conical s w convs p r infos :
  solve_1d_conical pinv eig up s w convs = Some (r, infos) ->
  exists r', [/\ solve_1d_conical pinv eig up (with_psi s p) w convs = Some (r', infos),
    res_te_inc r' = res_te_inc r & res_tm_inc r' = res_tm_inc r].
Proof.
rewrite /solve_1d_conical /=; case: ifP => // _; case: (layers_of _ _) => [ls|] //; rewrite /rcwa_conical.
case: (transfer_sp_1 _ _ _ _ _) => [[[[[[[kt kb] c] s'] F] G] T]|] //.
case: (stack_with _ _ _) => [[[[F' G'] T'] is']|] //.
case e4: (transfer_sp_4 _ _ _ _ _ _ _ _ _ _ _) => [r'|] // [<- <-].
by have [r2 -> [h1 h2]] := psi_4 p e4; exists r2.
Qed.

Lemma pure_2d s w convs r infos :
  solve_2d pinv eig up s w convs = Some (r, infos) ->
  (psi s = RtoC (PI / 2) -> res r = res_te_inc r) /\ (psi s = RtoC 0 -> res r = res_tm_inc r).
Proof.
rewrite /solve_2d; case: (layers_of _ _) => [ls|] //; rewrite /rcwa_2d.
case: (transfer_sp_1 _ _ _ _ _) => [[[[[[[kt kb] c] s'] F] G] T]|] //.
case: (stack_with _ _ _) => [[[[F' G'] T'] is']|] //.
case e4: (transfer_sp_4 _ _ _ _ _ _ _ _ _ _ _) => [r'|] // [<- _].
exact: pure_4 e4.
Qed.

Lemma pure_conical s w convs r infos :
  solve_1d_conical pinv eig up s w convs = Some (r, infos) ->
  (psi s = RtoC (PI / 2) -> res r = res_te_inc r) /\ (psi s = RtoC 0 -> res r = res_tm_inc r).
Proof.
rewrite /solve_1d_conical; case: ifP => // _; case: (layers_of _ _) => [ls|] //; rewrite /rcwa_conical.
case: (transfer_sp_1 _ _ _ _ _) => [[[[[[[kt kb] c] s'] F] G] T]|] //.
case: (stack_with _ _ _) => [[[[F' G'] T'] is']|] //.
case e4: (transfer_sp_4 _ _ _ _ _ _ _ _ _ _ _) => [r'|] // [<- _].
exact: pure_4 e4.
Qed.
End Super.
