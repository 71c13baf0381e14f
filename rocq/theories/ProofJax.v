(** The JAX solver gives the results of the NumPy solver wherever the latter does not raise. *)
From Coq Require Import Reals ZArith Lra.
From mathcomp Require Import all_ssreflect ssralg ssrint matrix mxalgebra.
From Coquelicot Require Import Complex.
From Verif Require Import Cplx Mx Spec SpecSolve SpecLayer ModelTM ModelFourier ModelVec ModelField ModelState ModelTree ModelJax
  SpecState SpecJax ProofEnergy1D ProofPinv ProofConv ProofFourier ProofEnd2 ProofInvert.

Set Implicit Arguments.
Unset Strict Implicit.
Unset Printing Implicit Defensive.
Local Open Scope ring_scope.
Import GRing.Theory.

(** ** Arrays *)
Lemma j_idxE len z k : pyidx len z = Some k -> j_idx len z = k.
Proof.
case: z => m /=; case: ifP => // h [<-] //.
by apply/minn_idPl; move: h; case: len.
Qed.

Lemma fancy_range n len f idx g : fancy n len f idx = Some g ->
  forall i j, (i < n)%N -> (j < n)%N -> g i j = f (j_idx len (idx i j)).
Proof.
rewrite /fancy; case: ifP => // /allP h [<-] i j hi hj.
have hi' : i \in iota 0 n by rewrite mem_iota.
have hj' : j \in iota 0 n by rewrite mem_iota.
have := allP (h i hi') j hj'.
by case e: (pyidx _ _) => [k|] // _; rewrite (j_idxE e).
Qed.

Lemma batch_range (T : Type) (d : T) m f g : batch d m f = Some g -> forall a, (a < m)%N -> f a = Some (g a).
Proof.
rewrite /batch; case: ifP => // /allP h [<-] a ha.
by have := h a; rewrite mem_iota /= add0n ha => /(_ isT); case: (f a).
Qed.

Lemma mat_ext n f g : (forall i j, (i < n)%N -> (j < n)%N -> f i j = g i j) -> mat n f = mat n g.
Proof. by move=> h; apply/matrixP => i j; rewrite !mxE h. Qed.

Section Broken.
Variable broken : forall n, 'M[C]_n -> 'M[C]_n.

Lemma jnp_invE n (x y : 'M[C]_n) : np_inv x = Some y -> jnp_inv broken x = y.
Proof. by rewrite /np_inv /jnp_inv; case: ifP => // _ [<-]. Qed.

Lemma arr_invE n f g : arr_inv n f = Some g -> g = ent (jnp_inv broken (mat n f)).
Proof.
rewrite /arr_inv; case e: (np_inv (mat n f)) => [A|] // [<-]; by rewrite (jnp_invE e).
Qed.

(** A transform reads only the first [n] entries of a row. *)
Definition reads (t : transform) (n : nat) : Prop :=
  forall f g, (forall a, (a < n)%N -> f a = g a) -> t_coef t f =1 t_coef t g.

Lemma four2dE tx ty nx ny cell cx cy fx fy M : reads tx nx ->
  four2d tx ty nx ny cell cx cy fx fy = Some M -> j_four2d broken tx ty nx ny cell cx cy fx fy = Some M.
Proof.
move=> hx; rewrite /four2d /j_four2d; case: ifP => // _.
pose cell1 := fun a b => if cy then cell b a else (cell b a)^-1.
case e1: (batch _ nx _) => [c1|] //.
have h1 a : (a < nx)%N -> forall i j, (i < fy.*2.+1)%N -> (j < fy.*2.+1)%N ->
   c1 a i j = t_coef ty (cell1 a) (j_idx (t_len ty) (circulant i j + t_shift ty)).
  move=> ha i j hi hj.
  have hb := batch_range e1 ha.
  by rewrite (fancy_range hb hi hj).
pose g1 := fun a r c => t_coef ty (cell1 a) (j_idx (t_len ty) (circulant r c + t_shift ty)).
case e2: (if cx (+) cy then _ else _) => [c2|] //.
have h2 a : (a < nx)%N -> forall i j, (i < fy.*2.+1)%N -> (j < fy.*2.+1)%N ->
   c2 a i j = (if cx (+) cy then ent (jnp_inv broken (mat fy.*2.+1 (g1 a))) else g1 a) i j.
  move=> ha i j hi hj; move: e2; case: ifP => _ e2.
    have e := batch_range e2 ha; rewrite (arr_invE e); congr (ent (jnp_inv broken _) _ _).
    by apply: mat_ext => i' j' hi' hj'; exact: h1.
  by case: e2 => <-; exact: h1.
case e3: (batch _ _ _) => [c3|] //.
set out := mat _ _; set out' := mat _ _.
have -> : out' = out.
  apply: mat_ext => i j hi hj /=.
  have fx0 : (0 < fx.*2.+1)%N by [].
  have hi' : (i %/ fx.*2.+1 < fy.*2.+1)%N by rewrite ltn_divLR // mulnC mulnC.
  have hj' : (j %/ fx.*2.+1 < fy.*2.+1)%N by rewrite ltn_divLR // mulnC mulnC.
  have hp : (i %/ fx.*2.+1 * fy.*2.+1 + j %/ fx.*2.+1 < fy.*2.+1 * fy.*2.+1)%N.
    apply: (@leq_trans ((i %/ fx.*2.+1).+1 * fy.*2.+1)%N); first by rewrite mulSn addnC ltn_add2r.
    by rewrite leq_mul2r hi' orbT.
  rewrite (fancy_range (batch_range e3 hp)) ?ltn_mod //.
  apply: hx => a ha; symmetry; apply: (h2 _ ha); last by rewrite ltn_mod.
  by rewrite ltn_divLR.
by case: ifP => _ h; [exact: h | rewrite (jnp_invE h)].
Qed.

Lemma cfs_reads x fto : reads (cfs_transform x fto) (size x).
Proof.
move=> f g h k; rewrite /= /cfs; case: ifP => _.
  by congr (_ / _); apply: eq_bigr => j _; rewrite h.
congr (_ / _); apply: eq_bigr => j _; congr ((_ - _) * _); last exact: h.
by apply: h; rewrite ltn_mod; case: j => j /=; case: (size x).
Qed.

Lemma fft_reads n : reads (fft_transform n) n.
Proof. by move=> f g h k; rewrite /= /fft; apply: eq_bigr => j _; rewrite h. Qed.

Lemma cfs2dE cell x y cx cy fx fy M : cfs2d cell x y cx cy fx fy = Some M -> j_cfs2d broken cell x y cx cy fx fy = Some M.
Proof. by apply: four2dE; exact: cfs_reads. Qed.

Lemma dfs2dE ny nx cell cx cy fx fy M : dfs2d ny nx cell cx cy fx fy = Some M -> j_dfs2d broken ny nx cell cx cy fx fy = Some M.
Proof. by apply: four2dE; exact: fft_reads. Qed.

Variable pinv : forall n, 'M[C]_n -> 'M[C]_n.

Lemma j_meeinvE up n (x y : 'M[C]_n) : meeinv pinv up x = Some y -> j_meeinv pinv broken up x = y.
Proof. by rewrite /meeinv /j_meeinv /jnp_inv; case: up => [[]|] //; case: ifP => // _ []. Qed.

Lemma three_convsE up n (f g : bool -> bool -> option 'M[C]_n) c :
  (forall a b M, f a b = Some M -> g a b = Some M) ->
  three_convs pinv up f = Some c -> j_three_convs pinv broken up g = Some c.
Proof.
move=> h; rewrite /three_convs /j_three_convs.
case e1: (f true true) => [ez|] //; case e2: (f true false) => [ey|] //; case e3: (f false true) => [ex|] //.
by case e: (meeinv pinv up ez) => [z|] // [<-]; rewrite (h _ _ _ e1) (h _ _ _ e2) (h _ _ _ e3) (j_meeinvE e).
Qed.

Lemma conv_continuousE up fx fy l c : conv_continuous pinv up fx fy l = Some c -> j_conv_continuous pinv broken up fx fy l = Some c.
Proof.
rewrite /conv_continuous /j_conv_continuous; case: (cell_compression l) => [[nc x] y].
by apply: three_convsE => a b M; exact: cfs2dE.
Qed.

Lemma conv_vectorE up fx fy v c : conv_vector pinv up fx fy v = Some c -> j_conv_vector pinv broken up fx fy v = Some c.
Proof.
case: v => [[l x] y]; rewrite /conv_vector /j_conv_vector.
by apply: three_convsE => a b M; exact: cfs2dE.
Qed.

Lemma conv_discreteE en fx fy l c : conv_discrete pinv false en fx fy l = Some c -> j_conv_discrete pinv broken en fx fy l = Some c.
Proof.
rewrite /conv_discrete /j_conv_discrete.
by apply: three_convsE => a b M; exact: dfs2dE.
Qed.

Lemma conv_discrete_pinv en fx fy l u c : pinv_oracle pinv -> (0 < rows l)%N -> (0 < cols l)%N -> nrm2 u = 1%coqR ->
  all_px (fun n => 0 < Re (u * n ^+ 2)%R)%coqR l ->
  conv_discrete pinv true en fx fy l = Some c -> j_conv_discrete pinv broken en fx fy l = Some c.
Proof.
move=> hp hr hc hu h e; apply: conv_discreteE.
have [ex [ey [ez [e1 _ _ _]]]] := @discrete_defined pinv en fx fy l u hr hc hu h.
rewrite e1 -e; move: e1; rewrite /conv_discrete /three_convs.
case: (dfs2d _ _ _ true true _ _) => [z|] //; case: (dfs2d _ _ _ true false _ _) => [y|] //.
case: (dfs2d _ _ _ false true _ _) => [x|] //.
by case e2: (meeinv pinv false z) => [zi|] //; rewrite (meeinv_pinv hp e2) => ->.
Qed.

Lemma conv_all_mono (A B : Type) (f g : A -> option B) ls cs :
  (forall l c, List.In l ls -> f l = Some c -> g l = Some c) -> conv_all f ls = Some cs -> conv_all g ls = Some cs.
Proof.
elim: ls cs => [|l ls IH] cs h //=.
case e: (f l) => [c|] //; case e': (conv_all f ls) => [cs'|] // [<-].
rewrite (h l c) //; last by left.
by rewrite (IH cs') // => l' c' hl; apply: h; right.
Qed.

Lemma convs_ofE o fx fy cs : same_inverses pinv o -> convs_of pinv o fx fy = Some cs -> j_convs_of pinv broken o fx fy = Some cs.
Proof.
move=> hs; rewrite /convs_of /j_convs_of.
case em: (o_mtype o) => [[]|] //; last first.
  case ec: (o_cell o) => [|ny nx layers||] //.
  case: ifP => // /negbT; rewrite negb_or => /andP [hy hx].
  case: ifP => [ef|nf]; last first.
    by case: ifP => // _; apply: conv_all_mono => l c _; exact: conv_continuousE.
  apply: conv_all_mono => l c hl.
  case eu: (o_use_pinv o); last exact: conv_discreteE.
  case: hs => [|||[hp hh]]; [by rewrite eu | by rewrite em | by move: ef => /Z.eqb_eq -> |].
  move: hl; rewrite -[map _ _]/(List.map _ _) => /List.in_map_iff [f [<- hf]].
  have [u hu h] := hh _ _ _ _ ec hf.
  by apply: (@conv_discrete_pinv _ _ _ _ u) => //=; rewrite lt0n.
case: (o_cell o) => // ins; case: (period_of o) => [[px py]|] //; case: (vector_layers _ _ _) => [vs|] //.
by apply: conv_all_mono => v c _; exact: conv_vectorE.
Qed.

(** ** Solvers *)
Variable eig : forall n, 'M[C]_n -> 'rV[C]_n * 'M[C]_n.
Variable up : bool.

Notation jinv := (fun n => @j_meeinv pinv broken up n).

Lemma meeinv_j n (x y : 'M[C]_n) : meeinv pinv up x = Some y -> meeinv jinv true x = Some y.
Proof. by move=> h; rewrite /meeinv -(j_meeinvE h). Qed.

Ltac inv1 h := match goal with |- context [meeinv pinv up ?A] =>
  case h: (meeinv pinv up A) => [?|] //; rewrite (meeinv_j h) end.

Lemma update_j m (W V X F G T : 'M[C]_m) r :
  layer_update pinv up W V X F G T = Some r -> layer_update jinv true W V X F G T = Some r.
Proof. by rewrite /layer_update; inv1 h1; inv1 h2; inv1 h3. Qed.

Lemma t22_j n kx ky (ex ey ez : 'M[C]_n) r :
  transfer_2d_2 pinv eig up kx ky ex ey ez = Some r -> transfer_2d_2 jinv eig true kx ky ex ey ez = Some r.
Proof. by rewrite /transfer_2d_2; case: (eig _) => l W; inv1 h1. Qed.

Lemma tc2_j n kx ky (ex ey ez : 'M[C]_n) r :
  transfer_1d_conical_2 pinv eig up kx ky ex ey ez = Some r ->
  transfer_1d_conical_2 jinv eig true kx ky ex ey ez = Some r.
Proof.
by rewrite /transfer_1d_conical_2; case: (eig _) => l W; case: (eig _) => l' W'; inv1 h1; inv1 h2.
Qed.

Lemma s2_j n kx ky c s k0 (l : layer n) st r :
  step_2d pinv eig up kx ky c s k0 l st = Some r -> step_2d jinv eig true kx ky c s k0 l st = Some r.
Proof.
case: st => [[[F G] T] is']; rewrite /step_2d.
case e: (transfer_2d_2 _ _ _ _ _ _ _ _) => [[[W V] q]|] //; rewrite (t22_j e) /transfer_2d_3; case: (big_2d W V c s) => bW bV.
by case u: (layer_update _ _ _ _ _ _ _ _) => [[[[[? ?] ?] ?] ?]|] //; rewrite (update_j u).
Qed.

Lemma sc_j n kx ky c s k0 (l : layer n) st r :
  step_conical pinv eig up kx ky c s k0 l st = Some r -> step_conical jinv eig true kx ky c s k0 l st = Some r.
Proof.
case: st => [[[F G] T] is']; rewrite /step_conical.
case e: (transfer_1d_conical_2 _ _ _ _ _ _ _ _) => [[[W V] q]|] //; rewrite (tc2_j e) /transfer_1d_conical_3; case: (conical_big W V c s) => bW bV.
by case u: (layer_update _ _ _ _ _ _ _ _) => [[[[[? ?] ?] ?] ?]|] //; rewrite (update_j u).
Qed.

Lemma tsp4_j n (F G T : 'M[C]_(n + n)) kt kb ps th nt nb r :
  transfer_sp_4 pinv up F G T kt kb ps th nt nb = Some r -> transfer_sp_4 jinv true F G T kt kb ps th nt nb = Some r.
Proof. by rewrite /transfer_sp_4; inv1 h1. Qed.

Lemma rcwa_2d_j n kx ky k0 ps th nt nb (ls : seq (layer n)) r :
  rcwa_2d pinv eig up kx ky k0 ps th nt nb ls = Some r -> rcwa_2d jinv eig true kx ky k0 ps th nt nb ls = Some r.
Proof.
rewrite /rcwa_2d; case: (transfer_sp_1 _ _ _ _ _) => [[[[[[[kt kb] c] s'] F] G] T]|] //.
case e: (stack_with _ _ _) => [[[[F' G'] T'] is']|] //.
rewrite (stack_mono (@s2_j _ _ _ _ _ _) e).
by case e4: (transfer_sp_4 _ _ _ _ _ _ _ _ _ _ _) => [r'|] //; rewrite (tsp4_j e4).
Qed.

Lemma rcwa_conical_j n kx ky k0 ps th nt nb (ls : seq (layer n)) r :
  rcwa_conical pinv eig up kx ky k0 ps th nt nb ls = Some r -> rcwa_conical jinv eig true kx ky k0 ps th nt nb ls = Some r.
Proof.
rewrite /rcwa_conical; case: (transfer_sp_1 _ _ _ _ _) => [[[[[[[kt kb] c] s'] F] G] T]|] //.
case e: (stack_with _ _ _) => [[[[F' G'] T'] is']|] //.
rewrite (stack_mono (@sc_j _ _ _ _ _ _) e).
by case e4: (transfer_sp_4 _ _ _ _ _ _ _ _ _ _ _) => [r'|] //; rewrite (tsp4_j e4).
Qed.

(** 1D. *)
Lemma pol01 p : reqb p 0 = false -> reqb p 1 = true -> p = 1%coqR.
Proof. by rewrite /reqb; case: (Req_EM_T p 1). Qed.

Lemma j1_1 pol n kx nt nb r : transfer_1d_1 pol n kx nt nb = Some r -> j_transfer_1d_1 pol n kx nt nb = r.
Proof. by rewrite /transfer_1d_1 /j_transfer_1d_1; case: ifP => _; [case | case: ifP => // _ []]. Qed.

Lemma j1_2 pol n kx (ex ey ez : 'M[C]_n) r :
  transfer_1d_2 pinv eig up pol kx ex ey ez = Some r -> j_transfer_1d_2 pinv eig broken up pol kx ex ey ez = r.
Proof.
rewrite /transfer_1d_2 /j_transfer_1d_2; case: ifP => _; first by case: (eig _) => l W [].
case: ifP => // _; case: (eig _) => l W.
by case e: (meeinv pinv up ex) => [Ei|] // [<-]; rewrite (j_meeinvE e).
Qed.

Lemma j1_3 n k0 (W V : 'M[C]_n) q d F G T r :
  transfer_1d_3 pinv up k0 W V q d F G T = Some r -> j_transfer_1d_3 pinv broken up k0 W V q d F G T = r.
Proof.
rewrite /transfer_1d_3 /j_transfer_1d_3 /layer_update.
case e1: (meeinv pinv up W) => [Wi|] //; case e2: (meeinv pinv up V) => [Vi|] //.
rewrite (j_meeinvE e1) (j_meeinvE e2).
by case e3: (meeinv pinv up (half *: (Wi *m F + Vi *m G))) => [Ai|] // [<-]; rewrite (j_meeinvE e3).
Qed.

Lemma j1_4 pol n (F G T : 'M[C]_n) kt kb th nt nb r :
  transfer_1d_4 pinv up pol F G T kt kb th nt nb = Some r -> j_transfer_1d_4 pinv broken up pol F G T kt kb th nt nb = r.
Proof.
rewrite /transfer_1d_4 /j_transfer_1d_4; case: ifP => _.
  by case e: (meeinv _ _ _) => [M|] // [<-]; rewrite (j_meeinvE e).
case: ifP => // _.
by case e: (meeinv _ _ _) => [M|] // [<-]; rewrite (j_meeinvE e).
Qed.

Lemma j1_step pol n kx k0 (l : layer n) st r :
  step_1d pinv eig up pol kx k0 l st = Some r -> j_step_1d pinv eig broken up pol kx k0 l st = r.
Proof.
case: st => [[[F G] T] is']; rewrite /step_1d /j_step_1d.
case e: (transfer_1d_2 _ _ _ _ _ _ _ _) => [[[W V] q]|] //; rewrite (j1_2 e).
by case u: (transfer_1d_3 _ _ _ _ _ _ _ _ _ _) => [[[[[? ?] ?] ?] ?]|] // [<-]; rewrite (j1_3 u).
Qed.

Lemma j1_stack pol n kx k0 (ls : seq (layer n)) st r :
  stack_with (step_1d pinv eig up pol kx k0) ls st = Some r -> foldr (j_step_1d pinv eig broken up pol kx k0) st ls = r.
Proof.
elim: ls r => [|l ls IH] r /=; first by case.
by case e: (stack_with _ _ _) => [s|] //; rewrite (IH _ e) => /j1_step.
Qed.

Lemma rcwa_1d_j pol n kx k0 th nt nb (ls : seq (layer n)) r :
  rcwa_1d pinv eig up pol kx k0 th nt nb ls = Some r -> j_rcwa_1d pinv eig broken up pol kx k0 th nt nb ls = r.
Proof.
rewrite /rcwa_1d /j_rcwa_1d.
case e1: (transfer_1d_1 _ _ _ _ _) => [[[[[kt kb] F] G] T]|] //; rewrite (j1_1 e1).
case e2: (stack_with _ _ _) => [[[[F' G'] T'] is']|] //; rewrite (j1_stack e2).
by case e4: (transfer_1d_4 _ _ _ _ _ _ _ _ _ _ _) => [[r' T1]|] // [<-]; rewrite (j1_4 e4).
Qed.
End Broken.

Lemma layers_ofE n (cs : seq (conv3 n)) ts ls : layers_of cs ts = Some ls -> j_layers_of cs ts = Some ls.
Proof.
move=> h; case: ts h => [|t ts]; first by case: cs => [|[[? ?] ?] ?] /= [<-].
case: cs => [|c0 cs] // h; rewrite /j_layers_of; congr Some.
have [hs hn] := ProofEnd2.layers_of_nth (Layer 0 0 0 0%coqR) c0 h.
have hl : (size (t :: ts) <= size (c0 :: cs))%N.
  elim: (t :: ts) (c0 :: cs) ls h {hs hn} => [|x xs IH] [|[[a b] d] ys] ls //=.
  by case e: (layers_of ys xs) => [l|] // _; exact: (IH _ _ e).
apply: (@eq_from_nth _ (Layer 0 0 0 0%coqR)); rewrite size_mkseq // => i hi.
rewrite nth_mkseq //; have := hn i hi.
have -> : minn i (size (c0 :: cs)).-1 = i by apply/minn_idPl; rewrite -ltnS prednK //; exact: leq_trans hi hl.
by case: (nth c0 _ i) => [[a b] d] ->.
Qed.
