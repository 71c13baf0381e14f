(** Composition laws of the layer loop, common to the three solvers:
    right-invariance, invisibility of zero-thickness layers, merging of equal layers. *)
From Coq Require Import Reals Lra Psatz.
From mathcomp Require Import all_ssreflect ssralg matrix mxalgebra.
From Coquelicot Require Import Complex.
From Verif Require Import Cplx Mx Spec ModelTM SpecSolve ProofFlux ProofEnergy1D ProofEnergy2D ProofFilm.

Set Implicit Arguments.
Unset Strict Implicit.
Unset Printing Implicit Defensive.
Local Open Scope ring_scope.
Import GRing.Theory.

Section Generic.
Variable pinv : forall n, 'M[C]_n -> 'M[C]_n.
Variable m : nat.
Notation mat := 'M[C]_m.

(** One layer without the bookkeeping needed for field calculation. *)
Definition gstep (wvx : option (mat * mat * mat)) (st : mat * mat * mat) : option (mat * mat * mat) :=
  if wvx is Some (W, V, X) then
    if layer_update pinv false W V X st.1.1 st.1.2 st.2 is Some (F', G', T', _, _) then Some (F', G', T') else None
  else None.
Arguments gstep : simpl never.

Definition gstack (ls : seq (option (mat * mat * mat))) (st : mat * mat * mat) := stack_with gstep ls st.

Lemma stack_with_cat (L S : Type) (step : L -> S -> option S) (l1 l2 : seq L) st :
  stack_with step (l1 ++ l2) st = if stack_with step l2 st is Some st' then stack_with step l1 st' else None.
Proof.
elim: l1 => [|l l1 IH] /=; first by case: (stack_with step l2 st).
by rewrite IH; case: (stack_with step l2 st).
Qed.

(** Two loop states that describe the same half space: they differ by a change of basis on the right. *)
Definition rel (a b : mat * mat * mat) : Prop :=
  exists2 P : mat, P \in unitmx &
    [/\ b.1.1 = a.1.1 *m P, b.1.2 = a.1.2 *m P & b.2 = a.2 *m P].

Lemma rel_refl a : rel a a.
Proof. by exists 1%:M; rewrite ?unitmx1 // !mulmx1. Qed.
Lemma rel_sym a b : rel a b -> rel b a.
Proof.
move=> [P uP [e1 e2 e3]]; exists (invmx P); first by rewrite unitmx_inv.
by rewrite e1 e2 e3 !mulmxK.
Qed.

Lemma layer_update_rel (W V X F G T P : mat) : P \in unitmx ->
  layer_update pinv false W V X (F *m P) (G *m P) (T *m P) =
  if layer_update pinv false W V X F G T is Some (F', G', T', Ai, B)
  then Some (F', G', T', invmx P *m Ai, B *m P) else None.
Proof.
move=> uP; rewrite /layer_update.
case hW: (meeinv pinv false W) => [Wi|] //; case hV: (meeinv pinv false V) => [Vi|] //.
rewrite !mulmxA -mulmxDl -mulmxBl !scalemxAl.
set A := half *: (Wi *m F + Vi *m G); set B := half *: (Wi *m F - Vi *m G).
rewrite /meeinv unitmx_mul uP andbT; case: ifP => // uA.
have -> : invmx (A *m P) = invmx P *m invmx A.
  by apply: inv_eq; rewrite mulmxA mulmxK // mulmxV.
rewrite -!mulmxA ![P *m (invmx P *m _)]mulKVmx // !mulmxA.
Qed.

Lemma gstep_rel wvx a b : rel a b -> gstep wvx b = gstep wvx a.
Proof.
case: a b => [[F G] T] [[F2 G2] T2] [P uP /= [-> -> ->]]; rewrite /gstep.
case: wvx => [[[W V] X]|] //=; rewrite layer_update_rel //.
by case: (layer_update _ _ _ _ _ _ _ _) => [[[[[? ?] ?] ?] ?]|].
Qed.

Definition orel (a b : option (mat * mat * mat)) : Prop :=
  match a, b with Some x, Some y => rel x y | None, None => True | _, _ => False end.

Lemma gstack_rel ls a b : rel a b -> orel (gstack ls a) (gstack ls b).
Proof.
rewrite /gstack; elim: ls => [|l ls IH] //= h; have := IH h.
case: (stack_with gstep ls a) => [x|]; case: (stack_with gstep ls b) => [y|] //= r.
by rewrite (gstep_rel l r); case: (gstep l x) => //= z; apply: rel_refl.
Qed.

(** A layer with X = 1 (zero thickness) is a change of basis. *)
Lemma gstep_zero (W V : mat) st st' : gstep (Some (W, V, 1%:M)) st = Some st' -> rel st st'.
Proof.
case: st st' => [[F G] T] [[F2 G2] T2]; rewrite /gstep /=.
case hu: (layer_update _ _ _ _ _ _ _ _) => [[[[[F1 G1] T1] Ai] B]|] // [<- <- <-].
have [[uW uV uA eA eB] [-> -> ->]] := layer_update_some hu.
exists Ai; first by rewrite eA unitmx_inv.
split=> /=; rewrite ?mulmx1 ?mul1mx // eB.
- by have := update_F 1%:M uW uA eA; rewrite !mulmx1 => ->.
- by have := update_G 1%:M uV uA eA; rewrite !mulmx1 => ->.
Qed.

(** Two equal layers on top of each other are one layer with the product of the propagators. *)
Lemma gstep_merge (W V X1 X2 : mat) st : X1 *m X2 = X2 *m X1 ->
  (if gstep (Some (W, V, X2)) st is Some st' then gstep (Some (W, V, X1)) st' else None)
  = gstep (Some (W, V, X1 *m X2)) st.
Proof.
case: st => [[F G] T] hc; rewrite /gstep /=.
rewrite {1 3}/layer_update.
case hW: (meeinv pinv false W) => [Wi|] //; case hV: (meeinv pinv false V) => [Vi|] //.
case hA: (meeinv pinv false (_ *: _)) => [Ai|] //=.
have [uW eW] := meeinv_some hW; have [uV eV] := meeinv_some hV.
set B := half *: (Wi *m F - Vi *m G); set Y := X2 *m B *m Ai *m X2.
rewrite /layer_update hW hV eW eV !mulKmx //.
have e1 : half *: ((1%:M + Y) + (1%:M - Y)) = 1%:M.
  by rewrite addrACA subrr addr0 scalerDr halfK.
have e2 : half *: ((1%:M + Y) - (1%:M - Y)) = Y.
  by rewrite opprB addrC addrA subrK scalerDr halfK.
rewrite e1 e2 /meeinv unitmx1 invmx1 !mulmx1 /Y.
have -> : X1 *m (X2 *m B *m Ai *m X2) *m X1 = X1 *m X2 *m B *m Ai *m (X1 *m X2).
  by rewrite {2}hc !mulmxA.
by rewrite -!mulmxA -hc !mulmxA.
Qed.

(** Left factors of T go through the stack. *)
Lemma gstep_left wvx (F G T L : mat) :
  gstep wvx (F, G, L *m T) = if gstep wvx (F, G, T) is Some (F', G', T') then Some (F', G', L *m T') else None.
Proof.
rewrite /gstep; case: wvx => [[[W V] X]|] //=; rewrite /layer_update.
case: (meeinv pinv false W) => [Wi|] //; case: (meeinv pinv false V) => [Vi|] //.
case: (meeinv pinv false _) => [Ai|] //=.
by rewrite !mulmxA.
Qed.

Lemma gstack_left ls (F G T L : mat) :
  gstack ls (F, G, L *m T) =
  if gstack ls (F, G, T) is Some (F', G', T') then Some (F', G', L *m T') else None.
Proof.
rewrite /gstack; elim: ls => [|l ls IH] //=; rewrite IH.
by case: (stack_with gstep ls (F, G, T)) => [[[F1 G1] T1]|] //; rewrite gstep_left.
Qed.

(** Removing a zero-thickness layer, anywhere. *)
Lemma gstack_zero l1 l2 (W V : mat) st st' :
  gstack (l1 ++ Some (W, V, 1%:M) :: l2) st = Some st' ->
  exists2 st2, gstack (l1 ++ l2) st = Some st2 & rel st2 st'.
Proof.
rewrite /gstack !stack_with_cat /=.
case: (stack_with gstep l2 st) => [a|] //.
case hz: (gstep (Some (W, V, 1%:M)) a) => [b|] // h.
have := gstack_rel l1 (gstep_zero hz); rewrite /gstack h.
by case: (stack_with gstep l1 a) => [c|] //= r; exists c.
Qed.

Lemma gstack_merge l1 l2 (W V X1 X2 : mat) st : X1 *m X2 = X2 *m X1 ->
  gstack (l1 ++ Some (W, V, X1) :: Some (W, V, X2) :: l2) st = gstack (l1 ++ Some (W, V, X1 *m X2) :: l2) st.
Proof.
move=> hc; rewrite /gstack !stack_with_cat /=.
case: (stack_with gstep l2 st) => [a|] //.
by rewrite -(gstep_merge _ _ _ hc); case: (gstep (Some (W, V, X2)) a).
Qed.

End Generic.

(** ** The three loops are instances *)
Section Instances.
Variable pinv : forall n, 'M[C]_n -> 'M[C]_n.
Variable eig : forall n, 'M[C]_n -> 'rV[C]_n * 'M[C]_n.

Definition modes_1d pol n kx k0 (l : layer n) : option ('M[C]_n * 'M[C]_n * 'M[C]_n) :=
  if transfer_1d_2 pinv eig false pol kx (epx l) (epy l) (epzi l) is Some (W, V, q)
  then Some (W, V, Xmat k0 q (thick l)) else None.

Definition modes_2d n kxt kyt (c s : nat -> C) k0 (l : layer n) : option ('M[C]_(n + n) * 'M[C]_(n + n) * 'M[C]_(n + n)) :=
  if transfer_2d_2 pinv eig false kxt kyt (epx l) (epy l) (epzi l) is Some (W, V, q)
  then Some ((big_2d W V c s).1, (big_2d W V c s).2, big_X k0 q (thick l)) else None.

Definition modes_conical n kxt kyt (c s : nat -> C) k0 (l : layer n)
  : option ('M[C]_(n + n) * 'M[C]_(n + n) * 'M[C]_(n + n)) :=
  if transfer_1d_conical_2 pinv eig false kxt kyt (epx l) (epy l) (epzi l) is Some (W, V, q)
  then Some ((conical_big W V c s).1, (conical_big W V c s).2, big_X k0 q (thick l)) else None.

Definition proj (M I : Type) (o : option (M * M * M * I)) : option (M * M * M) :=
  if o is Some (F, G, T, _) then Some (F, G, T) else None.

Lemma proj_stack (L M I : Type) (step : L -> M * M * M * I -> option (M * M * M * I))
  (g : L -> M * M * M -> option (M * M * M)) ls st :
  (forall l st, proj (step l st) = g l st.1) ->
  proj (stack_with step ls st) = stack_with g ls st.1.
Proof.
move=> h; elim: ls => [|l ls IH] /=; first by case: st => [[[F G] T] i].
by rewrite -IH; case: (stack_with step ls st) => [[[[F G] T] i]|] //; rewrite h.
Qed.

Lemma stack_with_map (L L' S : Type) (step : L' -> S -> option S) (f : L -> L') ls st :
  stack_with step (map f ls) st = stack_with (fun l => step (f l)) ls st.
Proof. by elim: ls => [|l ls IH] //=; rewrite IH. Qed.

Lemma stack_1d pol n kx k0 (ls : seq (layer n)) F G T is0 :
  proj (stack_with (step_1d pinv eig false pol kx k0) ls (F, G, T, is0)) =
  gstack pinv (map (modes_1d pol kx k0) ls) (F, G, T).
Proof.
rewrite /gstack stack_with_map.
apply: (proj_stack (g := fun l => gstep pinv (modes_1d pol kx k0 l))) => l [[[F1 G1] T1] i1] /=.
rewrite /modes_1d; case: (transfer_1d_2 _ _ _ _ _ _ _ _) => [[[W V] q]|] //=.
rewrite /transfer_1d_3 /gstep /=.
by case: (layer_update _ _ _ _ _ _ _ _) => [[[[[? ?] ?] ?] ?]|].
Qed.

Lemma stack_2d n kxt kyt c s k0 (ls : seq (layer n)) F G T is0 :
  proj (stack_with (step_2d pinv eig false kxt kyt c s k0) ls (F, G, T, is0)) =
  gstack pinv (map (modes_2d kxt kyt c s k0) ls) (F, G, T).
Proof.
rewrite /gstack stack_with_map.
apply: (proj_stack (g := fun l => gstep pinv (modes_2d kxt kyt c s k0 l))) => l [[[F1 G1] T1] i1] /=.
rewrite /modes_2d; case: (transfer_2d_2 _ _ _ _ _ _ _ _) => [[[W V] q]|] //=.
rewrite /transfer_2d_3 /gstep /=.
by case: (layer_update _ _ _ _ _ _ _ _) => [[[[[? ?] ?] ?] ?]|].
Qed.

Lemma stack_conical n kxt kyt c s k0 (ls : seq (layer n)) F G T is0 :
  proj (stack_with (step_conical pinv eig false kxt kyt c s k0) ls (F, G, T, is0)) =
  gstack pinv (map (modes_conical kxt kyt c s k0) ls) (F, G, T).
Proof.
rewrite /gstack stack_with_map.
apply: (proj_stack (g := fun l => gstep pinv (modes_conical kxt kyt c s k0 l))) => l [[[F1 G1] T1] i1] /=.
rewrite /modes_conical; case: (transfer_1d_conical_2 _ _ _ _ _ _ _ _) => [[[W V] q]|] //=.
rewrite /transfer_1d_conical_3 /gstep /=.
by case: (layer_update _ _ _ _ _ _ _ _) => [[[[[? ?] ?] ?] ?]|].
Qed.
End Instances.
