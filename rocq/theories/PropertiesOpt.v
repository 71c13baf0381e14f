(** Properties C94 to C96: gradients and the optimisers. *)
From Coq Require Import Reals Lra FunctionalExtensionality.
From mathcomp Require Import all_ssreflect ssralg.
From Coquelicot Require Import Complex.
From Verif Require Import Cplx ModelOpt SpecOpt ProofOpt.

Set Implicit Arguments.
Unset Strict Implicit.
Unset Printing Implicit Defensive.
Local Open Scope ring_scope.
Import GRing.Theory.

(** * C94: [grad] returns the gradient of the loss and leaves the object as it was. *)

(** PyTorch: the first call returns the gradient and keeps all values. *)
Theorem C94_grad_first (A : eqType) (L : (A -> nat -> C) -> R) ag :
  (forall p a, is_torch_gradient L p a (ag p a)) -> forall pois (o : tobj A) a, a \in pois -> t_buf o a = None ->
  t_val (t_grad ag pois o).1 = t_val o /\ exists2 g, (t_grad ag pois o).2 a = Some g & is_torch_gradient L (t_val o) a g.
Proof. by move=> hL pois o a ha hb; split=> //; exists (ag (t_val o) a); rewrite ?t_grad_buf ?hb. Qed.
Print Assumptions C94_grad_first.

(** The call number r + 1 returns r + 1 times the gradient. *)
Theorem C94_grad_repeat (A : eqType) ag pois (o : tobj A) r a : a \in pois -> t_buf o a = None ->
  let o' := iter r (fun x => (t_grad ag pois x).1) o in
  t_val o' = t_val o /\ (t_grad ag pois o').2 a = Some (fun k => r.+1%:R * ag (t_val o) a k).
Proof. exact (@t_grad_iter A ag pois o r a). Qed.
Print Assumptions C94_grad_repeat.

(** Calls for other parameters count too: a parameter asked for once takes part in every later call. *)
Theorem C94_grad_others (A : eqType) ag pois (calls : seq (seq A)) (o : tobj A) a : a \in pois -> t_buf o a = None ->
  let o' := foldl (fun x q => (t_grad ag q x).1) (t_grad ag pois o).1 calls in
  t_val o' = t_val o /\ (t_grad ag pois o').2 a = Some (fun k => (size calls).+2%:R * ag (t_val o) a k).
Proof. exact (@t_grad_calls A ag pois calls o a). Qed.
Print Assumptions C94_grad_others.

(** A call after [fit] returns the gradient at the fitted values plus the gradient one step earlier. *)
Theorem C94_grad_after_fit (A : eqType) ag (S : Type) step pois (s : S) r (o : tobj A) a : a \in pois ->
  let fitted k := t_val (t_fit ag step pois s k o).1 in
  (t_grad ag pois (t_fit ag step pois s r.+1 o).1).2 a = Some (fun k => ag (fitted r) a k + ag (fitted r.+1) a k).
Proof.
by move=> ha fitted; rewrite t_grad_buf // t_fit_buf // /fitted /=; have [-> _] := t_fitE ag step pois s r o.
Qed.
Print Assumptions C94_grad_after_fit.

(** So the second call is not the gradient, although differentiation is exact and nothing has changed in between. *)
Theorem C94_grad_refuted : exists (A : eqType) (L : (A -> nat -> C) -> R) ag pois (o : tobj A) a g,
  [/\ forall p b, is_torch_gradient L p b (ag p b), a \in pois, t_buf o a = None
    & (t_grad ag pois (t_grad ag pois o).1).2 a = Some g /\ ~ is_torch_gradient L (t_val o) a g].
Proof.
pose p1 : values [eqType of unit] := fun _ _ => 1.
pose o := TObj p1 (fun _ => None) (fun _ => false).
exists [eqType of unit], (quad 1 1), (quad_grad 1 1), [:: tt], o, tt, (fun k => 2%:R * quad_grad 1 1 p1 tt k).
split=> //; first by move=> p b; apply: quad_torch.
split; first exact (t_grad_iter (quad_grad 1 1) (o := o) 1 (mem_head tt [::]) erefl).2.
move=> h; have h1 := slope_of (1 : C) (h 0%N); have h2 := slope_of (1 : C) (quad_torch 1 1 (t_val o) tt 0%N).
have := uniqueness_limite _ _ _ _ h1 h2.
rewrite /= /quad_grad /p1 /= /Re /Im /GRing.add /GRing.mul /GRing.one /=; lra.
Qed.
Print Assumptions C94_grad_refuted.

(** JAX: any number of calls return the gradient and leave the object as it was, when no call raises and the setters accept
    the values the object holds. *)
Theorem C94_jax_grad (A : eqType) (L : (A -> nat -> C) -> R) vg tracer store pois (o : A -> nat -> C) g r :
  (forall p g, vg p = Some g -> forall a, is_jax_gradient L p a (g a)) ->
  (forall a, a \in pois -> store a (o a) = Some (o a)) -> vg o = Some g ->
  let o' := iter r (fun x => (j_grad vg tracer store pois x).1) o in
  (j_grad vg tracer store pois o').1 = o /\
  exists2 d, (j_grad vg tracer store pois o').2 = Some d & forall a, a \in pois -> exists2 h, d a = Some h & is_jax_gradient L o a h.
Proof.
move=> hL hs hg o'; have -> : o' = o.
  by rewrite /o' {o'}; elim: r => [//|r IH]; rewrite iterS IH (j_gradE tracer hs hg).
rewrite (j_gradE tracer hs hg); split=> //; exists (fun a => if a \in pois then Some (g a) else None) => // a ha.
by exists (g a); [rewrite ha|exact (hL _ _ hg a)].
Qed.
Print Assumptions C94_jax_grad.

(** A call whose forward function raises leaves the traced values in the object. *)
Theorem C94_jax_raise_refuted : exists (A : eqType) vg tracer store pois (o : A -> nat -> C),
  [/\ forall a v, store a v = Some v, vg o = None & (j_grad vg tracer store pois o).1 <> o].
Proof.
exists [eqType of unit], (fun _ => None), (fun _ _ => 1), (fun _ v => Some v), [:: tt], (fun _ _ => 0); split=> // h.
have := congr1 (fun f : unit -> nat -> C => f tt 0%N) h; rewrite /j_grad /= /override /= => e.
by have := oner_neq0 [ringType of C]; rewrite e eqxx.
Qed.
Print Assumptions C94_jax_raise_refuted.

(** The loss |z|^2 at 1 + 2i, object with empty buffers; JAX with setters that accept every value. *)
Definition quad_obj : tobj [eqType of unit] := TObj (fun _ _ => (1, 2)%coqR) (fun _ => None) (fun _ => false).
Example C94_torch_ex : [/\ forall p a, is_torch_gradient (quad 1 1) p a (quad_grad 1 1 p a), tt \in [:: tt], t_buf quad_obj tt = None
  & quad_grad 1 1 (t_val quad_obj) tt 0%N = (2 * 1 * 1, 2 * 1 * 2)%coqR].
Proof. split=> // p a; exact (quad_torch 1 1 p a). Qed.
Example C94_others_ex : [/\ true \in [:: true], true \notin [:: false]
  & t_buf (TObj (fun (_ : bool) _ => (1, 2)%coqR) (fun _ => None) (fun _ => false)) true = None].
Proof. by []. Qed.
Definition quad_vg (p : unit -> nat -> C) : option (unit -> nat -> C) := Some (fun a k => conj (quad_grad 1 1 p a k)).
Example C94_jax_ex : (forall p g, quad_vg p = Some g -> forall a, is_jax_gradient (quad 1 1) p a (g a)) /\
  exists g, quad_vg (t_val quad_obj) = Some g.
Proof.
split=> [p g [<-] [] k|]; last by eexists; reflexivity.
by have := quad_partials 1 1 p k; case: (quad_grad _ _ _ _ _) => x y; rewrite /Re /Im /= Ropp_involutive.
Qed.

(** * C95: [fit] performs the user's gradient method. *)

(** PyTorch: whatever the buffers held before, [iteration] rounds of the user's method on the arrays of [pois], each with the
    gradient at the current values; the other attributes stay; the returned arrays are those of the object. *)
Theorem C95_torch_fit (A : eqType) ag (S : Type) step pois (s : S) iteration (o : tobj A) :
  let M s p (g : A -> nat -> C) := step s p (fun a => if a \in pois then Some (g a) else None) in
  let p := (gradient_method M ag pois iteration s (t_val o)).2 in
  t_val (t_fit ag step pois s iteration o).1 = p /\
  forall a, (t_fit ag step pois s iteration o).2 a = if a \in pois then Some (p a) else None.
Proof. exact (t_fitE ag step pois s iteration o). Qed.
Print Assumptions C95_torch_fit.

(** JAX: the same with the conjugated JAX gradient, when no call raises and the setters accept the fitted values. *)
Theorem C95_jax_fit (A : eqType) vg tracer store (S : Type) update (G : (A -> nat -> C) -> A -> nat -> C) pois (s : S) iteration o :
  (forall p, exists2 g, vg p = Some g & forall a k, G p a k = conj (g a k)) ->
  let p := (gradient_method update G pois iteration s o).2 in
  (forall a, a \in pois -> store a (p a) = Some (p a)) ->
  j_fit vg tracer store update pois s iteration o = (p, Some (fun a => if a \in pois then Some (p a) else None)).
Proof. by move=> hG p hs; exact (j_fitE tracer hG hs). Qed.
Print Assumptions C95_jax_fit.

(** The two backends end with the same values when they differentiate the same loss and the optimisers do the same. *)
Theorem C95_backends (A : eqType) (ag : (A -> nat -> C) -> A -> nat -> C) vg tracer store (S : Type) step update pois (s : S) iteration (o : tobj A) :
  (forall p, exists2 g, vg p = Some g & forall a k, ag p a k = conj (g a k)) -> (forall a v, store a v = Some v) ->
  (forall s p g, step s p (fun a => if a \in pois then Some (g a) else None) = update s p g) ->
  (j_fit vg tracer store update pois s iteration (t_val o)).1 = t_val (t_fit ag step pois s iteration o).1.
Proof.
move=> hG hs hM; rewrite (j_fitE tracer hG) //.
have [-> _] := t_fitE ag step pois s iteration o; congr (_.2).
rewrite (_ : method_of step pois = update) //.
apply: functional_extensionality => s'; apply: functional_extensionality => p; apply: functional_extensionality => g; exact (hM s' p g).
Qed.
Print Assumptions C95_backends.

(** [fit] twice is one longer [fit] when the optimiser has no memory (PyTorch creates the optimiser anew in each call). *)
Theorem C95_fit_twice (A : eqType) ag step pois k l (o : tobj A) :
  t_val (t_fit ag step pois tt k (t_fit ag step pois tt l o).1).1 = t_val (t_fit ag step pois tt (k + l) o).1.
Proof.
have [-> _] := t_fitE ag step pois tt k (t_fit ag step pois tt l o).1; have [-> _] := t_fitE ag step pois tt l o.
have [-> _] := t_fitE ag step pois tt (k + l) o; rewrite gradient_method_add.
by case: (gradient_method _ _ _ l _ _) => [[] q].
Qed.
Print Assumptions C95_fit_twice.

(** Plain gradient descent on |z|^2 in both backends, with stale buffers. *)
Example C95_ex : exists (step : unit -> (unit -> nat -> C) -> (unit -> option (nat -> C)) -> unit * (unit -> nat -> C)) update,
  [/\ forall p, exists2 g, quad_vg p = Some g & forall a k, quad_grad 1 1 p a k = conj (g a k),
      forall s p g, step s p (fun a => if a \in [:: tt] then Some (g a) else None) = update s p g
    & (gradient_method update (quad_grad 1 1) [:: tt] 1 tt (t_val quad_obj)).2 tt 0%N = (1 - 1 / 4 * 2, 2 - 1 / 4 * 4)%coqR].
Proof.
exists (fun s p b => sgd (1 / 4) s p (fun a => if b a is Some g then g else fun _ => 0)), (sgd (1 / 4)); split.
- move=> p; exists (fun a k => conj (quad_grad 1 1 p a k)) => // a k.
  by case: (quad_grad _ _ _ _ _) => x y; congr pair; rewrite Ropp_involutive.
- move=> s p g; congr (sgd _ _ _ _); apply: functional_extensionality; by case.
- rewrite /= /sgd /quad_grad /=; congr pair; rewrite /= /Re /Im /GRing.add /GRing.mul /GRing.opp /=; field.
Qed.

(** * C96: a small step of the optimiser lowers the loss. *)

(** PyTorch, one iteration of [fit] with plain gradient descent. *)
Theorem C96_torch_descent (A : eqType) (L : (A -> nat -> C) -> R) ag pois dom (o : tobj A) : directional L (t_val o) dom (ag (t_val o)) ->
  (forall e, e \in dom -> e.1 \in pois) -> (forall a k, a \in pois -> (a, k) \notin dom -> ag (t_val o) a k = 0) ->
  (exists2 e, e \in dom & ag (t_val o) e.1 e.2 <> 0) ->
  exists2 t0, (0 < t0)%coqR & forall lr, (0 < lr < t0)%coqR ->
  let step (s : unit) p b := sgd lr s p (fun a : A => if b a is Some g then g else fun _ => 0) in
  (L (t_val (t_fit ag step pois tt 1 o).1) < L (t_val o))%coqR.
Proof.
move=> hL hd hz hn; have [t0 h0 h] := sgd_descends hL hd hz hn; exists t0 => // lr hlr step.
have [-> _] := t_fitE ag step pois tt 1 o.
rewrite (_ : (gradient_method _ _ _ _ _ _).2 = override pois (sgd lr tt (t_val o) (ag (t_val o))).2 (t_val o)); first exact (h lr hlr).
by apply: functional_extensionality => a; rewrite /override /=; case ha: (a \in pois).
Qed.
Print Assumptions C96_torch_descent.

(** JAX, one iteration of [fit] with plain gradient descent: [G] is the gradient, JAX returns its conjugate. *)
Theorem C96_jax_descent (A : eqType) (L : (A -> nat -> C) -> R) vg tracer store (G : (A -> nat -> C) -> A -> nat -> C) pois dom o :
  (forall p, exists2 g, vg p = Some g & forall a k, G p a k = conj (g a k)) -> (forall a v, store a v = Some v) ->
  directional L o dom (G o) ->
  (forall e, e \in dom -> e.1 \in pois) -> (forall a k, a \in pois -> (a, k) \notin dom -> G o a k = 0) ->
  (exists2 e, e \in dom & G o e.1 e.2 <> 0) ->
  exists2 t0, (0 < t0)%coqR & forall lr, (0 < lr < t0)%coqR ->
  (L (j_fit vg tracer store (@sgd A lr) pois tt 1 o).1 < L o)%coqR.
Proof.
move=> hG hs hL hd hz hn; have [t0 h0 h] := sgd_descends hL hd hz hn; exists t0 => // lr hlr.
by rewrite (j_fitE tracer hG) //; exact (h lr hlr).
Qed.
Print Assumptions C96_jax_descent.

(** Rate of change when one entry moves against the PyTorch gradient, and against the conjugate of the JAX gradient. *)
Theorem C96_torch_slope (A : eqType) (L : (A -> nat -> C) -> R) p a g k : is_torch_gradient L p a g ->
  slope_against L p a k (g k) (- (Re (g k) * Re (g k) + Im (g k) * Im (g k)))%coqR.
Proof. by move=> h; exact (slope_of (g k) (h k)). Qed.
Print Assumptions C96_torch_slope.
Theorem C96_jax_slope (A : eqType) (L : (A -> nat -> C) -> R) p a g k : is_jax_gradient L p a g ->
  slope_against L p a k (conj (g k)) (- (Re (g k) * Re (g k) + Im (g k) * Im (g k)))%coqR.
Proof.
move=> h; have := slope_of (conj (g k)) (h k); case: (g k) => x y; rewrite /Re /Im /=.
by rewrite (_ : - y * - y = y * y)%coqR; [|ring].
Qed.
Print Assumptions C96_jax_slope.

(** The array returned by JAX [grad] is not conjugated: moving against it changes the loss at the rate - Re(g)^2 + Im(g)^2. *)
Theorem C96_jax_grad_slope (A : eqType) (L : (A -> nat -> C) -> R) p a g k : is_jax_gradient L p a g ->
  slope_against L p a k (g k) (Im (g k) * Im (g k) - Re (g k) * Re (g k))%coqR.
Proof.
move=> h; have := slope_of (g k) (h k); case: (g k) => x y; rewrite /Re /Im /=.
by rewrite (_ : - (x * x + - y * y) = y * y - x * x)%coqR; [|ring].
Qed.
Print Assumptions C96_jax_grad_slope.

(** So a step against the returned array can raise the loss: Im(z)^2 at z = i. *)
Theorem C96_jax_grad_refuted : exists (A : eqType) (L : (A -> nat -> C) -> R) vg tracer store pois o a g l,
  [/\ forall p b, exists2 h, vg p = Some h & is_jax_gradient L p b (h b), a \in pois,
      exists2 d, (j_grad vg tracer store pois o).2 = Some d & d a = Some g, (0 < l)%coqR & slope_against L o a 0%N (g 0%N) l].
Proof.
pose vg p : option (values [eqType of unit]) := Some (fun a k => conj (quad_grad 0 1 p a k)).
have hv p b : is_jax_gradient (quad 0 1) p b (fun k => conj (quad_grad 0 1 p b k)).
  by case: b => k; have := quad_partials 0 1 p k; case: (quad_grad _ _ _ _ _) => x y; rewrite /Re /Im /= Ropp_involutive.
pose o : values [eqType of unit] := fun _ _ => ci.
exists [eqType of unit], (quad 0 1), vg, o, (fun _ v => Some v), [:: tt], o, tt, (fun k => conj (quad_grad 0 1 o tt k)), 4%coqR.
split=> //; [by move=> p b; eexists; [reflexivity|exact (hv p b)]| |lra|].
- by rewrite (j_gradE _ (vg := vg) (g := fun a k => conj (quad_grad 0 1 o a k))) //; eexists; reflexivity.
- have := C96_jax_grad_slope 0%N (hv o tt); rewrite /quad_grad /o /ci /= /Re /Im /=.
  by rewrite (_ : (- (2 * 1 * 1) * - (2 * 1 * 1) - 2 * 0 * 0 * (2 * 0 * 0)) = 4)%coqR; [|ring].
Qed.
Print Assumptions C96_jax_grad_refuted.

Example C96_ex : [/\ directional (quad 1 1) (t_val quad_obj) [:: (tt, 0%N)] (quad_grad 1 1 (t_val quad_obj)),
  forall a k, a \in [:: tt] -> (a, k) \notin [:: (tt, 0%N)] -> quad_grad 1 1 (t_val quad_obj) a k = 0
  & exists2 e, e \in [:: (tt, 0%N)] & quad_grad 1 1 (t_val quad_obj) e.1 e.2 <> 0].
Proof.
split; [exact (quad_directional 1 1 _)|by move=> [] [|k]|].
exists (tt, 0%N) => //= h; have := congr1 Re h; rewrite /quad_grad /= /Re /=; lra.
Qed.
