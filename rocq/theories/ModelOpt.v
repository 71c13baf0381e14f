(** Model of the optimisers.
    Sources: /repo/meent/on_torch/optimizer/optimizer.py, /repo/meent/on_jax/optimizer/optimizer.py.
    Automatic differentiation, the user's optimiser ([torch.optim], [optax]) and the user's forward and loss functions are
    oracles.  A parameter of interest ("poi") is an attribute name; its value is a flattened array of complex numbers.
    Simplifications: every attribute that requires a gradient takes part in the loss (otherwise PyTorch leaves its [.grad] as
    it is instead of adding zero); dtype checks of [requires_grad] and of [jax.value_and_grad] are not modelled. *)
From Coq Require Import Reals.
From mathcomp Require Import all_ssreflect ssralg.
From Coquelicot Require Import Complex.
From Verif Require Import Cplx.

Set Implicit Arguments.
Unset Strict Implicit.
Unset Printing Implicit Defensive.
Local Open Scope ring_scope.

Definition tensor := nat -> C.

Section Names.
Variable A : eqType.
Definition values := A -> tensor.

(** Values of [f] on the names of [l], of [g] elsewhere. *)
Definition override (l : seq A) (f g : values) : values := fun a => if a \in l then f a else g a.

(** ** PyTorch *)

(** The attributes of the object: the value of each tensor, its [.grad] buffer and its [requires_grad] flag. *)
Record tobj := TObj { t_val : values; t_buf : A -> option tensor; t_req : A -> bool }.

(** [setattr(getattr(self, poi), 'requires_grad', True)] for each poi (optimizer.py:19, 34). *)
Definition require (pois : seq A) (o : tobj) : tobj :=
  TObj (t_val o) (t_buf o) (fun a => (a \in pois) || t_req o a).

Section Torch.
(** The gradient of loss_fn(forward()) in PyTorch's convention, as a function of all attribute values. *)
Variable ag : values -> values.

(** [loss.backward()] (optimizer.py:22, 41): PyTorch adds the gradient to the buffer of every tensor that requires one. *)
Definition add_to (b : option tensor) (g : tensor) : tensor := if b is Some b' then fun k => b' k + g k else g.
Definition backward (o : tobj) : tobj :=
  TObj (t_val o) (fun a => if t_req o a then Some (add_to (t_buf o a) (ag (t_val o) a)) else t_buf o a) (t_req o).

(** [OptimizerTorch.grad] (optimizer.py:18-25): the new object and the returned dictionary. *)
Definition t_grad (pois : seq A) (o : tobj) : tobj * (A -> option tensor) :=
  let o' := backward (require pois o) in (o', fun a => if a \in pois then t_buf o' a else None).

(** The optimiser: its internal state, and [step], which reads values and buffers and returns new values. *)
Variable S : Type.
Variable step : S -> values -> (A -> option tensor) -> S * values.

(** [optimizer.zero_grad()] sets the buffers of its parameters to None (optimizer.py:37); [optimizer.step()] changes its
    parameters in place (optimizer.py:42). *)
Definition zero_grad (pois : seq A) (o : tobj) : tobj :=
  TObj (t_val o) (fun a => if a \in pois then None else t_buf o a) (t_req o).
Definition opt_step (pois : seq A) (s : S) (o : tobj) : S * tobj :=
  let (s', v) := step s (t_val o) (fun a => if a \in pois then t_buf o a else None) in
  (s', TObj (override pois v (t_val o)) (t_buf o) (t_req o)).

(** The loop of [OptimizerTorch.fit] (optimizer.py:27-45), [iteration] rounds from optimiser state [s]. *)
Fixpoint t_rounds (pois : seq A) (iteration : nat) (so : S * tobj) : S * tobj :=
  if iteration is i.+1 then t_rounds pois i (opt_step pois so.1 (backward (zero_grad pois so.2))) else so.
Definition t_fit (pois : seq A) (s0 : S) (iteration : nat) (o : tobj) : tobj * (A -> option tensor) :=
  let o' := (t_rounds pois iteration (s0, require pois o)).2 in
  (o', fun a => if a \in pois then Some (t_val o' a) else None).

End Torch.

(** ** JAX *)
Section Jax.
(** [jax.value_and_grad] of the loss as a function of the attribute values, in JAX's convention; None: forward or loss raises. *)
Variable vg : values -> option values.
(** What the attributes named in pois hold after a traced call of [forward] with these keyword arguments: forward
    ([conv_solve], with the parameters as keyword arguments) assigns the tracers and nothing removes them. *)
Variable tracer : values.
(** The attribute setter: None if it raises. *)
Variable store : A -> tensor -> option tensor.

(** [setattr(self, poi, params[poi])] in turn (optimizer.py:32, 51): false if one raises. *)
Fixpoint set_all (pois : seq A) (params o : values) : values * bool :=
  if pois is a :: l then
    if store a (params a) is Some v then set_all l params (fun b => if b == a then v else o b) else (o, false)
  else (o, true).

(** [OptimizerJax._grad] (optimizer.py:19-27): leaves the tracers behind. *)
Definition j_raw (pois : seq A) (params o : values) : values * option values :=
  (override pois tracer o, vg (override pois params o)).

(** [OptimizerJax.grad] (optimizer.py:29-34).  The second component: None if an exception propagates. *)
Definition j_grad (pois : seq A) (o : values) : values * option (A -> option tensor) :=
  let (o1, g) := j_raw pois o o in
  if g is Some grads then
    let (o2, ok) := set_all pois o o1 in
    (o2, if ok then Some (fun a => if a \in pois then Some (grads a) else None) else None)
  else (o1, None).

Variable S : Type.
Variable update : S -> values -> values -> S * values.

(** One call of [step] (optimizer.py:40-46): the gradients are conjugated; [update] followed by [apply_updates] returns the new
    parameters. *)
Definition j_step (pois : seq A) (s : S) (params o : values) : option (S * values) :=
  if (j_raw pois params o).2 is Some grads then
    let (s', p) := update s params (fun a k => conj (grads a k)) in Some (s', override pois p params)
  else None.
Fixpoint j_rounds (pois : seq A) (iteration : nat) (s : S) (params o : values) : option (S * values) :=
  if iteration is i.+1 then
    if j_step pois s params o is Some (s', p) then j_rounds pois i s' p o else None
  else Some (s, params).

(** [OptimizerJax.fit] (optimizer.py:36-53). *)
Definition j_fit (pois : seq A) (s0 : S) (iteration : nat) (o : values) : values * option (A -> option tensor) :=
  let o1 := if iteration is 0%N then o else override pois tracer o in
  if j_rounds pois iteration s0 o o is Some (_, params) then
    let (o2, ok) := set_all pois params o1 in
    (o2, if ok then Some (fun a => if a \in pois then Some (params a) else None) else None)
  else (o1, None).

End Jax.
End Names.
