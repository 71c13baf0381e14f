(** A solver object on which the 1D solver returns (films of the substrate index), and small facts used by the examples and
    counterexamples about solver objects. *)
From Coq Require Import Reals ZArith Lra Psatz.
From mathcomp Require Import all_ssreflect ssralg matrix.
From Coquelicot Require Import Complex.
From Verif Require Import Cplx Mx Spec SpecSolve SpecFilm SpecLayer ModelTM ModelFourier ModelVec ModelField ModelState SpecState
  ProofSetup ProofLayer ProofRules ProofInvert ProofFourier ProofState ProofState2 ProofEnd ProofEnd2 ExampleKit PropertiesFilm PropertiesFourier.

Set Implicit Arguments.
Unset Strict Implicit.
Unset Printing Implicit Defensive.
Local Open Scope ring_scope.
Import GRing.Theory.

Lemma nrs : (0 <> 1)%coqR.
Proof. lra. Qed.

(** Index 3 over index 2, sin(theta) = 1/3, period twice the wavelength, three orders, layers of index 2 on a 1 x 3 grid. *)
Definition args_ex (p : num) (ts : seq R) : ctor_args :=
  CtorArgs (RtoC 3) (RtoC 2) (VNum (NFloat th_ex)) VNone VNone (VNum p) (VNum (NFloat 2)) 1
    (VArr3 DReal 1 3 (nseq (size ts) (fun _ _ => RtoC 2))) (VSeq (map (fun d => Some (NFloat d)) ts)) (VNum (NInt 1)) TMM
    (RtoC (1 / 10 ^ 20)) (VType false) 0 true false.

Definition obj_ex (p : R) (ts : seq R) : obj :=
  Obj false (RtoC (1 / 10 ^ 20)) (RtoC 3) (RtoC 2) (Some (RtoC th_ex)) None (psi_of (RtoC p)) (RtoC p) (Fto 1 0)
    (A1 [:: 2; 2]%coqR) 1 (A1 ts) TMM false (CRaster 1 3 (nseq (size ts) (fun _ _ => RtoC 2))) (Some false) 0 true None MNone.

Lemma th_ex_pos : th_ex <> 0%coqR.
Proof. by move=> e; have := sin_th_ex; rewrite e sin_0; lra. Qed.

Lemma all_some_float ts : all_some list_float (map (fun d => Some (NFloat d)) ts) = Some ts.
Proof. by elim: ts => //= t ts ->. Qed.

Lemma obj_exE p ts : (0 <= p <= 1)%coqR -> construct (args_ex (NFloat p) ts) = Some (obj_ex p ts).
Proof.
move=> hp; rewrite /construct /= /assign_theta /= /assign_phi /=.
have -> : (RtoC th_ex == 0) = false by apply/eqP => -[]; exact: th_ex_pos.
rewrite /assign_pol /=.
have -> : in_unit (RtoC p) = true.
  rewrite /in_unit /cle /rltb /reqb /rleb /Re /Im /=.
  case: (Rlt_dec 0 p) => h1 /=; case: (Rlt_dec p 1) => h2 //=.
  - case: (Req_EM_T p 1) => h3 /=; last by case: h3; lra.
    by case: (Rle_dec 0 0) => // h; lra.
  - case: (Req_EM_T 0 p) => h3 /=; last by case: h3; lra.
    by case: (Rle_dec 0 0) => // h; lra.
  - case: (Req_EM_T 0 p) => h3 /=; last by case: h3; lra.
    by case: (Req_EM_T p 1) => h4 /=; case: (Rle_dec 0 0) => // h; lra.
by rewrite /= all_some_float.
Qed.

Lemma conv_all_nseq (A B : Type) (f : A -> option B) l c k : f l = Some c -> conv_all f (nseq k l) = Some (nseq k c).
Proof. by move=> e; elim: k => //= k ->; rewrite e. Qed.

Lemma n2_neq0 : RtoC 2 != 0.
Proof. by apply/eqP => -[]; lra. Qed.

Lemma crop_scalar m n (c : C) : m = n -> crop n (c%:M : 'M_m) = c%:M.
Proof. by move=> e; case: n / e; rewrite crop_id. Qed.

Lemma convs_ex pv p ts : convs_of pv (obj_ex p ts) 1 0 = Some (nseq (size ts) (uniform_convs _ (RtoC 2 ^+ 2))).
Proof.
rewrite /convs_of /= map_nseq; apply: conv_all_nseq.
by apply: discrete_uniform => //; exact: n2_neq0.
Qed.

Lemma conv_solve_run pv eig o fx fy cs th p : fto_of o = Some (fx, fy) -> convs_of pv o fx fy = Some cs ->
  o_theta o = Some th -> period_of o = Some p -> o_wavelength o <> 0%coqR ->
  conv_solve pv eig o = let (m, out) := solve_with pv eig o th p cs (grating_of o fy) in (set_memo (grating_of o fy) m o, out).
Proof.
move=> h1 h2 h3 h4 h5; rewrite /conv_solve h1 h2 h3 h4.
by have -> : reqb (o_wavelength o) 0 = false by rewrite /reqb; case: Req_EM_T.
Qed.

Lemma obj_ex_solves pv p ts : p = 0%coqR \/ p = 1%coqR -> exists o' r T1 infos,
  [/\ conv_solve pv eig_ex (obj_ex p ts) = (o', Solved (Report (Some r) None None)), o_memo o' = @M1d 3 T1 infos &
     solve_1d pv eig_ex false (Setup (RtoC 3) (RtoC 2) (RtoC th_ex) None (psi_of (RtoC p)) p 1 0 2 2 ts) 1
       (map (fun ed => uniform_convs 3 ed.1) (films_ex ts)) = Some (r, T1, infos)].
Proof.
move=> hp; set s := Setup _ _ _ _ _ _ _ _ _ _ _.
have b3 : (0 < 3)%coqR by lra.
have b2 : (0 < 2)%coqR by lra.
have hord : (forall i : 'I_(ff_x s), let x := order_kx 3 th_ex (fto_x s) i 1 (period_x s) in
     (x * x < 3 * 3)%coqR /\ (x * x < 2 * 2)%coqR).
  rewrite /order_kx /s /= sin_th_ex; by case=> -[|[|[|//]]] /= _; split; lra.
have [r [T1 [infos e]]] := sub_films_return pv (s := s) (w := 1) erefl b3 erefl th_ex_bound erefl erefl b2 hp (films_ex_d ts) (@films_ex_in ts) hord.
have ep : period_of (obj_ex p ts) = Some (2, 2)%coqR by rewrite /period_of /= /reqb; case: Req_EM_T => //= h; lra.
have ew : o_wavelength (obj_ex p ts) <> 0%coqR by rewrite /=; lra.
rewrite (conv_solve_run (o := obj_ex p ts) (fx := 1) (fy := 0) (th := RtoC th_ex) eig_ex erefl (convs_ex pv p ts) erefl ep ew).
have -> : grating_of (obj_ex p ts) 0 = Some 0%N.
  rewrite /grating_of /=; have -> // : (RtoC p == 0) || (RtoC p == 1).
  by case: hp => ->; rewrite eqxx ?orbT.
rewrite /solve_with /=.
have -> : [seq crop3 (1.*2.+1) c | c <- nseq (size ts) (uniform_convs (0.*2.+1 * 1.*2.+1) (RtoC 2 ^+ 2))] =
   map (fun ed => uniform_convs 3 ed.1) (films_ex ts).
  rewrite map_nseq (_ : crop3 _ _ = uniform_convs 3 (RtoC (2 * 2))); last first.
    by rewrite /crop3 /uniform_convs !(@crop_scalar _ 3) // expr2 RtoC_mul.
  rewrite /films_ex -map_comp.
  by elim: ts {s hord r T1 infos e ep ew} => //= t ts ->.
have e' : solve_1d pv eig_ex false (setup_of (obj_ex p ts) 1 0 (RtoC th_ex) (2, 2)%coqR ts) 1
   (map (fun ed => uniform_convs 3 ed.1) (films_ex ts)) = Some (r, T1, infos) := e.
by rewrite e'; do 4 eexists; split; reflexivity.
Qed.
