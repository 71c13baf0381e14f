(** Solver objects for the examples about lost power: absorbing films of index 2 - i. *)
From Coq Require Import Reals Lra.
From mathcomp Require Import all_ssreflect ssralg matrix mxalgebra.
From Coquelicot Require Import Complex.
From Verif Require Import Cplx Mx Spec SpecSolve SpecFilm SpecLayer SpecPassive SpecAbsorb SpecStrict ModelTM ModelFourier ModelVec ModelField ModelState ModelTorchObj
  SpecState ProofSetup ProofConv ProofLayer ProofRules ProofInvert ProofFourier ProofState
  ProofState2 ProofEnd ProofEnd2 ProofWell ProofWellSolve ProofPassive ProofPassive3 ProofAbsorb3
  ProofAbsorb5 ExampleKit ProofObjEx ProofTorchObjEx ProofTorchPassEx PropertiesFilm PropertiesFourier.

Set Implicit Arguments.
Unset Strict Implicit.
Unset Printing Implicit Defensive.
Local Open Scope ring_scope.
Import GRing.Theory.

Definition gray_cell (ts : seq R) : cell := CRaster 1 3 (nseq (size ts) (fun _ _ => nab 2)).
Definition gray_at (ps : C) (ts : seq R) : obj := set_polar ps (RtoC 0) (set_cell (gray_cell ts) (Some false) (obj_ex 0 ts)).
Definition gray_ex (ts : seq R) : obj := gray_at (psi_of (RtoC 0)) ts.
Definition gray_t (ts : seq R) : tobj := TObj (obj_ex 0 ts) (TRaster3 1 3 (nseq (size ts) (fun _ _ => nab 2))) false.
Definition gray n : conv3 n := uniform_convs n (nab 2 ^+ 2).

Lemma gray_convs pv ps ts : convs_of pv (gray_at ps ts) 1 0 = Some (nseq (size ts) (gray _)).
Proof.
rewrite /convs_of /= map_nseq; apply: conv_all_nseq.
by apply: discrete_uniform => //; exact: nab_neq0.
Qed.

Lemma gray_absorbs n : absorbing_convs (gray n).
Proof.
have h k (z : C) : (0 < Re (ci * z)%R)%coqR -> coercive ci (z%:M : 'M[C]_k).
  move=> h; exists (Re (ci * z)%R) => // v; rewrite -scalemx1 formZ form1.
  have -> : ci * (z * RtoC (norms v)) = RtoC (norms v) * (ci * z) by rewrite mulrA mulrC.
  by rewrite ReZ; apply: Req_le; ring.
rewrite /gray /uniform_convs -invmx_scalar; apply: coercive_absorbs; apply: h; apply: absorbing_px; apply: nab_absorbs; lra.
Qed.

Lemma gray_solves pv ps t ts : (forall x, List.In x (t :: ts) -> (0 < x)%coqR) -> exists r T1 infos,
  solve_1d pv eig_ex false (Setup (RtoC 3) (RtoC 2) (RtoC th_ex) None ps 0 1 0 2 2 (t :: ts)) 1
    (nseq (size (t :: ts)) (gray 3)) = Some (r, T1, infos).
Proof.
move=> hpos; set s := Setup _ _ _ _ _ _ _ _ _ _ _.
have dk : dark_1d eig_ex (pol s) (kx_vector s 1) (gray 3).
  split; first exact: gray_absorbs.
  have -> : helmholtz (pol s) (kx_vector s 1) (gray 3) = te_operator (kx_vector s 1) (gray 3).
    by rewrite /helmholtz; change (pol s) with 0%coqR; case: (Req_EM_T 0 0) => [h|h]; [|case: h].
  have -> : te_operator (kx_vector s 1) (gray 3) = diag_mx (\row_i (kx_vector s 1 i ^+ 2 - nab 2 ^+ 2)).
    by rewrite te_operatorE /diagf /gray /uniform_convs /=; apply/matrixP => i j; rewrite mul_diag_mx !mxE; case: eqP => [->|_]; rewrite ?mulr1n ?mulr0n ?mulr0 ?subrr ?expr2.
  exact: eig_ex_splits.
have hin c : List.In c (used s (nseq (size (t :: ts)) (gray 3))) -> c = gray 3.
  have key k m : List.In c (take k (nseq m (gray 3))) -> c = gray 3.
    by elim: k m => [|k IH] [|m] //= [<-|/IH].
  exact: key.
apply: (absorb_solve_1d pv eig_ex_ok (s := s) (w := 1) (nt := 3) (nb := 2)) => //.
- split=> //.
  + by exists 3%coqR => //; lra.
  + by exists th_ex => //; exact: th_ex_bound.
  + by rewrite /=; lra.
  + by rewrite /=; lra.
- by lra.
- by left.
- by lra.
- by rewrite size_nseq.
- by move=> c /hin ->; right.
right; exists (gray 3) => //; by left.
Qed.

Lemma gray_run pv ps t ts : (forall x, List.In x (t :: ts) -> (0 < x)%coqR) ->
  exists o' (r : diffraction 3) T1 infos,
  conv_solve pv eig_ex (gray_at ps (t :: ts)) = (o', Solved (Report (Some r) None None)) /\ o_memo o' = @M1d 3 T1 infos.
Proof.
move=> hpos; have [r [T1 [infos e]]] := gray_solves pv ps hpos.
have ep : period_of (gray_at ps (t :: ts)) = Some (2, 2)%coqR by rewrite /period_of /= /reqb; case: Req_EM_T => //= h; lra.
have ew : o_wavelength (gray_at ps (t :: ts)) <> 0%coqR by rewrite /=; lra.
rewrite (conv_solve_run (o := gray_at ps (t :: ts)) (fx := 1) (fy := 0) (th := RtoC th_ex) eig_ex erefl (gray_convs pv ps _) erefl ep ew).
have -> : grating_of (gray_at ps (t :: ts)) 0 = Some 0%N.
  by rewrite /grating_of /=; have -> : (RtoC 0 == 0) = true by apply/eqP.
rewrite /solve_with map_nseq.
have -> : crop3 (1.*2.+1) (gray (0.*2.+1 * 1.*2.+1)) = gray 3.
  by rewrite /crop3 /gray /uniform_convs !(@crop_scalar _ 3).
have e' : solve_1d pv eig_ex false (setup_of (gray_at ps (t :: ts)) 1 0 (RtoC th_ex) (2, 2)%coqR (t :: ts)) 1
   (nseq (size (t :: ts)) (gray 3)) = Some (r, T1, infos) := e.
by rewrite /= in e' *; rewrite e'; do 4 eexists; split; reflexivity.
Qed.

Lemma gray_ok ps t ts : is_real ps -> (forall x, List.In x (t :: ts) -> (0 < x)%coqR) -> let o := gray_at ps (t :: ts) in
  [/\ physical_obj o, passive_cell_of o, absorbing_layer_of o & thick_obj o].
Proof.
move=> hps hpos o; have ab : absorbing_index (nab 2) by apply: nab_absorbs; lra.
split.
- by have [q1 q2 q3 q4 q5] : physical_obj (obj_ex 0 (t :: ts)) by exact: obj_ex_phys.
- move=> f hf i j _ _.
  have inE g k : List.In g (nseq k (fun _ _ : nat => nab 2)) -> g = fun _ _ => nab 2 by elim: k => //= k IH [<-|/IH].
  rewrite (inE f _ hf).
  by move: ab; rewrite /absorbing_index /passive_index; lra.
- exists 0%N, (t :: ts), t; split=> //; first by apply: hpos; left.
  by exists (fun _ _ => nab 2).
by move=> us u [<-] /hpos; lra.
Qed.

Lemma psi0_real : is_real (psi_of (RtoC 0)).
Proof. by have [_ _ _ h _] : physical_obj (obj_ex 0 [::]) by exact: obj_ex_phys. Qed.
