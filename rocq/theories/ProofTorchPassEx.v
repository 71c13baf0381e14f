(** A pseudo-inverse that satisfies the Penrose equations, and an absorbing anisotropic PyTorch object on which the solver
    returns. *)
From Coq Require Import Reals Lra ClassicalEpsilon.
From mathcomp Require Import all_ssreflect ssralg matrix mxalgebra.
From Coquelicot Require Import Complex.
From Verif Require Import Cplx Mx Spec SpecSolve SpecFilm SpecLayer SpecPassive SpecAbsorb ModelTM ModelFourier ModelVec ModelField ModelState
  ModelTorch ModelTorchObj SpecState SpecTorchObj SpecTorchPassive ProofSetup ProofConv ProofLayer ProofRules ProofInvert ProofFourier ProofState
  ProofState2 ProofEnd ProofEnd2 ProofWell ProofWellSolve ProofTorchObj ProofTorchObj2 ProofPassive ProofPassive3 ProofTorchPassive ProofAbsorb3
  ProofAbsorb5 ExampleKit ProofObjEx ProofTorchObjEx PropertiesFilm PropertiesFourier.

Set Implicit Arguments.
Unset Strict Implicit.
Unset Printing Implicit Defensive.
Local Open Scope ring_scope.
Import GRing.Theory.

(** ** The Moore-Penrose inverse *)
Lemma gram_zero m k (F : 'M[C]_(m, k)) (v : 'cV[C]_k) : adj F *m F *m v = 0 -> F *m v = 0.
Proof.
move=> h; have e : adj (F *m v) *m 1%:M *m (F *m v) = 0 by rewrite mulmx1 adjM -mulmxA (mulmxA (adj F)) h mulmx0.
case: (F *m v =P 0) => // /(@pos_def1 _); rewrite e mxE => h0; exfalso; move: h0; rewrite /Re /=; lra.
Qed.

Lemma ker0_unit k (A : 'M[C]_k) : (forall v : 'cV[C]_k, A *m v = 0 -> v = 0) -> A \in unitmx.
Proof.
move=> h; rewrite -unitmx_tr -row_free_unit -kermx_eq0; apply/eqP/row_matrixP => i.
rewrite row0; set w := row i _.
have hw : w *m A^T = 0 by rewrite /w -row_mul mulmx_ker row0.
apply: trmx_inj; rewrite trmx0; apply: h; by rewrite -[A]trmxK -trmx_mul hw trmx0.
Qed.

Lemma gram_unit m k (F : 'M[C]_(m, k)) L : L *m F = 1%:M -> adj F *m F \in unitmx.
Proof. by move=> hL; apply: ker0_unit => v /gram_zero h; rewrite -[v]mul1mx -hL -mulmxA h mulmx0. Qed.

Lemma adj_inv k (A : 'M[C]_k) : A \in unitmx -> adj (invmx A) = invmx (adj A).
Proof.
move=> u; have e : adj A *m adj (invmx A) = 1%:M by rewrite -adjM mulVmx // adj1.
have [u' _] := mulmx1_unit e; by rewrite -[LHS](mulKmx u') e mulmx1.
Qed.

Lemma hermitian_adj n (A : 'M[C]_n) : adj A = A -> hermitian A.
Proof. by move=> h i j; rewrite -{1}h adjE. Qed.

Lemma mp_factor n k (F : 'M[C]_(n, k)) (G : 'M[C]_(k, n)) L K : L *m F = 1%:M -> G *m K = 1%:M -> exists B : 'M[C]_n,
  let A := F *m G in [/\ A *m B *m A = A, B *m A *m B = B, hermitian (A *m B) & hermitian (B *m A)].
Proof.
move=> hL hK; have uF : adj F *m F \in unitmx := gram_unit hL.
have uG : G *m adj G \in unitmx.
  have h : adj K *m adj G = 1%:M by rewrite -adjM hK adj1.
  by have := gram_unit h; rewrite adjK.
set X := adj F *m F in uF; set Y := G *m adj G in uG.
have aX : adj (invmx X) = invmx X by rewrite adj_inv // /X adjM adjK.
have aY : adj (invmx Y) = invmx Y by rewrite adj_inv // /Y adjM adjK.
pose B := adj G *m invmx Y *m invmx X *m adj F; exists B => A.
have eAB : A *m B = F *m invmx X *m adj F.
  by rewrite /A /B !mulmxA -(mulmxA F G) -/Y -(mulmxA F Y) mulmxV // mulmx1.
have eBA : B *m A = adj G *m invmx Y *m G.
  by rewrite /A /B !mulmxA -(mulmxA _ (adj F) F) -/X -(mulmxA _ (invmx X) X) mulVmx // mulmx1.
split.
- by rewrite eAB /A !mulmxA -(mulmxA _ (adj F) F) -/X -(mulmxA _ (invmx X) X) mulVmx // mulmx1.
- by rewrite eBA /B !mulmxA -(mulmxA _ G (adj G)) -/Y -(mulmxA _ (invmx Y) Y) mulVmx // mulmx1.
- by apply: hermitian_adj; rewrite eAB !adjM adjK aX mulmxA.
- by apply: hermitian_adj; rewrite eBA !adjM adjK aY mulmxA.
Qed.

Lemma mp_exists n (A : 'M[C]_n) : exists B : 'M[C]_n,
  [/\ A *m B *m A = A, B *m A *m B = B, hermitian (A *m B) & hermitian (B *m A)].
Proof.
have [L hL] : exists L, L *m col_base A = 1%:M by apply/row_fullP; exact: col_base_full.
have [K hK] : exists K, row_base A *m K = 1%:M by apply/row_freeP; exact: row_base_free.
by have [B] := mp_factor hL hK; rewrite mulmx_base => h; exists B.
Qed.

Definition mp_ex n (A : 'M[C]_n) : 'M[C]_n := proj1_sig (constructive_indefinite_description _ (mp_exists A)).
Lemma mp_ex_ok : moore_penrose mp_ex.
Proof. by move=> n A; rewrite /mp_ex; case: constructive_indefinite_description. Qed.

(** ** Absorbing films with the components 3 - i, 2 - i, 5 - i *)
Definition nab (x : R) : C := RtoC x - ci.
Definition dark_ex (ts : seq R) : tobj :=
  TObj (obj_ex 0 ts) (TRaster4 1 3 (nseq (size ts) (fun _ _ => (nab 3, nab 2, nab 5)))) false.
Definition dark_convs n : conv3 n := ((nab 3 ^+ 2)%:M, (nab 2 ^+ 2)%:M, ((nab 5 ^+ 2)^-1)%:M).

Lemma nab_neq0 x : nab x != 0.
Proof. by apply/eqP => -[_]; rewrite /=; lra. Qed.
Lemma nab_absorbs x : (0 < x)%coqR -> absorbing_index (nab x).
Proof. by move=> h; rewrite /absorbing_index /nab /ci /Im /=; lra. Qed.

Lemma dark_convsE pv ts : t_convs_of pv (dark_ex ts) 1 0 = Some (nseq (size ts) (dark_convs _)).
Proof.
rewrite /t_convs_of /= map_nseq; apply: conv_all_nseq.
rewrite /t_conv_discrete /layer4 /components.
set l5 := Raster _ _ _; set l2 := Raster _ _ _; set l3 := Raster _ _ _.
have e5 := @t_dfs_uniform true true true 1 0 l5 (nab 5) isT isT (nab_neq0 5) isT (fun _ _ _ _ => erefl).
have e2 := @t_dfs_uniform true true false 1 0 l2 (nab 2) isT isT (nab_neq0 2) isT (fun _ _ _ _ => erefl).
have e3 := @t_dfs_uniform true false true 1 0 l3 (nab 3) isT isT (nab_neq0 3) isT (fun _ _ _ _ => erefl).
rewrite e5 e2 e3 /t_three_convs /t_inv /dark_convs.
have u : ((nab 5 ^+ 2)%:M : 'M[C]_(0.*2.+1 * 1.*2.+1)) \in unitmx.
  by rewrite unitmxE det_scalar unitfE expf_neq0 // expf_neq0 //; exact: nab_neq0.
by rewrite u invmx_scalar.
Qed.

Lemma dark_absorbs n : absorbing_convs (dark_convs n).
Proof.
have h k (z : C) : (0 < Re (ci * z)%R)%coqR -> coercive ci (z%:M : 'M[C]_k).
  move=> h; exists (Re (ci * z)%R) => // v; rewrite -scalemx1 formZ form1.
  have -> : ci * (z * RtoC (norms v)) = RtoC (norms v) * (ci * z) by rewrite mulrA mulrC.
  by rewrite ReZ; apply: Req_le; ring.
rewrite /dark_convs -invmx_scalar; apply: coercive_absorbs; apply: h; apply: absorbing_px; apply: nab_absorbs; lra.
Qed.

Lemma dark_solves pv t ts : (forall x, List.In x (t :: ts) -> (0 < x)%coqR) -> exists r T1 infos,
  solve_1d pv eig_ex false (Setup (RtoC 3) (RtoC 2) (RtoC th_ex) None (psi_of (RtoC 0)) 0 1 0 2 2 (t :: ts)) 1
    (nseq (size (t :: ts)) (dark_convs 3)) = Some (r, T1, infos).
Proof.
move=> hpos; set s := Setup _ _ _ _ _ _ _ _ _ _ _.
have dk : dark_1d eig_ex (pol s) (kx_vector s 1) (dark_convs 3).
  split; first exact: dark_absorbs.
  have -> : helmholtz (pol s) (kx_vector s 1) (dark_convs 3) = te_operator (kx_vector s 1) (dark_convs 3).
    by rewrite /helmholtz; change (pol s) with 0%coqR; case: (Req_EM_T 0 0) => [h|h]; [|case: h].
  have -> : te_operator (kx_vector s 1) (dark_convs 3) = diag_mx (\row_i (kx_vector s 1 i ^+ 2 - nab 2 ^+ 2)).
    by rewrite te_operatorE /diagf /dark_convs /=; apply/matrixP => i j; rewrite mul_diag_mx !mxE; case: eqP => [->|_]; rewrite ?mulr1n ?mulr0n ?mulr0 ?subrr ?expr2.
  exact: eig_ex_splits.
have hin c : List.In c (used s (nseq (size (t :: ts)) (dark_convs 3))) -> c = dark_convs 3.
  have key k m : List.In c (take k (nseq m (dark_convs 3))) -> c = dark_convs 3.
    by elim: k m => [|k IH] [|m] //= [<-|/IH].
  exact: key.
apply: (absorb_solve_1d pv eig_ex_ok (s := s) (w := 1) (nt := 3) (nb := 2)) => //.
- split=> //.
  + by exists 3%coqR => //; lra.
  + by exists th_ex => //; exact: th_ex_bound.
  + by rewrite /=; lra.
  + by rewrite /=; lra.
- by lra.
- by left.
- by lra.
- by rewrite size_nseq.
- by move=> c /hin ->; right.
right; exists (dark_convs 3) => //; by left.
Qed.

Lemma dark_plain pv t ts : (forall x, List.In x (t :: ts) -> (0 < x)%coqR) ->
  exists m r, plain_run pv eig_ex (dark_ex (t :: ts)) m r /\ no_flat_memo m.
Proof.
move=> hpos; have [r [T1 [infos e]]] := dark_solves pv hpos.
exists (@M1d 3 T1 infos), (Report (Some r) None None); split=> //.
exists 1%N, 0%N, (nseq (size (t :: ts)) (dark_convs _)), 0%N, (RtoC th_ex), (2, 2)%coqR; split; split=> //.
- exact: dark_convsE.
- rewrite /t_grating /t_grating_of /=; have -> : (RtoC 0 == 0) = true by apply/eqP.
  by [].
- by rewrite /period_of /= /reqb; case: Req_EM_T => //= h; lra.
- by rewrite /=; lra.
set tw := numpy_twin _ _; pose cs := nseq (size (t :: ts)) (dark_convs (0.*2.+1 * 1.*2.+1)).
have -> : @solve_with pv eig_ex tw 1 0 (RtoC th_ex) (2, 2)%coqR cs (Some 0%N) =
  @solve_with pv eig_ex (obj_ex 0 (t :: ts)) 1 0 (RtoC th_ex) (2, 2)%coqR cs (Some 0%N) by [].
rewrite /solve_with /cs map_nseq.
have -> : crop3 (1.*2.+1) (dark_convs (0.*2.+1 * 1.*2.+1)) = dark_convs 3.
  by rewrite /crop3 /dark_convs !(@crop_scalar _ 3).
have e' : solve_1d pv eig_ex false (setup_of (obj_ex 0 (t :: ts)) 1 0 (RtoC th_ex) (2, 2)%coqR (t :: ts)) 1
   (nseq (size (t :: ts)) (dark_convs 3)) = Some (r, T1, infos) := e.
by rewrite /= in e' *; rewrite e'.
Qed.
