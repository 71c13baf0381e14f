(** The boundary-value problem solved by the 1D, conical and 2D solvers. *)
From Coq Require Import Reals Lra Psatz.
From mathcomp Require Import all_ssreflect ssralg matrix mxalgebra.
From Coquelicot Require Import Complex.
From Verif Require Import Cplx Mx ModelTM ModelField Spec SpecSolve SpecField ProofFlux ProofEnergy1D ProofEnergy2D
  ProofEff ProofEnd ProofSubstrate ProofWellSolve ProofField.

Set Implicit Arguments.
Unset Strict Implicit.
Unset Printing Implicit Defensive.
Local Open Scope ring_scope.
Import GRing.Theory.

Lemma is_tm0 : is_tm 0 = false.
Proof. by rewrite /is_tm; case: Req_EM_T => // h; lra. Qed.
Lemma is_tm1 : is_tm 1 = true.
Proof. by rewrite /is_tm; case: Req_EM_T. Qed.

Section OneD.
Variable pinv : forall n, 'M[C]_n -> 'M[C]_n.
Variable eig : forall n, 'M[C]_n -> 'rV[C]_n * 'M[C]_n.
Variable n : nat.
Variables (pol : R) (kx : nat -> C) (k0 : R).
Let tm := is_tm pol.

Definition g1 (l : info_1d n) : gmode n := GMode (i1_W l) (i1_V l) (i1_q l) (i1_d l) (i1_Ai l) (i1_B l).
Definition conv_of (l : layer n) : conv3 n := (epx l, epy l, epzi l).

Lemma stack_chain_1d F0 G0 (ls : seq (layer n)) F G T infos :
  stack_with (step_1d pinv eig false pol kx k0) ls (F0, G0, 1%:M, [::]) = Some (F, G, T, infos) ->
  chain pinv k0 1%:M 1%:M F0 G0 (map g1 (rev infos)) F G T /\ map (@i1_d n) (rev infos) = map (@thick n) ls.
Proof.
elim: ls F G T infos => [|l ls IH] F G T infos /=.
  by case=> <- <- <- <-.
case e: (stack_with _ _ _) => [[[[F1 G1] T1] is']|] //; have [h1 h2] := IH _ _ _ _ e.
rewrite /step_1d; case h3: (transfer_1d_2 _ _ _ _ _ _ _ _) => [[[W V] q]|] //.
rewrite /transfer_1d_3; case h4: (layer_update _ _ _ _ _ _ _ _) => [[[[[F2 G2] T2] Ai] B]|] // [<- <- <- <-].
rewrite rev_rcons /=; split; last by rewrite h2.
by exists F1, G1, T1; split=> //; rewrite !mul1mx.
Qed.

Hypothesis heig : eig_ok eig.

Lemma diagonal_1d (l : layer n) W V q :
  transfer_1d_2 pinv eig false pol kx (epx l) (epy l) (epzi l) = Some (W, V, q) ->
  diagonalised (medium_1d tm kx (conv_of l) (thick l)) W V q.
Proof.
rewrite /transfer_1d_2 /diagonalised /medium_1d /conv_of /tm /is_tm; case: ifP => [/reqbP ->|_].
  have -> : (if Req_EM_T 0 1 then true else false) = false by case: Req_EM_T => // h; lra.
  rewrite (te_operatorE kx (epx l, epy l, epzi l)) /=.
  have := heig (diagf n kx *m diagf n kx - epy l).
  case: (eig _) => lam U /= hU [<- <- <-]; split; first by rewrite mul1mx.
  by rewrite hU -mulmxA sqrtv_sqr.
case: ifP => [/reqbP ->|_] //.
have -> : (if Req_EM_T 1 1 then true else false) = true by case: Req_EM_T.
have -> : \matrix_(i, j) (kx i * epzi l i j * kx j - (if i == j then 1 else 0)) = diagf n kx *m epzi l *m diagf n kx - 1%:M.
  by rewrite /diagf mul_mx_diag mul_diag_mx; apply/matrixP => i j; rewrite !mxE; case: eqP.
set B := _ - 1%:M.
have := heig (epx l *m B).
case: (eig _) => lam U /= hU.
case hE: (meeinv pinv false (epx l)) => [Ei|] //; have [uE ->] := meeinv_some hE; case=> <- <- <-; split=> /=.
  by rewrite !mulmxA mulmxV // mul1mx.
by rewrite -!mulmxA sqrtv_sqr -hU !mulmxA mulVmx // mul1mx.
Qed.

Lemma stack_matched_1d F0 G0 T0 (ls : seq (layer n)) F G T infos :
  stack_with (step_1d pinv eig false pol kx k0) ls (F0, G0, T0, [::]) = Some (F, G, T, infos) ->
  matched [seq medium_1d tm kx (conv_of l) (thick l) | l <- ls] (map g1 (rev infos)).
Proof.
elim: ls F G T infos => [|l ls IH] F G T infos /=.
  by case=> _ _ _ <-.
case e: (stack_with _ _ _) => [[[[F1 G1] T1] is']|] //; have h1 := IH _ _ _ _ e.
rewrite /step_1d; case h3: (transfer_1d_2 _ _ _ _ _ _ _ _) => [[[W V] q]|] //.
rewrite /transfer_1d_3; case h4: (layer_update _ _ _ _ _ _ _ _) => [[[[[F2 G2] T2] Ai] B]|] // [_ _ _ <-].
rewrite rev_rcons /=; split=> //; last exact: diagonal_1d h3.
by rewrite /medium_1d; case: tm.
Qed.

End OneD.

Lemma weigh_inc tm (nt c : C) : weigh tm nt (nt * c) = if tm then c / nt else nt * c.
Proof.
rewrite /weigh; case: tm => //; have [->|n0] := eqVneq nt 0; first by rewrite expr2 !(mul0r, invr0, mulr0).
by rewrite expr2 invfM [nt * c]mulrC mulrA mulfK.
Qed.

Section Ends1D.
Variable pinv : forall n, 'M[C]_n -> 'M[C]_n.
Variable n : nat.
Variables (pol : R) (kx : nat -> C) (th nt nb : C).
Let tm := is_tm pol.
Let Y := diagf n (fun i => ci * weigh tm nt (kz_of nt (kx i) 0)).
Let inc := ci * weigh tm nt (nt * ccos th).

Lemma kz_1dE nn i : kz_1d nn kx i = kz_of nn (kx i) 0.
Proof. by rewrite /kz_1d /kz_of expr0n subr0. Qed.

Lemma aboveE (Rv : 'cV[C]_n) :
  above_1d tm nt th kx Rv = (delta_i0 n + Rv, - (inc *: delta_i0 n) + Y *m Rv).
Proof.
rewrite /above_1d /inc /Y /diagf; congr pair; apply/colP => i; first by rewrite !mxE.
rewrite mxE [in RHS]mxE diag_mulE !mxE; move: (Rv i ord0) (weigh _ _ _) (weigh _ _ _) => x y z; case: ifP => _; cring.
Qed.

Lemma ends_1d (F G T : 'M[C]_n) kb r T1 :
  transfer_1d_4 pinv false pol F G T (kz_1d nt kx) kb th nt nb = Some (r, T1) ->
  [/\ G + Y *m F \in unitmx, (G + Y *m F) *m T1 = Y *m delta_i0 n + inc *: delta_i0 n,
      co_R tm r = F *m T1 - delta_i0 n & co_T tm r = T *m T1].
Proof.
rewrite /transfer_1d_4 /Y /inc /tm; case: ifP => [/reqbP ->|_].
  rewrite is_tm0.
  have -> : ci *: diagf n (kz_1d nt kx) = diagf n (fun i => ci * weigh false nt (kz_of nt (kx i) 0)).
    by rewrite diagfZ; apply: diagf_eq => i _; rewrite kz_1dE.
  case h: (meeinv _ _ _) => [M|] //; have [u ->] := meeinv_some h; case=> <- <-; split=> //.
  by rewrite mulKVmx // /weigh mulrA.
case: ifP => [/reqbP ->|_] //.
rewrite is_tm1.
have -> : (ci / nt ^+ 2) *: diagf n (kz_1d nt kx) = diagf n (fun i => ci * weigh true nt (kz_of nt (kx i) 0)).
  by rewrite diagfZ; apply: diagf_eq => i _; rewrite kz_1dE /weigh; cring.
case h: (meeinv _ _ _) => [M|] //; have [u ->] := meeinv_some h; case=> <- <-; split=> //.
by rewrite mulKVmx // weigh_inc mulrA.
Qed.

(** The waves above the stack fit F t, -G t exactly for the t of the code. *)
Lemma above_face (F G T : 'M[C]_n) kb r T1 :
  transfer_1d_4 pinv false pol F G T (kz_1d nt kx) kb th nt nb = Some (r, T1) ->
  above_1d tm nt th kx (co_R tm r) = (F *m T1, - (G *m T1)).
Proof.
move=> h; have [u e1 e2 e3] := ends_1d h; rewrite aboveE e2; congr pair; first by rewrite addrC subrK.
rewrite mulmxBr; move: e1; rewrite mulmxDl -mulmxA => e1.
have -> : Y *m (F *m T1) = Y *m delta_i0 n + inc *: delta_i0 n - G *m T1 by rewrite -e1 addrC addKr.
move: (Y *m _) (inc *: _) (G *m _) => a b c; mxab.
Qed.

Lemma face_unique (F G T : 'M[C]_n) kb r T1 Rv t :
  transfer_1d_4 pinv false pol F G T (kz_1d nt kx) kb th nt nb = Some (r, T1) ->
  above_1d tm nt th kx Rv = (F *m t, - (G *m t)) -> t = T1 /\ Rv = co_R tm r.
Proof.
move=> h; have [u e1 e2 e3] := ends_1d h; rewrite aboveE => -[h1 h2].
have et : t = T1.
  apply: (can_inj (mulKmx u)); rewrite e1 mulmxDl -mulmxA -h1 -[G *m t]opprK -h2 mulmxDr.
  move: (Y *m _) (Y *m _) (inc *: _) => a b c; mxab.
by split=> //; rewrite e2 -et -h1 addrC addKr.
Qed.
End Ends1D.

Section Bvp1D.
Variable pinv : forall n, 'M[C]_n -> 'M[C]_n.
Variable eig : forall n, 'M[C]_n -> 'rV[C]_n * 'M[C]_n.

Lemma belowE tm nb kx n (Tv : 'cV[C]_n) :
  below_1d tm nb kx Tv = (Tv, - (diagf n (fun i => ci * weigh tm nb (kz_of nb (kx i) 0)) *m Tv)).
Proof. by rewrite /below_1d; congr pair; apply/colP => i; rewrite mxE [in RHS]mxE /diagf diag_mulE mxE; move: (Tv i ord0) (weigh _ _ _) => x y; cring. Qed.

Lemma rcwa_1d_parts pol n kx k0 th nt nb (ls : seq (layer n)) r T1 infos :
  rcwa_1d pinv eig false pol kx k0 th nt nb ls = Some (r, T1, infos) ->
  let tm := is_tm pol in
  let G0 := diagf n (fun i => ci * weigh tm nb (kz_of nb (kx i) 0)) in
  exists F G T, stack_with (step_1d pinv eig false pol kx k0) ls (1%:M, G0, 1%:M, [::]) = Some (F, G, T, infos) /\
    transfer_1d_4 pinv false pol F G T (kz_1d nt kx) (kz_1d nb kx) th nt nb = Some (r, T1).
Proof.
rewrite /rcwa_1d /transfer_1d_1; case: ifP => [/reqbP ->|_].
  rewrite is_tm0.
  have -> : ci *: diagf n (kz_1d nb kx) = diagf n (fun i => ci * weigh false nb (kz_of nb (kx i) 0)).
    by rewrite diagfZ; apply: diagf_eq => i _; rewrite kz_1dE.
  case e: (stack_with _ _ _) => [[[[F G] T] is']|] //.
  by case e4: (transfer_1d_4 _ _ _ _ _ _ _ _ _ _ _) => [[r' t']|] // [<- <- <-]; exists F, G, T; split.
case: ifP => [/reqbP ->|_] //.
rewrite is_tm1.
have -> : ci *: diagf n (fun i => kz_1d nb kx i / nb ^+ 2) = diagf n (fun i => ci * weigh true nb (kz_of nb (kx i) 0)).
  by rewrite diagfZ; apply: diagf_eq => i _; rewrite kz_1dE.
case e: (stack_with _ _ _) => [[[[F G] T] is']|] //.
by case e4: (transfer_1d_4 _ _ _ _ _ _ _ _ _ _ _) => [[r' t']|] // [<- <- <-]; exists F, G, T; split.
Qed.

Lemma profiles_g pol n k0 kx (T1 : 'cV[C]_n) infos :
  field_profiles_1d pol k0 kx T1 infos = gfields k0 T1 (map (@g1 n) (rev infos)).
Proof.
rewrite /field_profiles_1d; move: (rev infos) => is' {infos}.
by elim: is' T1 => [|l is' IH] T1 //=; rewrite IH.
Qed.

Lemma face1 n (F G : 'M[C]_n) t : face 1%:M 1%:M F G t = (F *m t, - (G *m t)).
Proof. by rewrite /face !mul1mx. Qed.

Lemma fields_1d pol n kx k0 th nt nb (ls : seq (layer n)) r T1 infos :
  rcwa_1d pinv eig false pol kx k0 th nt nb ls = Some (r, T1, infos) ->
  let tm := is_tm pol in
  through (map (@thick n) ls) (above_1d tm nt th kx (co_R tm r)) (field_profiles_1d pol k0 kx T1 infos)
    (below_1d tm nb kx (co_T tm r)).
Proof.
move=> /rcwa_1d_parts /= [F [G [T [hs h4]]]]; have [_ _ _ e3] := ends_1d h4.
have [hc hd] := stack_chain_1d hs.
have := chain_through (mul1mx _) (mul1mx _) hc T1.
rewrite -map_comp (_ : map _ _ = map (@thick n) ls); last by rewrite -hd; apply: eq_map.
by rewrite profiles_g !face1 (above_face h4) belowE e3 mul1mx.
Qed.

Hypothesis heig : eig_ok eig.

Lemma bvp_1d pol n kx k0 th nt nb (ls : seq (layer n)) r T1 infos :
  rcwa_1d pinv eig false pol kx k0 th nt nb ls = Some (r, T1, infos) ->
  let tm := is_tm pol in
  let ms := [seq medium_1d tm kx (conv_of l) (thick l) | l <- ls] in
  boundary_value_problem k0 ms (above_1d tm nt th kx (co_R tm r)) (field_profiles_1d pol k0 kx T1 infos)
    (below_1d tm nb kx (co_T tm r)) /\
  ((forall l, List.In l ls -> (0 <= thick l)%coqR) ->
   forall Rv Tv fs, boundary_value_problem k0 ms (above_1d tm nt th kx Rv) fs (below_1d tm nb kx Tv) ->
   Rv = co_R tm r /\ Tv = co_T tm r).
Proof.
move=> h tm ms; have e0 : map (@m_d n) ms = map (@thick n) ls.
  by rewrite -map_comp; apply: eq_map => l /=; rewrite /medium_1d; case: tm {ms}.
have := fields_1d h; case: (rcwa_1d_parts h) => F [G [T [hs h4]]] /= hth.
have hm := stack_matched_1d heig hs.
split.
  by split; [rewrite e0|rewrite profiles_g; apply: chain_solve hm _].
move=> hd Rv Tv fs [h1 h2]; have [hc _] := stack_chain_1d hs; have [_ _ _ e3] := ends_1d h4.
rewrite belowE -{1}[Tv]mul1mx -face1 in h1.
have [|t []] := chain_unique (mul1mx _) (mul1mx _) hm hc _ (mul1mx _) (mul1mx _) h1 h2.
  move=> a ha; have [l hl ->] := In_map ha.
  by have := hd l hl; rewrite /medium_1d; case: (is_tm pol).
by rewrite face1 e3 => /(face_unique h4) [-> ->].
Qed.

End Bvp1D.
