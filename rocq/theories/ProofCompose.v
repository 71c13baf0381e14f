(** Solver-level consequences of the composition laws: zero-thickness layers, split layers; pinv; superposition. *)
From Coq Require Import Reals Lra Psatz.
From mathcomp Require Import all_ssreflect ssralg matrix mxalgebra.
From Coquelicot Require Import Complex.
From Verif Require Import Cplx Mx Spec ModelTM SpecSolve ProofFlux ProofEnergy1D ProofEnergy2D ProofFilm ProofStack.

Set Implicit Arguments.
Unset Strict Implicit.
Unset Printing Implicit Defensive.
Local Open Scope ring_scope.
Import GRing.Theory.

Lemma Xmat0 n k0 (q : 'rV[C]_n) : Xmat k0 q 0 = 1%:M.
Proof.
rewrite /Xmat; apply/matrixP => i j; rewrite !mxE.
by rewrite (_ : RtoC 0 = 0) // mulr0 cexp0.
Qed.

Lemma XmatD n k0 (q : 'rV[C]_n) d1 d2 : Xmat k0 q d1 *m Xmat k0 q d2 = Xmat k0 q (d1 + d2)%coqR.
Proof.
rewrite /Xmat mulmx_diag; congr diag_mx; apply/rowP => j; rewrite !mxE.
by rewrite -cexpD RtoC_add mulrDr.
Qed.

Lemma big_X0 n k0 (q : 'rV[C]_(n + n)) : big_X k0 q 0 = 1%:M.
Proof. by rewrite Xmat_row Xmat0. Qed.
Lemma big_XD n k0 (q : 'rV[C]_(n + n)) d1 d2 : big_X k0 q d1 *m big_X k0 q d2 = big_X k0 q (d1 + d2)%coqR.
Proof. by rewrite !Xmat_row XmatD. Qed.

Lemma layers_of_cat n (cs1 cs2 : seq (conv3 n)) ts1 ts2 : size cs1 = size ts1 ->
  layers_of (cs1 ++ cs2) (ts1 ++ ts2) =
  if layers_of cs1 ts1 is Some l1 then
    if layers_of cs2 ts2 is Some l2 then Some (l1 ++ l2) else None
  else None.
Proof.
elim: cs1 ts1 => [|[[ex ey] ez] cs1 IH] [|t ts1] //=; first by case: (layers_of cs2 ts2).
move=> [h]; rewrite IH //; case: (layers_of cs1 ts1) => [l1|] //.
by case: (layers_of cs2 ts2).
Qed.

Section Solvers.
Variable pinv : forall n, 'M[C]_n -> 'M[C]_n.
Variable eig : forall n, 'M[C]_n -> 'rV[C]_n * 'M[C]_n.

(** ** Closing the stack depends on the loop state up to [rel] only *)
Lemma close_1d_rel pol n (F G T P : 'M[C]_n) kt kb th nt nb : P \in unitmx ->
  transfer_1d_4 pinv false pol (F *m P) (G *m P) (T *m P) kt kb th nt nb =
  if transfer_1d_4 pinv false pol F G T kt kb th nt nb is Some (r, T1) then Some (r, invmx P *m T1) else None.
Proof.
move=> uP; rewrite /transfer_1d_4.
have key (K : 'M[C]_n) : meeinv pinv false (G *m P + K *m (F *m P)) =
   if meeinv pinv false (G + K *m F) is Some M then Some (invmx P *m M) else None.
  rewrite mulmxA -mulmxDl /meeinv unitmx_mul uP andbT; case: ifP => // uM.
  by congr Some; apply: inv_eq; rewrite mulmxA mulmxK // mulmxV.
have e (A M : 'M[C]_n) (v : 'cV[C]_n) : A *m P *m (invmx P *m M *m v) = A *m (M *m v).
  by rewrite -!mulmxA mulKVmx.
case: ifP => _.
  rewrite key; case: (meeinv pinv false _) => [M|] //.
  by rewrite !e -(mulmxA (invmx P)).
case: ifP => // _.
rewrite key; case: (meeinv pinv false _) => [M|] //.
by rewrite !e -(mulmxA (invmx P)).
Qed.

Definition sp_shift n (P : 'M[C]_(n + n)) (r : sp_result n) : sp_result n :=
  SpResult (res r) (res_te_inc r) (res_tm_inc r) (P *m T1_res r) (P *m T1_te r) (P *m T1_tm r).

Lemma final_A_rel n (F G P : 'M[C]_(n + n)) kt nt :
  final_A (F *m P) (G *m P) kt nt = final_A F G kt nt *m block_mx 1%:M 0 0 P.
Proof. by rewrite /final_A mulmx_block !mulmx0 !mulmx1 !mulNmx !add0r !addr0. Qed.

Lemma block1_unit n (P : 'M[C]_(n + n)) : P \in unitmx ->
  (block_mx (1%:M : 'M[C]_(n + n)) 0 0 P \in unitmx) /\
  invmx (block_mx (1%:M : 'M[C]_(n + n)) 0 0 P) = block_mx 1%:M 0 0 (invmx P).
Proof.
move=> uP.
have e : block_mx (1%:M : 'M[C]_(n + n)) 0 0 P *m block_mx 1%:M 0 0 (invmx P) = 1%:M.
  rewrite mulmx_block !mulmx0 !mul0mx !mulmx1 !addr0 !add0r mulmxV //.
  by rewrite -scalar_mx_block.
split; last exact: inv_eq.
by have [] := mulmx1_unit e.
Qed.

Lemma extract_shift n (RT : 'cV[C]_((n + n) + (n + n))) (T P : 'M[C]_(n + n)) kt kb th nt nb : P \in unitmx ->
  extract_sp (block_mx 1%:M 0 0 (invmx P) *m RT) (T *m P) kt kb th nt nb =
  let (r, t1) := extract_sp RT T kt kb th nt nb in (r, invmx P *m t1).
Proof.
move=> uP; rewrite -[RT]vsubmxK mul_block_col !mul1mx !mul0mx addr0 add0r.
by rewrite /extract_sp !col_mxKu !col_mxKd -!mulmxA mulKVmx // .
Qed.

Lemma close_sp_rel n (F G T P : 'M[C]_(n + n)) kt kb ps th nt nb : P \in unitmx ->
  transfer_sp_4 pinv false (F *m P) (G *m P) (T *m P) kt kb ps th nt nb =
  if transfer_sp_4 pinv false F G T kt kb ps th nt nb is Some r then Some (sp_shift (invmx P) r) else None.
Proof.
move=> uP; rewrite /transfer_sp_4 final_A_rel.
have [uB eB] := block1_unit uP.
rewrite /meeinv unitmx_mul uB andbT; case: ifP => // uA.
have -> : invmx (final_A F G kt nt *m block_mx 1%:M 0 0 P) = block_mx 1%:M 0 0 (invmx P) *m invmx (final_A F G kt nt).
  by rewrite -eB; apply: inv_eq; rewrite mulmxA mulmxK // mulmxV.
rewrite -!mulmxA !extract_shift //.
Qed.

(** ** What is reported, in terms of the bare loop *)
Definition fin_1d pol n kt kb th nt nb (st : 'M[C]_n * 'M[C]_n * 'M[C]_n) : option (diffraction n) :=
  if transfer_1d_4 pinv false pol st.1.1 st.1.2 st.2 kt kb th nt nb is Some (r, _) then Some r else None.

Definition fin_sp n kt kb ps th nt nb (st : 'M[C]_(n + n) * 'M[C]_(n + n) * 'M[C]_(n + n)) :=
  if transfer_sp_4 pinv false st.1.1 st.1.2 st.2 kt kb ps th nt nb is Some r
  then Some (res r, res_te_inc r, res_tm_inc r) else None.

Lemma fin_1d_rel pol n kt kb th nt nb a b : rel a b -> @fin_1d pol n kt kb th nt nb b = fin_1d pol kt kb th nt nb a.
Proof.
case: a b => [[F G] T] [[F2 G2] T2] [P uP /= [-> -> ->]]; rewrite /fin_1d /= close_1d_rel //.
by case: (transfer_1d_4 _ _ _ _ _ _ _ _ _ _ _) => [[]|].
Qed.

Lemma fin_sp_rel n kt kb ps th nt nb a b : rel a b ->
  @fin_sp n kt kb ps th nt nb b = fin_sp kt kb ps th nt nb a.
Proof.
case: a b => [[F G] T] [[F2 G2] T2] [P uP /= [-> -> ->]]; rewrite /fin_sp /= close_sp_rel //.
by case: (transfer_sp_4 _ _ _ _ _ _ _ _ _ _ _).
Qed.

Lemma reported_rcwa_1d pol n kx k0 th nt nb (ls : seq (layer n)) :
  reported_1d (rcwa_1d pinv eig false pol kx k0 th nt nb ls) =
  if transfer_1d_1 pol n kx nt nb is Some (kt, kb, F, G, T) then
    obind (fin_1d pol kt kb th nt nb) (gstack pinv (map (modes_1d pinv eig pol kx k0) ls) (F, G, T))
  else None.
Proof.
rewrite /rcwa_1d; case: (transfer_1d_1 _ _ _ _ _) => [[[[[kt kb] F] G] T]|] //.
rewrite -(stack_1d pinv eig pol kx k0 ls F G T [::]).
case: (stack_with _ _ _) => [[[[F' G'] T'] is']|] //=; rewrite /fin_1d /=.
by case: (transfer_1d_4 _ _ _ _ _ _ _ _ _ _ _) => [[]|].
Qed.

Lemma reported_rcwa_2d n kxt kyt k0 ps th nt nb (ls : seq (layer n)) :
  reported_sp (rcwa_2d pinv eig false kxt kyt k0 ps th nt nb ls) =
  if transfer_sp_1 n kxt kyt nt nb is Some (kt, kb, c, s, F, G, T) then
    obind (fin_sp kt kb ps th nt nb) (gstack pinv (map (modes_2d pinv eig kxt kyt c s k0) ls) (F, G, T))
  else None.
Proof.
rewrite /rcwa_2d; case: (transfer_sp_1 _ _ _ _ _) => [[[[[[[kt kb] c] s] F] G] T]|] //.
rewrite -(stack_2d pinv eig kxt kyt c s k0 ls F G T [::]).
case: (stack_with _ _ _) => [[[[F' G'] T'] is']|] //=; rewrite /fin_sp /=.
by case: (transfer_sp_4 _ _ _ _ _ _ _ _ _ _ _).
Qed.

Lemma reported_rcwa_conical n kxt kyt k0 ps th nt nb (ls : seq (layer n)) :
  reported_sp (rcwa_conical pinv eig false kxt kyt k0 ps th nt nb ls) =
  if transfer_sp_1 n kxt kyt nt nb is Some (kt, kb, c, s, F, G, T) then
    obind (fin_sp kt kb ps th nt nb) (gstack pinv (map (modes_conical pinv eig kxt kyt c s k0) ls) (F, G, T))
  else None.
Proof.
rewrite /rcwa_conical; case: (transfer_sp_1 _ _ _ _ _) => [[[[[[[kt kb] c] s] F] G] T]|] //.
rewrite -(stack_conical pinv eig kxt kyt c s k0 ls F G T [::]).
case: (stack_with _ _ _) => [[[[F' G'] T'] is']|] //=; rewrite /fin_sp /=.
by case: (transfer_sp_4 _ _ _ _ _ _ _ _ _ _ _).
Qed.

(** ** Generic zero-thickness and split laws *)
Lemma zero_gen m n (modes : layer n -> option ('M[C]_m * 'M[C]_m * 'M[C]_m)) A (fin : _ -> option A) l1 l l2 st r :
  (forall a b, rel a b -> fin b = fin a) ->
  (forall W V X, modes l = Some (W, V, X) -> X = 1%:M) ->
  obind fin (gstack pinv (map modes (l1 ++ l :: l2)) st) = Some r ->
  obind fin (gstack pinv (map modes (l1 ++ l2)) st) = Some r.
Proof.
move=> hf hm; rewrite !map_cat /=.
case e: (modes l) => [[[W V] X]|].
  rewrite (hm _ _ _ e).
  case hg: (gstack _ _ st) => [st'|] //= h.
  by have [st2 -> r2] := gstack_zero hg; rewrite /= -(hf _ _ r2).
rewrite /gstack stack_with_cat /=; case: (stack_with _ _ st) => //.
Qed.

Lemma split_gen m n (modes : layer n -> option ('M[C]_m * 'M[C]_m * 'M[C]_m)) l1 la lb lc l2 st :
  (forall W V X, modes lc = Some (W, V, X) -> exists X1 X2,
      [/\ modes la = Some (W, V, X1), modes lb = Some (W, V, X2), X1 *m X2 = X & X2 *m X1 = X]) ->
  (modes lc = None -> modes la = None /\ modes lb = None) ->
  gstack pinv (map modes (l1 ++ la :: lb :: l2)) st = gstack pinv (map modes (l1 ++ lc :: l2)) st.
Proof.
move=> h h0; rewrite !map_cat /=.
case e: (modes lc) => [[[W V] X]|].
  have [X1 [X2 [-> -> e1 e2]]] := h _ _ _ e.
  by rewrite gstack_merge ?e1 ?e2.
have [-> ->] := h0 e.
by rewrite /gstack !stack_with_cat /=; case: (stack_with _ _ st).
Qed.

Lemma modes_1d_zero pol n kx k0 (ex ey ez : 'M[C]_n) W V X :
  modes_1d pinv eig pol kx k0 (Layer ex ey ez 0) = Some (W, V, X) -> X = 1%:M.
Proof. by rewrite /modes_1d; case: (transfer_1d_2 _ _ _ _ _ _ _ _) => [[[? ?] q]|] //= [_ _ <-]; rewrite Xmat0. Qed.
Lemma modes_2d_zero n kxt kyt c s k0 (ex ey ez : 'M[C]_n) W V X :
  modes_2d pinv eig kxt kyt c s k0 (Layer ex ey ez 0) = Some (W, V, X) -> X = 1%:M.
Proof. by rewrite /modes_2d; case: (transfer_2d_2 _ _ _ _ _ _ _ _) => [[[? ?] q]|] //= [_ _ <-]; rewrite big_X0. Qed.
Lemma modes_conical_zero n kxt kyt c s k0 (ex ey ez : 'M[C]_n) W V X :
  modes_conical pinv eig kxt kyt c s k0 (Layer ex ey ez 0) = Some (W, V, X) -> X = 1%:M.
Proof. by rewrite /modes_conical; case: (transfer_1d_conical_2 _ _ _ _ _ _ _ _) => [[[? ?] q]|] //= [_ _ <-]; rewrite big_X0. Qed.

Lemma modes_1d_split pol n kx k0 (ex ey ez : 'M[C]_n) d1 d2 l1 l2 st :
  let L d := Layer ex ey ez d in let f := map (modes_1d pinv eig pol kx k0) in
  gstack pinv (f (l1 ++ L d1 :: L d2 :: l2)) st = gstack pinv (f (l1 ++ L (d1 + d2)%coqR :: l2)) st.
Proof.
apply: split_gen; rewrite /modes_1d /=; case: (transfer_1d_2 _ _ _ _ _ _ _ _) => [[[W V] q]|] //= ? ? ? [<- <- <-].
exists (Xmat k0 q d1), (Xmat k0 q d2); split=> //; rewrite XmatD //; congr Xmat; ring.
Qed.
Lemma modes_2d_split n kxt kyt c s k0 (ex ey ez : 'M[C]_n) d1 d2 l1 l2 st :
  let L d := Layer ex ey ez d in let f := map (modes_2d pinv eig kxt kyt c s k0) in
  gstack pinv (f (l1 ++ L d1 :: L d2 :: l2)) st = gstack pinv (f (l1 ++ L (d1 + d2)%coqR :: l2)) st.
Proof.
apply: split_gen; rewrite /modes_2d /=; case: (transfer_2d_2 _ _ _ _ _ _ _ _) => [[[W V] q]|] //= ? ? ? [<- <- <-].
exists (big_X k0 q d1), (big_X k0 q d2); split=> //; rewrite big_XD //; congr big_X; ring.
Qed.
Lemma modes_conical_split n kxt kyt c s k0 (ex ey ez : 'M[C]_n) d1 d2 l1 l2 st :
  let L d := Layer ex ey ez d in let f := map (modes_conical pinv eig kxt kyt c s k0) in
  gstack pinv (f (l1 ++ L d1 :: L d2 :: l2)) st = gstack pinv (f (l1 ++ L (d1 + d2)%coqR :: l2)) st.
Proof.
apply: split_gen; rewrite /modes_conical /=; case: (transfer_1d_conical_2 _ _ _ _ _ _ _ _) => [[[W V] q]|] //= ? ? ? [<- <- <-].
exists (big_X k0 q d1), (big_X k0 q d2); split=> //; rewrite big_XD //; congr big_X; ring.
Qed.

(** ** C05 *)
Lemma zero_solve_1d s w ts1 ts2 cs1 c cs2 r : size cs1 = size ts1 ->
  reported_1d (solve_1d pinv eig false (with_thickness s (ts1 ++ 0%coqR :: ts2)) w (cs1 ++ c :: cs2)) = Some r ->
  reported_1d (solve_1d pinv eig false (with_thickness s (ts1 ++ ts2)) w (cs1 ++ cs2)) = Some r.
Proof.
move=> hs; rewrite /solve_1d /= !layers_of_cat // /=; case: c => [[ex ey] ez].
case: (layers_of cs1 ts1) => [l1|] //; case: (layers_of cs2 ts2) => [l2|] //.
rewrite !reported_rcwa_1d -/(kx_vector s w).
case: (transfer_1d_1 _ _ _ _ _) => [[[[[kt kb] F] G] T]|] //.
apply: zero_gen; [exact: fin_1d_rel | exact: modes_1d_zero].
Qed.

Lemma zero_solve_2d s w ts1 ts2 cs1 c cs2 r : size cs1 = size ts1 ->
  reported_sp (solve_2d pinv eig false (with_thickness s (ts1 ++ 0%coqR :: ts2)) w (cs1 ++ c :: cs2)) = Some r ->
  reported_sp (solve_2d pinv eig false (with_thickness s (ts1 ++ ts2)) w (cs1 ++ cs2)) = Some r.
Proof.
move=> hs; rewrite /solve_2d /= !layers_of_cat // /=; case: c => [[ex ey] ez].
case: (layers_of cs1 ts1) => [l1|] //; case: (layers_of cs2 ts2) => [l2|] //.
rewrite !reported_rcwa_2d.
case: (transfer_sp_1 _ _ _ _ _) => [[[[[[[kt kb] c'] s'] F] G] T]|] //.
apply: zero_gen; [exact: fin_sp_rel | exact: modes_2d_zero].
Qed.

Lemma zero_solve_conical s w ts1 ts2 cs1 c cs2 r : size cs1 = size ts1 ->
  reported_sp (solve_1d_conical pinv eig false (with_thickness s (ts1 ++ 0%coqR :: ts2)) w (cs1 ++ c :: cs2)) = Some r ->
  reported_sp (solve_1d_conical pinv eig false (with_thickness s (ts1 ++ ts2)) w (cs1 ++ cs2)) = Some r.
Proof.
move=> hs; rewrite /solve_1d_conical /=; case: ifP => // _; rewrite !layers_of_cat // /=; case: c => [[ex ey] ez].
case: (layers_of cs1 ts1) => [l1|] //; case: (layers_of cs2 ts2) => [l2|] //.
rewrite !reported_rcwa_conical.
case: (transfer_sp_1 _ _ _ _ _) => [[[[[[[kt kb] c'] s'] F] G] T]|] //.
apply: zero_gen; [exact: fin_sp_rel | exact: modes_conical_zero].
Qed.

(** ** C06 *)
Lemma split_solve_1d s w ts1 d1 d2 ts2 cs1 c cs2 : size cs1 = size ts1 ->
  reported_1d (solve_1d pinv eig false (with_thickness s (ts1 ++ d1 :: d2 :: ts2)) w (cs1 ++ c :: c :: cs2)) =
  reported_1d (solve_1d pinv eig false (with_thickness s (ts1 ++ (d1 + d2)%coqR :: ts2)) w (cs1 ++ c :: cs2)).
Proof.
move=> hs; rewrite /solve_1d /= !layers_of_cat // /=; case: c => [[ex ey] ez].
case: (layers_of cs1 ts1) => [l1|] //; case: (layers_of cs2 ts2) => [l2|] //.
rewrite !reported_rcwa_1d.
case: (transfer_1d_1 _ _ _ _ _) => [[[[[kt kb] F] G] T]|] //.
by rewrite modes_1d_split.
Qed.

Lemma split_solve_2d s w ts1 d1 d2 ts2 cs1 c cs2 : size cs1 = size ts1 ->
  reported_sp (solve_2d pinv eig false (with_thickness s (ts1 ++ d1 :: d2 :: ts2)) w (cs1 ++ c :: c :: cs2)) =
  reported_sp (solve_2d pinv eig false (with_thickness s (ts1 ++ (d1 + d2)%coqR :: ts2)) w (cs1 ++ c :: cs2)).
Proof.
move=> hs; rewrite /solve_2d /= !layers_of_cat // /=; case: c => [[ex ey] ez].
case: (layers_of cs1 ts1) => [l1|] //; case: (layers_of cs2 ts2) => [l2|] //.
rewrite !reported_rcwa_2d.
case: (transfer_sp_1 _ _ _ _ _) => [[[[[[[kt kb] c'] s'] F] G] T]|] //.
by rewrite modes_2d_split.
Qed.

Lemma split_solve_conical s w ts1 d1 d2 ts2 cs1 c cs2 : size cs1 = size ts1 ->
  reported_sp (solve_1d_conical pinv eig false (with_thickness s (ts1 ++ d1 :: d2 :: ts2)) w (cs1 ++ c :: c :: cs2)) =
  reported_sp (solve_1d_conical pinv eig false (with_thickness s (ts1 ++ (d1 + d2)%coqR :: ts2)) w (cs1 ++ c :: cs2)).
Proof.
move=> hs; rewrite /solve_1d_conical /=; case: ifP => // _; rewrite !layers_of_cat // /=; case: c => [[ex ey] ez].
case: (layers_of cs1 ts1) => [l1|] //; case: (layers_of cs2 ts2) => [l2|] //.
rewrite !reported_rcwa_conical.
case: (transfer_sp_1 _ _ _ _ _) => [[[[[[[kt kb] c'] s'] F] G] T]|] //.
by rewrite modes_conical_split.
Qed.

End Solvers.
