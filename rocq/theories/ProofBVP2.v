(** The boundary-value problem of the conical and 2D solvers. *)
From Coq Require Import Reals Lra Psatz FunctionalExtensionality.
From mathcomp Require Import all_ssreflect ssralg matrix mxalgebra.
From Coquelicot Require Import Complex.
From Verif Require Import Cplx Mx ModelTM ModelField Spec SpecSolve SpecField ProofFlux ProofEnergy1D ProofEnergy2D
  ProofEff ProofEnd ProofSubstrate ProofWellSolve ProofField ProofBVP.

Set Implicit Arguments.
Unset Strict Implicit.
Unset Printing Implicit Defensive.
Local Open Scope ring_scope.
Import GRing.Theory.

(** ** Rotations *)
Section Rots.
Variables (n : nat) (c s : nat -> C).

Definition RotHi : 'M[C]_(n + n) := block_mx (diagf n c) (- diagf n s) (diagf n s) (diagf n c).

Lemma rot_H_K : rot_ok n c s -> RotHi *m RotH n c s = 1%:M.
Proof.
move=> h; rewrite /RotHi /RotH mulmx_block !(mulNmx, mulmxN) opprK (FF1 h) [diagf n s *m diagf n s + _]addrC (FF1 h).
by rewrite -(FcFs n c s) !subrr -scalar_mx_block.
Qed.
Lemma rot_H_K' : rot_ok n c s -> RotH n c s *m RotHi = 1%:M.
Proof. by move=> h; apply: mulmx1C; exact: rot_H_K. Qed.

Lemma RotE_col (a b : 'cV[C]_n) : RotE n c s *m col_mx a b = e_xy c s (fun i => a i ord0) (fun i => b i ord0).
Proof.
rewrite /RotE mul_block_col /e_xy mulNmx; congr col_mx; apply/colP => i;
  rewrite [in RHS]mxE mxE ?[(- _ : 'cV[C]_n) i _]mxE /diagf !diag_mulE !mxE; mring.
Qed.
Lemma RotHi_col (a b : 'cV[C]_n) : RotHi *m col_mx a b = h_xy c s (fun i => a i ord0) (fun i => b i ord0).
Proof.
rewrite /RotHi mul_block_col /h_xy mulNmx; congr col_mx; apply/colP => i;
  rewrite [in RHS]mxE mxE ?[(- _ : 'cV[C]_n) i _]mxE /diagf !diag_mulE !mxE; mring.
Qed.
Lemma RotHiN_col (a b : 'cV[C]_n) :
  - (RotHi *m col_mx a b) = h_xy c s (fun i => - a i ord0) (fun i => - b i ord0).
Proof.
rewrite -mulmxN opp_col_mx RotHi_col /h_xy; congr col_mx; apply/colP => i; rewrite !mxE; mring.
Qed.
End Rots.

Lemma e_xy_eq n (c s : nat -> C) (a b a' b' : 'I_n -> C) : (forall i, a i = a' i) -> (forall i, b i = b' i) ->
  e_xy c s a b = e_xy c s a' b'.
Proof. by move=> h1 h2; rewrite /e_xy; congr col_mx; apply/colP => i; rewrite !mxE h1 h2. Qed.
Lemma h_xy_eq n (c s : nat -> C) (a b a' b' : 'I_n -> C) : (forall i, a i = a' i) -> (forall i, b i = b' i) ->
  h_xy c s a b = h_xy c s a' b'.
Proof. by move=> h1 h2; rewrite /h_xy; congr col_mx; apply/colP => i; rewrite !mxE h1 h2. Qed.

(** ** Profiles by halves *)
Lemma profile_col n k0 d (q : 'rV[C]_(n + n)) (c1 c2 : 'cV[C]_(n + n)) z s :
  profile k0 d q c1 c2 z s =
  col_mx (profile k0 d (lsubmx q) (usubmx c1) (usubmx c2) z s) (profile k0 d (rsubmx q) (dsubmx c1) (dsubmx c2) z s).
Proof.
rewrite !profileE; apply/colP => i; rewrite !mxE; case: splitP => k e; rewrite !mxE.
- by have -> : i = lshift n k by apply: val_inj.
- by have -> : i = rshift n k by apply: val_inj.
Qed.

(** ** Layers and stacks *)
Section Sp.
Variable pinv : forall n, 'M[C]_n -> 'M[C]_n.
Variable eig : forall n, 'M[C]_n -> 'rV[C]_n * 'M[C]_n.
Variable n : nat.
Variables (kx ky c s : nat -> C) (k0 : R).

Definition g2 (l : info_sp 'M[C]_(n + n) n) : gmode (n + n) := GMode (is_W l) (is_V l) (is_q l) (is_d l) (is_Ai l) (is_B l).
Definition gc (l : info_sp 'M[C]_(n, n + n) n) : gmode (n + n) :=
  GMode (block_mx 0 (rsubmx (is_W l)) (ulsubmx (is_V l)) (ursubmx (is_V l)))
        (block_mx (lsubmx (is_W l)) 0 (dlsubmx (is_V l)) (drsubmx (is_V l))) (is_q l) (is_d l) (is_Ai l) (is_B l).

Lemma stack_chain_2d F0 G0 (ls : seq (layer n)) F G T infos :
  stack_with (step_2d pinv eig false kx ky c s k0) ls (F0, G0, 1%:M, [::]) = Some (F, G, T, infos) ->
  chain pinv k0 (RotE n c s) (RotH n c s) F0 G0 (map g2 (rev infos)) F G T /\
  map (@is_d _ n) (rev infos) = map (@thick n) ls.
Proof.
elim: ls F G T infos => [|l ls IH] F G T infos /=.
  by case=> <- <- <- <-.
case e: (stack_with _ _ _) => [[[[F1 G1] T1] is']|] //; have [h1 h2] := IH _ _ _ _ e.
rewrite /step_2d; case h3: (transfer_2d_2 _ _ _ _ _ _ _ _) => [[[W V] q]|] //.
rewrite /transfer_2d_3 big_2d_rot.
case h4: (layer_update _ _ _ _ _ _ _ _) => [[[[[F2 G2] T2] Ai] B]|] // [<- <- <- <-].
rewrite rev_rcons /=; split; last by rewrite h2.
by exists F1, G1, T1; split=> //; rewrite /gX /= -Xmat_row.
Qed.

Lemma conical_rot (W : 'M[C]_(n, n + n)) (V : 'M[C]_(n + n)) : conical_big W V c s =
  (RotE n c s *m block_mx 0 (rsubmx W) (ulsubmx V) (ursubmx V), RotH n c s *m block_mx (lsubmx W) 0 (dlsubmx V) (drsubmx V)).
Proof. by rewrite -big_2d_rot -conical_is_2d hsubmxK submxK. Qed.

Lemma stack_chain_conical F0 G0 (ls : seq (layer n)) F G T infos :
  stack_with (step_conical pinv eig false kx ky c s k0) ls (F0, G0, 1%:M, [::]) = Some (F, G, T, infos) ->
  chain pinv k0 (RotE n c s) (RotH n c s) F0 G0 (map gc (rev infos)) F G T /\
  map (@is_d _ n) (rev infos) = map (@thick n) ls.
Proof.
elim: ls F G T infos => [|l ls IH] F G T infos /=.
  by case=> <- <- <- <-.
case e: (stack_with _ _ _) => [[[[F1 G1] T1] is']|] //; have [h1 h2] := IH _ _ _ _ e.
rewrite /step_conical; case h3: (transfer_1d_conical_2 _ _ _ _ _ _ _ _) => [[[W V] q]|] //.
rewrite /transfer_1d_conical_3 conical_rot.
case h4: (layer_update _ _ _ _ _ _ _ _) => [[[[[F2 G2] T2] Ai] B]|] // [<- <- <- <-].
rewrite rev_rcons /=; split; last by rewrite h2.
by exists F1, G1, T1; split=> //; rewrite /gX /= -Xmat_row.
Qed.

Definition media_of (ls : seq (layer n)) := [seq medium_sp kx ky (conv_of l) (thick l) | l <- ls].

Hypothesis heig : eig_ok eig.

Lemma diagonal_2d (l : layer n) W V q :
  transfer_2d_2 pinv eig false kx ky (epx l) (epy l) (epzi l) = Some (W, V, q) ->
  diagonalised (medium_sp kx ky (conv_of l) (thick l)) W V q.
Proof. by move=> /(modal_2d heig) [h1 h2]; split; rewrite /medium_sp /m_P /m_Q ?e_from_hE ?h_from_eE. Qed.

Lemma diagonal_conical (ky0 : C) (l : layer n) W V q :
  (forall i, (i < n)%N -> ky i = ky0) -> y_uniform l ->
  transfer_1d_conical_2 pinv eig false kx ky (epx l) (epy l) (epzi l) = Some (W, V, q) ->
  diagonalised (medium_sp kx ky (conv_of l) (thick l))
    (block_mx 0 (rsubmx W) (ulsubmx V) (ursubmx V)) (block_mx (lsubmx W) 0 (dlsubmx V) (drsubmx V)) q.
Proof.
move=> hky hEE; rewrite /transfer_1d_conical_2.
set Kx := diagf n kx; set Ky := diagf n ky.
have eKy : Ky = ky0%:M.
  by apply/matrixP => i j; rewrite !mxE hky.
set A := Kx *m Kx - epy l; set B := Kx *m epzi l *m Kx - 1%:M.
have := heig (Ky *m Ky + A); case: (eig _) => l1 W1 h1; rewrite /= in h1.
have := heig (Ky *m Ky + B *m epx l); case: (eig _) => l2 W2 h2; rewrite /= in h2.
case hA: (meeinv pinv false A) => [Ai|] //; have [uA ->] := meeinv_some hA.
case hB: (meeinv pinv false B) => [Bi|] //; have [uB ->] := meeinv_some hB.
case=> <- <- <-.
rewrite -sqrtv_sqr eKy in h1; rewrite -sqrtv_sqr eKy in h2.
rewrite row_mxKl row_mxKr block_mxKul block_mxKur block_mxKdl block_mxKdr.
split; rewrite /medium_sp /m_P /m_Q ?e_from_hE ?h_from_eE -/Kx -/Ky eKy.
- exact: con_L uA uB hEE h1.
- exact: con_R uA uB hEE h2.
Qed.

Lemma stack_matched_2d F0 G0 T0 (ls : seq (layer n)) F G T infos :
  stack_with (step_2d pinv eig false kx ky c s k0) ls (F0, G0, T0, [::]) = Some (F, G, T, infos) ->
  matched (media_of ls) (map g2 (rev infos)).
Proof.
elim: ls F G T infos => [|l ls IH] F G T infos /=.
  by case=> _ _ _ <-.
case e: (stack_with _ _ _) => [[[[F1 G1] T1] is']|] //; have h1 := IH _ _ _ _ e.
rewrite /step_2d; case h3: (transfer_2d_2 _ _ _ _ _ _ _ _) => [[[W V] q]|] //.
case h4: (transfer_2d_3 _ _ _ _ _ _ _ _ _ _ _ _) => [[[[[F2 G2] T2] Ai] B]|] // [_ _ _ <-].
by rewrite rev_rcons /=; split=> //; exact: diagonal_2d h3.
Qed.

Lemma stack_matched_conical ky0 F0 G0 T0 (ls : seq (layer n)) F G T infos :
  (forall i, (i < n)%N -> ky i = ky0) -> (forall l, List.In l ls -> y_uniform l) ->
  stack_with (step_conical pinv eig false kx ky c s k0) ls (F0, G0, T0, [::]) = Some (F, G, T, infos) ->
  matched (media_of ls) (map gc (rev infos)).
Proof.
move=> hky; elim: ls F G T infos => [|l ls IH] F G T infos hl /=.
  by case=> _ _ _ <-.
case e: (stack_with _ _ _) => [[[[F1 G1] T1] is']|] //.
have h1 := IH _ _ _ _ (fun l' h => hl l' (or_intror h)) e.
rewrite /step_conical; case h3: (transfer_1d_conical_2 _ _ _ _ _ _ _ _) => [[[W V] q]|] //.
case h4: (transfer_1d_conical_3 _ _ _ _ _ _ _ _ _ _ _ _) => [[[[[F2 G2] T2] Ai] B]|] // [_ _ _ <-].
by rewrite rev_rcons /=; split=> //; apply: diagonal_conical hky _ h3; apply: hl; left.
Qed.

End Sp.

(** ** Above and below *)
Section EndsSp.
Variable n : nat.
Variables (kx ky c s : nat -> C) (th nt nb : C).
Hypothesis hcs : rot_ok n c s.

Lemma kz_2dE nn i : kz_2d nn kx ky i = kz_of nn (kx i) (ky i).
Proof. by []. Qed.

Definition F0_sp : 'M[C]_(n + n) := block_mx (1%:M : 'M[C]_n) 0 0 ((ci / nb ^+ 2) *: diagf n (kz_2d nb kx ky)).
Definition G0_sp : 'M[C]_(n + n) := block_mx (ci *: diagf n (kz_2d nb kx ky)) 0 0 (1%:M : 'M[C]_n).

Lemma belowE_sp (Tv : 'cV[C]_(n + n)) :
  below_sp nb kx ky c s (usubmx Tv) (dsubmx Tv) = face (RotE n c s) (RotHi n c s) F0_sp G0_sp Tv.
Proof.
rewrite -[in RHS](vsubmxK Tv) /face /F0_sp /G0_sp [block_mx 1%:M _ _ _ *m _]mul_block_col [block_mx (ci *: _) _ _ _ *m _]mul_block_col.
rewrite !(mul0mx, mul1mx, addr0, add0r) RotE_col RotHiN_col.
rewrite /below_sp; congr pair; [apply: e_xy_eq => i|apply: h_xy_eq => i] => //.
- by rewrite -scalemxAl scale_entry /diagf diag_mulE mxE kz_2dE mulrA.
- by rewrite -scalemxAl scale_entry /diagf diag_mulE mxE kz_2dE; mring.
Qed.

Definition top_F psi (Rs Rp : 'cV[C]_n) : 'cV[C]_(n + n) :=
  col_mx (Rs + csin psi *: delta_i0 n)
         ((- ci / nt ^+ 2) *: diagf n (kz_2d nt kx ky) *m Rp - (ccos psi * ccos th) *: delta_i0 n).
Definition top_G psi (Rs Rp : 'cV[C]_n) : 'cV[C]_(n + n) :=
  col_mx ((- ci) *: diagf n (kz_2d nt kx ky) *m Rs + (ci * csin psi * nt * ccos th) *: delta_i0 n)
         (Rp + (ci * nt * ccos psi) *: delta_i0 n).

Lemma aboveE_sp psi Rs Rp :
  above_sp nt th psi kx ky c s Rs Rp = (RotE n c s *m top_F psi Rs Rp, - (RotHi n c s *m top_G psi Rs Rp)).
Proof.
rewrite RotE_col RotHiN_col /above_sp; congr pair; [apply: e_xy_eq => i|apply: h_xy_eq => i].
- by rewrite !mxE; mring.
- rewrite mxE -scalemxAl scale_entry /diagf diag_mulE !mxE kz_2dE; move: (kz_of _ _ _) (Rp i ord0) => a b.
  set m := nt ^+ 2; set u := m^-1; case: ifP => _; cring.
- rewrite mxE -scalemxAl scale_entry /diagf diag_mulE !mxE kz_2dE; move: (kz_of _ _ _) (Rs i ord0) => a b.
  case: ifP => _; cring.
- by rewrite !mxE; case: ifP => _; mring.
Qed.

Lemma final_iff (F G : 'M[C]_(n + n)) psi Rs Rp (t : 'cV[C]_(n + n)) :
  final_A F G (kz_2d nt kx ky) nt *m col_mx (col_mx Rs Rp) t = final_B n psi th nt <->
  F *m t = top_F psi Rs Rp /\ G *m t = top_G psi Rs Rp.
Proof.
rewrite /final_A mul_block_col !mul_block_col !(mul1mx, mul0mx, addr0, add0r) !mulNmx /final_B /top_F /top_G.
set a := (_ *: _ *m Rp); set b := (_ *: _ *m Rs); set d := delta_i0 n; set f := F *m t; set g := G *m t.
have colB (x y x' y' : 'cV[C]_n) : col_mx x y - col_mx x' y' = col_mx (x - x') (y - y').
  by rewrite opp_col_mx add_col_mx.
split.
  move/eq_col_mx => -[h1 h2]; split.
    have -> : f = col_mx Rs a - (col_mx Rs a - f) by rewrite opprB addrC subrK.
    by rewrite h1 colB scaleNr opprK.
  have -> : g = col_mx b Rp - (col_mx b Rp - g) by rewrite opprB addrC subrK.
  by rewrite h2 colB !mulNr !scaleNr !opprK.
case=> -> ->; rewrite !colB; congr col_mx; congr col_mx.
- by rewrite opprD addrA subrr add0r scaleNr.
- by rewrite opprB addrC subrK.
- by rewrite opprD addrA subrr add0r !mulNr scaleNr.
- by rewrite opprD addrA subrr add0r !mulNr scaleNr.
Qed.

Lemma face_top (F G : 'M[C]_(n + n)) psi Rs Rp t :
  above_sp nt th psi kx ky c s Rs Rp = face (RotE n c s) (RotHi n c s) F G t <->
  final_A F G (kz_2d nt kx ky) nt *m col_mx (col_mx Rs Rp) t = final_B n psi th nt.
Proof.
rewrite final_iff aboveE_sp /face; split=> [[h1 /oppr_inj h2]|[-> ->]] //.
split.
  by rewrite -[LHS]mul1mx -(rot_E_K hcs) -mulmxA -h1 mulmxA (rot_E_K hcs) mul1mx.
by rewrite -[LHS]mul1mx -(rot_H_K' hcs) -mulmxA -h2 mulmxA (rot_H_K' hcs) mul1mx.
Qed.

Lemma extract_face (F G T : 'M[C]_(n + n)) kb psi : final_A F G (kz_2d nt kx ky) nt \in unitmx ->
  let d := extract_sp (solveRT F G (kz_2d nt kx ky) psi th nt) T (kz_2d nt kx ky) kb th nt nb in
  above_sp nt th psi kx ky c s (R_s d.1) (R_p d.1) = face (RotE n c s) (RotHi n c s) F G d.2 /\
  col_mx (T_s d.1) (T_p d.1) = T *m d.2.
Proof.
move=> u d; split; last by rewrite /d /= vsubmxK.
by apply/face_top; rewrite /d /extract_sp /= !vsubmxK /solveRT mulKVmx.
Qed.

Lemma extract_unique (F G T : 'M[C]_(n + n)) kb psi Rs Rp t : final_A F G (kz_2d nt kx ky) nt \in unitmx ->
  above_sp nt th psi kx ky c s Rs Rp = face (RotE n c s) (RotHi n c s) F G t ->
  let d := extract_sp (solveRT F G (kz_2d nt kx ky) psi th nt) T (kz_2d nt kx ky) kb th nt nb in
  [/\ Rs = R_s d.1, Rp = R_p d.1 & t = d.2].
Proof.
move=> u /face_top h d.
have e : solveRT F G (kz_2d nt kx ky) psi th nt = col_mx (col_mx Rs Rp) t by rewrite /solveRT -h mulKmx.
by rewrite /d /extract_sp /= e !(col_mxKu, col_mxKd).
Qed.

End EndsSp.

(** The direction cosines of the code. *)
Lemma varphi_directions n (kx ky : nat -> C) : real_vec n kx -> real_vec n ky ->
  directions n kx ky (fun i => cos_varphi (kx i) (ky i)) (fun i => sin_varphi (kx i) (ky i)).
Proof.
move=> rx ry i; have [r1 r2 r3] := varphi_rot rx ry; have li := ltn_ord i.
split.
- by rewrite !expr2; exact: r3.
- rewrite /cos_varphi /sin_varphi; case: eqP => [->|/eqP n0]; first by rewrite mul0r mulr0.
  by rewrite [_ / csqrt _ * _]mulrAC divfK // mulrC.
- by exists (Re (cos_varphi (kx i) (ky i))); apply: conj_real; exact: r1.
- by exists (Re (sin_varphi (kx i) (ky i))); apply: conj_real; exact: r2.
rewrite /cos_varphi /sin_varphi; case: eqP => [e|/eqP n0].
  by split=> //; case: Rlt_dec.
have [t ->] : exists t : R, ky i / kx i = RtoC t.
  by exists (Re (ky i / kx i)); apply: conj_real; apply: real_div; [exact: ry|exact: rx].
have h : (0 < 1 + t * t)%coqR by nra.
have -> : csqrt (1 + RtoC t ^+ 2) = RtoC (sqrt (1 + t * t)).
  by rewrite -csqrt_nonneg; [rewrite RtoC_add RtoC_mul expr2|lra].
have h2 := sqrt_lt_R0 _ h.
by rewrite -RtoC_inv ?Re_RtoC; [apply: Rinv_0_lt_compat|lra].
Qed.

Section BvpSp.
Variable pinv : forall n, 'M[C]_n -> 'M[C]_n.
Variable eig : forall n, 'M[C]_n -> 'rV[C]_n * 'M[C]_n.
Variable n : nat.
Variables (kx ky : nat -> C) (k0 : R) (th nt nb : C).
Hypothesis rx : real_vec n kx.
Hypothesis ry : real_vec n ky.
Let c := fun i => cos_varphi (kx i) (ky i).
Let s := fun i => sin_varphi (kx i) (ky i).

Lemma profiles_g2 (T1 : 'cV[C]_(n + n)) infos :
  field_profiles_2d k0 kx ky T1 infos = gfields k0 T1 (map (@g2 n) (rev infos)).
Proof.
rewrite /field_profiles_2d; move: (rev infos) => is' {infos}.
elim: is' T1 => [|l is' IH] T1 //=; congr cons; last exact: IH.
congr pair; apply: functional_extensionality => z.
  rewrite /e_part /modes_2d /complete /gu /back_sp /gX /= profile_col -{5}[is_W l]submxK mul_block_col //.
rewrite /h_part /modes_2d /complete /gv /back_sp /gX /= profile_col -{5}[is_V l]submxK mul_block_col //.
Qed.

Lemma profiles_gc (T1 : 'cV[C]_(n + n)) infos :
  field_profiles_conical k0 kx ky T1 infos = gfields k0 T1 (map (@gc n) (rev infos)).
Proof.
rewrite /field_profiles_conical; move: (rev infos) => is' {infos}.
elim: is' T1 => [|l is' IH] T1 //=; congr cons; last first.
  by rewrite IH /next_conical Xmat_row.
congr pair; apply: functional_extensionality => z.
  rewrite /e_part /modes_conical /complete /gu /back_sp /gX Xmat_row /= profile_col mul_block_col mul0mx add0r //.
rewrite /h_part /modes_conical /complete /gv /back_sp /gX Xmat_row /= profile_col mul_block_col mul0mx addr0 //.
Qed.

Local Notation fits ms fs p d := (solution_sp k0 ms nt nb th p kx ky c s d fs).
Local Notation flows ds fs p d := (flow_sp ds nt nb th p kx ky c s d fs).

Lemma chain_fits ms gs (F G T : 'M[C]_(n + n)) psi kb :
  matched ms gs -> chain pinv k0 (RotE n c s) (RotH n c s) (F0_sp n kx ky nb) (G0_sp n kx ky nb) gs F G T ->
  final_A F G (kz_2d nt kx ky) nt \in unitmx ->
  let d := extract_sp (solveRT F G (kz_2d nt kx ky) psi th nt) T (kz_2d nt kx ky) kb th nt nb in
  fits ms (gfields k0 d.2 gs) psi d.1.
Proof.
move=> hm hc u d; have hcs := varphi_rot rx ry.
have [e1 e2] := extract_face th nb hcs T kb psi u; rewrite -/d in e1 e2.
have eb : below_sp nb kx ky c s (T_s d.1) (T_p d.1) =
   face (RotE n c s) (RotHi n c s) (F0_sp n kx ky nb) (G0_sp n kx ky nb) (T *m d.2).
  by rewrite -e2 -belowE_sp col_mxKu col_mxKd.
split.
  split; last exact: chain_solve hm _.
  rewrite eb e1 (matched_d hm); exact: (chain_through (rot_E_K hcs) (rot_H_K hcs) hc).
move=> hd fs Rs Rp Ts Tp [h1 h2].
have e3 : below_sp nb kx ky c s Ts Tp =
   face (RotE n c s) (RotHi n c s) (F0_sp n kx ky nb) (G0_sp n kx ky nb) (col_mx Ts Tp).
  by rewrite -belowE_sp col_mxKu col_mxKd.
rewrite e3 in h1.
have [t [e4 e5]] := chain_unique (rot_E_K hcs) (rot_H_K hcs) hm hc hd (rot_E_K hcs) (rot_H_K' hcs) h1 h2.
have [-> -> et] := extract_unique nb hcs T kb u e4; rewrite -/d in et *.
by move: e5; rewrite et -e2 => /eq_col_mx [-> ->].
Qed.

(** Continuity alone needs nothing of the eigen-solver. *)
Lemma chain_fields gs (F G T : 'M[C]_(n + n)) psi kb :
  chain pinv k0 (RotE n c s) (RotH n c s) (F0_sp n kx ky nb) (G0_sp n kx ky nb) gs F G T ->
  final_A F G (kz_2d nt kx ky) nt \in unitmx ->
  let d := extract_sp (solveRT F G (kz_2d nt kx ky) psi th nt) T (kz_2d nt kx ky) kb th nt nb in
  through (map (@gd _) gs) (above_sp nt th psi kx ky c s (R_s d.1) (R_p d.1)) (gfields k0 d.2 gs)
    (below_sp nb kx ky c s (T_s d.1) (T_p d.1)).
Proof.
move=> hc u d; have hcs := varphi_rot rx ry.
have [e1 e2] := extract_face th nb hcs T kb psi u; rewrite -/d in e1 e2.
have -> : below_sp nb kx ky c s (T_s d.1) (T_p d.1) =
   face (RotE n c s) (RotHi n c s) (F0_sp n kx ky nb) (G0_sp n kx ky nb) (T *m d.2).
  by rewrite -e2 -belowE_sp col_mxKu col_mxKd.
rewrite e1; exact: (chain_through (rot_E_K hcs) (rot_H_K hcs) hc).
Qed.

Lemma fields_2d psi (ls : seq (layer n)) r infos :
  rcwa_2d pinv eig false kx ky k0 psi th nt nb ls = Some (r, infos) ->
  flow3_sp (map (@thick n) ls) nt nb th psi kx ky c s r (fun t => field_profiles_2d k0 kx ky t infos).
Proof.
rewrite /rcwa_2d /transfer_sp_1; case: ifP => // _.
case hs: (stack_with _ _ _) => [[[[F G] T] is']|] //; have [hc hd] := stack_chain_2d hs.
case h4: (transfer_sp_4 _ _ _ _ _ _ _ _ _ _ _) => [r4|] //; have [uA ->] := transfer_sp_4_some h4.
case=> <- <-.
have e (p : C) := chain_fields p (kz_2d nb kx ky) hc uA.
have ed : map (@gd _) (map (@g2 n) (rev is')) = map (@thick n) ls by rewrite -hd -map_comp.
by split; rewrite /flow_sp /= -ed profiles_g2; [exact: (e psi)|exact: (e (RtoC (PI / 2)))|exact: (e (RtoC 0))].
Qed.

Lemma fields_conical psi (ls : seq (layer n)) r infos :
  rcwa_conical pinv eig false kx ky k0 psi th nt nb ls = Some (r, infos) ->
  flow3_sp (map (@thick n) ls) nt nb th psi kx ky c s r (fun t => field_profiles_conical k0 kx ky t infos).
Proof.
rewrite /rcwa_conical /transfer_sp_1; case: ifP => // _.
case hs: (stack_with _ _ _) => [[[[F G] T] is']|] //; have [hc hd] := stack_chain_conical hs.
case h4: (transfer_sp_4 _ _ _ _ _ _ _ _ _ _ _) => [r4|] //; have [uA ->] := transfer_sp_4_some h4.
case=> <- <-.
have e (p : C) := chain_fields p (kz_2d nb kx ky) hc uA.
have ed : map (@gd _) (map (@gc n) (rev is')) = map (@thick n) ls by rewrite -hd -map_comp.
by split; rewrite /flow_sp /= -ed profiles_gc; [exact: (e psi)|exact: (e (RtoC (PI / 2)))|exact: (e (RtoC 0))].
Qed.

Hypothesis heig : eig_ok eig.

Lemma bvp_2d psi (ls : seq (layer n)) r infos :
  rcwa_2d pinv eig false kx ky k0 psi th nt nb ls = Some (r, infos) ->
  solution3_sp k0 (media_of kx ky ls) nt nb th psi kx ky c s r (fun t => field_profiles_2d k0 kx ky t infos).
Proof.
rewrite /rcwa_2d /transfer_sp_1; case: ifP => // _.
case hs: (stack_with _ _ _) => [[[[F G] T] is']|] //; have [hc hd] := stack_chain_2d hs.
have hm := stack_matched_2d heig hs.
case h4: (transfer_sp_4 _ _ _ _ _ _ _ _ _ _ _) => [r4|] //; have [uA ->] := transfer_sp_4_some h4.
case=> <- <-.
have e (p : C) := chain_fits p (kz_2d nb kx ky) hm hc uA.
by split; rewrite /= profiles_g2; [exact: (e psi)|exact: (e (RtoC (PI / 2)))|exact: (e (RtoC 0))].
Qed.

Lemma bvp_conical ky0 psi (ls : seq (layer n)) r infos :
  (forall i, (i < n)%N -> ky i = ky0) -> (forall l, List.In l ls -> y_uniform l) ->
  rcwa_conical pinv eig false kx ky k0 psi th nt nb ls = Some (r, infos) ->
  solution3_sp k0 (media_of kx ky ls) nt nb th psi kx ky c s r (fun t => field_profiles_conical k0 kx ky t infos).
Proof.
move=> hky hl; rewrite /rcwa_conical /transfer_sp_1; case: ifP => // _.
case hs: (stack_with _ _ _) => [[[[F G] T] is']|] //; have [hc hd] := stack_chain_conical hs.
have hm := stack_matched_conical heig hky hl hs.
case h4: (transfer_sp_4 _ _ _ _ _ _ _ _ _ _ _) => [r4|] //; have [uA ->] := transfer_sp_4_some h4.
case=> <- <-.
have e (p : C) := chain_fits p (kz_2d nb kx ky) hm hc uA.
by split; rewrite /= profiles_gc; [exact: (e psi)|exact: (e (RtoC (PI / 2)))|exact: (e (RtoC 0))].
Qed.

End BvpSp.
