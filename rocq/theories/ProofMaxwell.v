(** The fields calculate_field samples satisfy Maxwell's equations in space. *)
From Coq Require Import Reals Lra Psatz.
From mathcomp Require Import all_ssreflect ssralg matrix mxalgebra.
From Coquelicot Require Import Complex Hierarchy Continuity Derive AutoDerive.
From Verif Require Import Cplx Mx ModelTM ModelField Spec SpecSolve SpecField SpecMaxwell ProofFlux ProofEnergy1D ProofEnergy2D
  ProofSubstrate ProofField ProofWellSolve ProofSetup ProofBVP ProofBVP2 ProofFieldSolve.

Set Implicit Arguments.
Unset Strict Implicit.
Unset Printing Implicit Defensive.
Local Open Scope ring_scope.
Import GRing.Theory.

Lemma cderiv_opp f z l : cderiv f (- z)%coqR l -> cderiv (fun t => f (- t)%coqR) z (- l).
Proof.
have h (g : R -> R) k : is_derive g (- z)%coqR k -> is_derive (fun t => g (- t)%coqR) z (- k)%coqR.
  move=> hg; have := is_derive_comp g Ropp z k (-1)%coqR hg.
  have -> : scal (-1)%coqR k = (- k)%coqR by rewrite /scal /= /mult /=; ring.
  by apply; auto_derive=> //; ring.
by case=> h1 h2; split; [exact: h h1|exact: h h2].
Qed.

(** ** Sums over the orders *)
Section Orders.
Variables (n : nat) (k0 : R) (kx ky : nat -> C).

Definition ph (x y : R) (j : nat) : C := - ci * RtoC k0 * (kx j * RtoC x + ky j * RtoC y).
Definition osum (x y : R) (c : 'I_n -> C) : C := \sum_(j < n) cexp (ph x y j) * c j.

Lemma osum_eq x y c c' : (forall j, c j = c' j) -> osum x y c = osum x y c'.
Proof. by move=> h; apply: eq_bigr => j _; rewrite h. Qed.
Lemma osum_add x y c c' : osum x y c + osum x y c' = osum x y (fun j => c j + c' j).
Proof. by rewrite /osum -big_split; apply: eq_bigr => j _; rewrite mulrDr. Qed.
Lemma osum_scale a x y c : a * osum x y c = osum x y (fun j => a * c j).
Proof. by rewrite /osum mulr_sumr; apply: eq_bigr => j _; rewrite mulrCA. Qed.
Lemma osum_opp x y c : - osum x y c = osum x y (fun j => - c j).
Proof. by rewrite -mulN1r osum_scale; apply: osum_eq => j; rewrite mulN1r. Qed.

Lemma osum_dx x y c : cderiv (fun t => osum t y c) x (osum x y (fun j => - ci * RtoC k0 * kx j * c j)).
Proof.
apply: cderiv_sum => j.
apply: (@cderiv_ext (fun t => (cexp (- ci * RtoC k0 * (ky j * RtoC y)) * c j)
                              * cexp ((- ci * RtoC k0 * kx j) * RtoC (1 * t + 0)%coqR))).
  move=> t; rewrite Rmult_1_l Rplus_0_r mulrAC -cexpD; congr (cexp _ * _).
  by rewrite /ph; move: (kx j) (ky j) => a b; cring.
apply: cderiv_eq (cderiv_scale _ (cderiv_exp _ 1 0 x)).
rewrite Rmult_1_l Rplus_0_r.
have -> : ph x y j = (- ci * RtoC k0 * (ky j * RtoC y)) + (- ci * RtoC k0 * kx j) * RtoC x.
  by rewrite /ph; move: (kx j) (ky j) => a b; cring.
rewrite cexpD; set a := cexp _; set b := cexp _; move: a b (kx j) (c j) => a b d e; cring.
Qed.

Lemma osum_dy x y c : cderiv (fun t => osum x t c) y (osum x y (fun j => - ci * RtoC k0 * ky j * c j)).
Proof.
apply: cderiv_sum => j.
apply: (@cderiv_ext (fun t => (cexp (- ci * RtoC k0 * (kx j * RtoC x)) * c j)
                              * cexp ((- ci * RtoC k0 * ky j) * RtoC (1 * t + 0)%coqR))).
  move=> t; rewrite Rmult_1_l Rplus_0_r mulrAC -cexpD; congr (cexp _ * _).
  by rewrite /ph; move: (kx j) (ky j) => a b; cring.
apply: cderiv_eq (cderiv_scale _ (cderiv_exp _ 1 0 y)).
rewrite Rmult_1_l Rplus_0_r.
have -> : ph x y j = (- ci * RtoC k0 * (kx j * RtoC x)) + (- ci * RtoC k0 * ky j) * RtoC y.
  by rewrite /ph; move: (kx j) (ky j) => a b; cring.
rewrite cexpD; set a := cexp _; set b := cexp _; move: a b (ky j) (c j) => a b d e; cring.
Qed.

Lemma osum_dz x y (f : R -> 'cV[C]_n) z l : vderiv f (- z)%coqR l ->
  cderiv (fun t => osum x y (fun j => f (- t)%coqR j ord0)) z (osum x y (fun j => - l j ord0)).
Proof.
move=> h; apply: cderiv_sum => j; apply: cderiv_scale.
exact: (cderiv_opp (h j)).
Qed.

(** ** A layer *)

(** Depth dependence of the coefficients of the six components. *)
Definition layer_eqs (c : conv3 n) (t : R) (m : R -> modes n) : Prop :=
  let '(ex, ey, ez) := c in
  let a z := ez *m (diagf n kx *m m_Uy (m z) - diagf n ky *m m_Ux (m z)) in
  let b z := diagf n kx *m m_Sy (m z) - diagf n ky *m m_Sx (m z) in
  (forall z, (0 < z < t)%coqR ->
   [/\ vderiv (fun z => m_Sx (m z)) z (RtoC k0 *: (diagf n kx *m a z - m_Uy (m z))),
       vderiv (fun z => m_Sy (m z)) z (RtoC k0 *: (diagf n ky *m a z + m_Ux (m z))),
       vderiv (fun z => m_Ux (m z)) z (RtoC k0 *: (diagf n kx *m b z - ey *m m_Sy (m z)))
     & vderiv (fun z => m_Uy (m z)) z (RtoC k0 *: (diagf n ky *m b z + ex *m m_Sx (m z)))]) /\
  (forall z, m_Sz (m z) = (- ci) *: a z /\ m_Uz (m z) = (- ci) *: b z).

Definition e_of (m : R -> modes n) : vfield := fun x y z =>
  (osum x y (fun j => m_Sx (m (- z)%coqR) j ord0), osum x y (fun j => m_Sy (m (- z)%coqR) j ord0),
   osum x y (fun j => m_Sz (m (- z)%coqR) j ord0)).
Definition h_of (m : R -> modes n) : vfield := fun x y z =>
  (ci * osum x y (fun j => m_Ux (m (- z)%coqR) j ord0), ci * osum x y (fun j => m_Uy (m (- z)%coqR) j ord0),
   ci * osum x y (fun j => m_Uz (m (- z)%coqR) j ord0)).

Lemma diagfE (k : nat -> C) (v : 'cV[C]_n) j : (diagf n k *m v) j ord0 = k j * v j ord0.
Proof. by rewrite /diagf diag_mulE mxE. Qed.
Lemma addE (u v : 'cV[C]_n) j : (u + v) j ord0 = u j ord0 + v j ord0.
Proof. by rewrite mxE. Qed.
Lemma oppE (u : 'cV[C]_n) j : (- u) j ord0 = - u j ord0.
Proof. by rewrite mxE. Qed.

Lemma layer_maxwell c t m : layer_eqs c t m -> maxwell k0 kx ky c t (e_of m) (h_of m).
Proof.
case: c => [[ex ey] ez] /= [hd hz].
pose a z := ez *m (diagf n kx *m m_Uy (m z) - diagf n ky *m m_Ux (m z)).
pose dz z := (- ci) *: (diagf n kx *m m_Uy (m z) - diagf n ky *m m_Ux (m z)).
exists (fun x y z => (osum x y (fun j => (ex *m m_Sx (m (- z)%coqR)) j ord0), osum x y (fun j => (ey *m m_Sy (m (- z)%coqR)) j ord0),
   osum x y (fun j => dz (- z)%coqR j ord0))) => z hzt.
have hz' : (0 < - z < t)%coqR by lra.
have [d1 d2 d3 d4] := hd _ hz'; have [z1 z2] := hz (- z)%coqR.
split.
  exists (m_Sx (m (- z)%coqR)), (m_Sy (m (- z)%coqR)), (dz (- z)%coqR); split; split=> x y //.
  by rewrite /vz /= z1 -scalemxAr.
move=> x y; split.
- have q1 := osum_dy x y (fun j => m_Sx (m (- z)%coqR) j ord0).
  have q2 := osum_dz x y d1.
  have q3 := osum_dx x y (fun j => m_Sy (m (- z)%coqR) j ord0).
  have q4 := osum_dz x y d2.
  have q5 := osum_dx x y (fun j => m_Sz (m (- z)%coqR) j ord0).
  have q6 := osum_dy x y (fun j => m_Sz (m (- z)%coqR) j ord0).
  do 6 eexists; split; [split; [exact: q1|exact: q2]|split; [split; [exact: q3|exact: q4]|split; [split; [exact: q5|exact: q6]|]]].
  rewrite /vscale /h_of /vx /vy /vz /= !osum_opp !osum_add !osum_scale.
  congr (_, _, _); apply: osum_eq => j; rewrite ?z1 ?z2 !(scale_entry, diagfE, addE, oppE).
  + move: (kx j) (ky j) ((ez *m _) j ord0) (m_Ux _ _ _) => p q r u.
    have -> : - ci * RtoC k0 * (ci * u) = - (ci * ci) * RtoC k0 * u by cring.
    have -> : - ci * RtoC k0 * q * (- ci * r) = (ci * ci) * RtoC k0 * q * r by cring.
    rewrite ci2; cring.
  + move: (kx j) (ky j) ((ez *m _) j ord0) (m_Uy _ _ _) => p q r u.
    have -> : - ci * RtoC k0 * (ci * u) = - (ci * ci) * RtoC k0 * u by cring.
    have -> : - ci * RtoC k0 * p * (- ci * r) = (ci * ci) * RtoC k0 * p * r by cring.
    rewrite ci2; cring.
  + move: (kx j) (ky j) (m_Sx _ _ _) (m_Sy _ _ _) => p q r u.
    have -> : - ci * RtoC k0 * (ci * (- ci * (p * u - q * r))) = (ci * ci) * (ci * RtoC k0 * (p * u - q * r)) by cring.
    rewrite ci2; cring.
- have q1 := osum_dy x y (fun j => m_Ux (m (- z)%coqR) j ord0).
  have q2 := osum_dz x y d3.
  have q3 := osum_dx x y (fun j => m_Uy (m (- z)%coqR) j ord0).
  have q4 := osum_dz x y d4.
  have q5 := osum_dx x y (fun j => m_Uz (m (- z)%coqR) j ord0).
  have q6 := osum_dy x y (fun j => m_Uz (m (- z)%coqR) j ord0).
  do 6 eexists; split; [split; [exact: cderiv_scale q1|exact: cderiv_scale q2]|split; [split; [exact: cderiv_scale q3|exact: cderiv_scale q4]|split; [split; [exact: cderiv_scale q5|exact: cderiv_scale q6]|]]].
  rewrite /vscale /vx /vy /vz /= -!mulrBr !osum_opp !osum_add !osum_scale.
  congr (_, _, _); apply: osum_eq => j; rewrite /dz ?z1 ?z2 !(scale_entry, diagfE, addE, oppE).
  + move: (kx j) (ky j) ((ex *m _) j ord0) (m_Sx _ _ _) (m_Sy _ _ _) => p q r u v.
    have -> : ci * (- ci * RtoC k0 * q * (- ci * (p * v - q * u)) - - (RtoC k0 * (q * (p * v - q * u) + r)))
            = (ci * ci) * (ci * RtoC k0 * (q * (p * v - q * u))) + ci * RtoC k0 * (q * (p * v - q * u) + r) by cring.
    rewrite ci2; cring.
  + move: (kx j) (ky j) ((ey *m _) j ord0) (m_Sx _ _ _) (m_Sy _ _ _) => p q r u v.
    have -> : ci * (- (RtoC k0 * (p * (p * v - q * u) - r)) - - ci * RtoC k0 * p * (- ci * (p * v - q * u)))
            = - (ci * RtoC k0 * (p * (p * v - q * u) - r)) - (ci * ci) * (ci * RtoC k0 * p * (p * v - q * u)) by cring.
    rewrite ci2; cring.
  + move: (kx j) (ky j) (m_Ux _ _ _) (m_Uy _ _ _) => p q r u.
    cring.
Qed.

End Orders.

(** ** From the layer systems *)
Lemma vderiv_col a b (f : R -> 'cV[C]_a) (g : R -> 'cV[C]_b) z l k :
  vderiv (fun t => col_mx (f t) (g t)) z (col_mx l k) -> vderiv f z l /\ vderiv g z k.
Proof.
move=> h; split=> i.
- by have := h (lshift b i); rewrite col_mxEu; apply: cderiv_ext => t; rewrite col_mxEu.
- by have := h (rshift a i); rewrite col_mxEd; apply: cderiv_ext => t; rewrite col_mxEd.
Qed.

Section Sys.
Variables (n : nat) (k0 : R) (kx ky : nat -> C).
Local Notation Kx := (diagf n kx).
Local Notation Ky := (diagf n ky).

Lemma e_from_h_col (c : conv3 n) (u v : 'cV[C]_n) :
  e_from_h kx ky c *m col_mx u v =
  col_mx (Kx *m (c.2 *m (Kx *m v - Ky *m u)) - v) (Ky *m (c.2 *m (Kx *m v - Ky *m u)) + u).
Proof.
rewrite e_from_hE /OmL mul_block_col; congr col_mx; rewrite !mulmxBr !mulmxBl ?mulNmx ?mul1mx !mulmxA.
  by rewrite addrA [- _ + _]addrC.
by rewrite [u - _ + _]addrC addrA addrAC.
Qed.
Lemma h_from_e_col (c : conv3 n) (u v : 'cV[C]_n) :
  h_from_e kx ky c *m col_mx u v =
  col_mx (Kx *m (Kx *m v - Ky *m u) - c.1.2 *m v) (Ky *m (Kx *m v - Ky *m u) + c.1.1 *m u).
Proof.
rewrite h_from_eE /OmR mul_block_col; congr col_mx; rewrite !mulmxBr !mulmxBl ?mulNmx ?mul1mx !mulmxA.
  by rewrite addrA [- _ + _]addrC.
by rewrite [c.1.1 *m u - _ + _]addrC addrA addrAC.
Qed.

Lemma solves_layer (c : conv3 n) t (m : R -> modes n) :
  solves k0 (medium_sp kx ky c t) (fun z => e_part (m z)) (fun z => h_part (m z)) ->
  (forall z, m z = complete kx ky c.2 (m_Sx (m z)) (m_Sy (m z)) (m_Ux (m z)) (m_Uy (m z))) ->
  layer_eqs k0 kx ky c t m.
Proof.
move=> [h _] hm; case: c h hm => [[ex ey] ez] h hm /=; split=> [z hz|z]; last by rewrite [m z]hm.
have [] := h z hz.
rewrite -[m_P _]/(e_from_h kx ky (ex, ey, ez)) -[m_Q _]/(h_from_e kx ky (ex, ey, ez)).
rewrite e_from_h_col h_from_e_col !scale_col_mx => /vderiv_col [h1 h2] /vderiv_col [h3 h4].
by split.
Qed.

End Sys.

(** ** Stacks *)
Lemma all_solve_nth m k0 (ms : seq (medium m)) fs k f : all_solve k0 ms fs -> List.nth_error fs k = Some f ->
  exists2 a, List.nth_error ms k = Some a & solves k0 a f.1 f.2.
Proof.
elim: ms fs k => [|a ms IH] [|[u v] fs] [|k] //= [h1 h2].
  by case=> <-; exists a.
exact: IH h2.
Qed.

Lemma layers_nth n (cs : seq (conv3 n)) ts ls k l : layers_of cs ts = Some ls -> List.nth_error ls k = Some l ->
  List.nth_error cs k = Some (conv_of l) /\ List.nth_error ts k = Some (thick l).
Proof.
elim: ts cs ls k => [|t ts IH] [|[[ex ey] ez] cs] ls k /=.
- by case=> <-; case: k.
- by case=> <-; case: k.
- by [].
- case e: (layers_of _ _) => [ls'|] // [<-]; case: k => [|k] /=; first by case=> <-.
  exact: IH e.
Qed.

Lemma linspace_grid len num i : linspace len num i = grid len num i.
Proof. by rewrite /linspace /grid; case: ifP => // _; rewrite /Rdiv; ring. Qed.
Lemma z_grid rz d i : z_point rz d i = grid d rz i.
Proof.
rewrite /z_point /linspace /grid; case: ifP => h; first by rewrite /Rdiv !Rmult_0_l.
have h1 : (1 < rz)%N by rewrite ltnNge h.
have h2 : (1 < INR rz)%coqR by apply: (lt_INR 1); apply/ltP.
field; lra.
Qed.
Lemma y_grid py ry iy : y_point py ry iy = grid py ry (ry.-1 - iy).
Proof. by rewrite /y_point linspace_grid; case: ry => [|ry] //=; rewrite subSS. Qed.

Lemma synth_osum n k0 kx ky (f : nat -> C) x y (M : 'cV[C]_n) : (forall j, f j = ph k0 kx ky x y j) ->
  synth f M = osum k0 kx ky x y (fun j => M j ord0).
Proof. by move=> h; apply: eq_bigr => j _; rewrite h. Qed.

Lemma sample_layer n k0 kx ky (m : R -> modes n) px py t rx ry rz :
  sampled px py t rx ry rz
    (fun iz iy ix => sample_sp k0 kx ky (linspace px rx ix) (y_point py ry iy) (m (z_point rz t iz)))
    (e_of k0 kx ky m) (h_of k0 kx ky m).
Proof.
move=> iz iy ix _ x y z; rewrite linspace_grid y_grid z_grid -/x -/y /e_of /h_of /sample_sp /vx /vy /vz /=.
have -> : (- z = grid t rz iz)%coqR by rewrite /z Ropp_involutive.
have e j : - ci * (RtoC x * kx j * RtoC k0) + - ci * (RtoC y * ky j * RtoC k0) = ph k0 kx ky x y j.
  by rewrite /ph; move: (kx j) (ky j) => a b; cring.
by rewrite !(synth_osum (ky := ky) _ e).
Qed.

Lemma sample_layer_te n k0 kx (m : R -> 'cV[C]_n * 'cV[C]_n * 'cV[C]_n) p px t rx rz : is_tm p = false -> reqb p 0 ->
  sampled_1d false px t rx rz (fun iz ix => sample_1d p k0 kx (linspace px rx ix) (m (z_point rz t iz)))
    (e_of k0 kx (fun _ => 0) (fun z => Modes 0 (m z).1.1 0 (m z).1.2 0 (m z).2))
    (h_of k0 kx (fun _ => 0) (fun z => Modes 0 (m z).1.1 0 (m z).1.2 0 (m z).2)).
Proof.
move=> _ hp iz ix x z y; rewrite linspace_grid z_grid -/x /e_of /h_of /sample_1d hp /vx /vy /vz /=.
have -> : (- z = grid t rz iz)%coqR by rewrite /z Ropp_involutive.
have e j : - ci * (RtoC x * kx j * RtoC k0) = ph k0 kx (fun=> 0) x y j.
  by rewrite /ph mul0r addr0; move: (kx j) => a; cring.
have e0 : osum k0 kx (fun=> 0) x y (fun j : 'I_n => (0 : 'cV[C]_n) j ord0) = 0.
  by rewrite /osum big1 // => j _; rewrite mxE mulr0.
case: (m _) => [[a b] c] /=; split; rewrite ?e0 ?mulr0 //.
by rewrite !(synth_osum (ky := fun=> 0) _ e).
Qed.

Lemma sample_layer_tm n k0 kx (m : R -> 'cV[C]_n * 'cV[C]_n * 'cV[C]_n) p px t rx rz : reqb p 0 = false ->
  sampled_1d true px t rx rz (fun iz ix => sample_1d p k0 kx (linspace px rx ix) (m (z_point rz t iz)))
    (e_of k0 kx (fun _ => 0) (fun z => Modes ((- ci) *: (m z).1.2) 0 ((- ci) *: (m z).2) 0 ((- ci) *: (m z).1.1) 0))
    (h_of k0 kx (fun _ => 0) (fun z => Modes ((- ci) *: (m z).1.2) 0 ((- ci) *: (m z).2) 0 ((- ci) *: (m z).1.1) 0)).
Proof.
move=> hp iz ix x z y; rewrite linspace_grid z_grid -/x /e_of /h_of /sample_1d hp /vx /vy /vz /=.
have -> : (- z = grid t rz iz)%coqR by rewrite /z Ropp_involutive.
have e j : - ci * (RtoC x * kx j * RtoC k0) = ph k0 kx (fun=> 0) x y j.
  by rewrite /ph mul0r addr0; move: (kx j) => a; cring.
have e0 : osum k0 kx (fun=> 0) x y (fun j : 'I_n => (0 : 'cV[C]_n) j ord0) = 0.
  by rewrite /osum big1 // => j _; rewrite mxE mulr0.
have e1 (v : 'cV[C]_n) : osum k0 kx (fun=> 0) x y (fun j => ((- ci) *: v) j ord0) = - ci * osum k0 kx (fun=> 0) x y (fun j => v j ord0).
  by rewrite osum_scale; apply: osum_eq => j; rewrite mxE.
case: (m _) => [[a b] c] /=; split; rewrite ?e0 ?mulr0 //.
by rewrite !(synth_osum (ky := fun=> 0) _ e) !e1 mulrA mulrN ci2 opprK mul1r.
Qed.

Section Stacks.
Variable pinv : forall n, 'M[C]_n -> 'M[C]_n.
Variable eig : forall n, 'M[C]_n -> 'rV[C]_n * 'M[C]_n.
Hypothesis heig : eig_ok eig.

Section Two.
Variables (n : nat) (kx ky c s : nat -> C) (k0 : R).

Lemma infos_2d F0 G0 T0 (ls : seq (layer n)) F G T infos :
  stack_with (step_2d pinv eig false kx ky c s k0) ls (F0, G0, T0, [::]) = Some (F, G, T, infos) ->
  map (@is_epzi _ n) (rev infos) = map (@epzi n) ls /\ map (@is_d _ n) (rev infos) = map (@thick n) ls.
Proof.
elim: ls F G T infos => [|l ls IH] F G T infos /=.
  by case=> _ _ _ <-.
case e: (stack_with _ _ _) => [[[[F1 G1] T1] is']|] //; have [h1 h2] := IH _ _ _ _ e.
rewrite /step_2d; case h3: (transfer_2d_2 _ _ _ _ _ _ _ _) => [[[W V] q]|] //.
case h4: (transfer_2d_3 _ _ _ _ _ _ _ _ _ _ _ _) => [[[[[F2 G2] T2] Ai] B]|] // [_ _ _ <-].
by rewrite rev_rcons /= h1 h2.
Qed.

Lemma infos_conical F0 G0 T0 (ls : seq (layer n)) F G T infos :
  stack_with (step_conical pinv eig false kx ky c s k0) ls (F0, G0, T0, [::]) = Some (F, G, T, infos) ->
  map (@is_epzi _ n) (rev infos) = map (@epzi n) ls /\ map (@is_d _ n) (rev infos) = map (@thick n) ls.
Proof.
elim: ls F G T infos => [|l ls IH] F G T infos /=.
  by case=> _ _ _ <-.
case e: (stack_with _ _ _) => [[[[F1 G1] T1] is']|] //; have [h1 h2] := IH _ _ _ _ e.
rewrite /step_conical; case h3: (transfer_1d_conical_2 _ _ _ _ _ _ _ _) => [[[W V] q]|] //.
case h4: (transfer_1d_conical_3 _ _ _ _ _ _ _ _ _ _ _ _) => [[[[[F2 G2] T2] Ai] B]|] // [_ _ _ <-].
by rewrite rev_rcons /= h1 h2.
Qed.

Lemma infos_1d (pol : R) F0 G0 T0 (ls : seq (layer n)) F G T infos :
  stack_with (step_1d pinv eig false pol kx k0) ls (F0, G0, T0, [::]) = Some (F, G, T, infos) ->
  map (@i1_epzi n) (rev infos) = map (@epzi n) ls /\ map (@i1_d n) (rev infos) = map (@thick n) ls.
Proof.
elim: ls F G T infos => [|l ls IH] F G T infos /=.
  by case=> _ _ _ <-.
case e: (stack_with _ _ _) => [[[[F1 G1] T1] is']|] //; have [h1 h2] := IH _ _ _ _ e.
rewrite /step_1d; case h3: (transfer_1d_2 _ _ _ _ _ _ _ _) => [[[W V] q]|] //.
case h4: (transfer_1d_3 _ _ _ _ _ _ _ _ _ _) => [[[[[F2 G2] T2] Ai] B]|] // [_ _ _ <-].
by rewrite rev_rcons /= h1 h2.
Qed.
End Two.

Lemma nth_both (A B D : Type) (f : A -> D) (g : B -> D) xs ys k x y : map f xs = map g ys ->
  List.nth_error xs k = Some x -> List.nth_error ys k = Some y -> f x = g y.
Proof. by elim: xs ys k => [|a xs IH] [|b ys] [|k] //= [e1 e2]; [case=> <- [<-]|exact: IH]. Qed.

Lemma nth_fst (L T : Type) (next : L -> T -> T) t ls k x : List.nth_error (descend next t ls) k = Some x ->
  List.nth_error ls k = Some x.1.
Proof. by move=> h; rewrite -{1}(descend_fst next t ls); exact: nth_error_mapE h. Qed.

Lemma maxwell_2d w n kx ky psi th nt nb (ls : seq (layer n)) r infos T1 px py rx ry rz k a :
  rcwa_2d pinv eig false kx ky (k0_of w) psi th nt nb ls = Some (r, infos) ->
  List.nth_error (field_2d w kx ky T1 infos px py rx ry rz) k = Some a ->
  exists2 l, List.nth_error ls k = Some l &
  exists e h, sampled px py (thick l) rx ry rz a e h /\ maxwell (k0_of w) kx ky (conv_of l) (thick l) e h.
Proof.
rewrite /rcwa_2d /transfer_sp_1; case: ifP => // _.
case hs: (stack_with _ _ _) => [[[[F G] T] is']|] //.
case h4: (transfer_sp_4 _ _ _ _ _ _ _ _ _ _ _) => [r4|] // [_ <-].
have hm := stack_matched_2d heig hs; have [h1 h2] := infos_2d hs.
have hsol := chain_solve (k0_of w) hm T1; rewrite -(profiles_g2 kx ky) in hsol.
move=> ha; have [x hx ->] := nth_error_map ha.
have [m hm1 hm2] := all_solve_nth hsol (nth_error_mapE _ hx).
have [l hl el] := nth_error_map hm1; exists l; first exact: hl.
have e1 := nth_both h1 (nth_fst hx) hl; have e2 := nth_both h2 (nth_fst hx) hl.
do 2 eexists; split; first by rewrite -e2; exact: (@sample_layer _ _ _ _ (modes_2d (k0_of w) kx ky x.1 x.2)).
rewrite el in hm2; apply: layer_maxwell; apply: solves_layer; first exact: hm2.
have -> : (conv_of l).2 = is_epzi x.1 by rewrite e1.
by move=> z; reflexivity.
Qed.

Lemma maxwell_conical w n kx ky ky0 psi th nt nb (ls : seq (layer n)) r infos T1 px py rx ry rz k a :
  (forall i, (i < n)%N -> ky i = ky0) -> (forall l, List.In l ls -> y_uniform l) ->
  rcwa_conical pinv eig false kx ky (k0_of w) psi th nt nb ls = Some (r, infos) ->
  List.nth_error (field_conical w kx ky T1 infos px py rx ry rz) k = Some a ->
  exists2 l, List.nth_error ls k = Some l &
  exists e h, sampled px py (thick l) rx ry rz a e h /\ maxwell (k0_of w) kx ky (conv_of l) (thick l) e h.
Proof.
move=> hky hyu; rewrite /rcwa_conical /transfer_sp_1; case: ifP => // _.
case hs: (stack_with _ _ _) => [[[[F G] T] is']|] //.
case h4: (transfer_sp_4 _ _ _ _ _ _ _ _ _ _ _) => [r4|] // [_ <-].
have hm := stack_matched_conical heig hky hyu hs; have [h1 h2] := infos_conical hs.
have hsol := chain_solve (k0_of w) hm T1; rewrite -(profiles_gc kx ky) in hsol.
move=> ha; have [x hx ->] := nth_error_map ha.
have [m hm1 hm2] := all_solve_nth hsol (nth_error_mapE _ hx).
have [l hl el] := nth_error_map hm1; exists l; first exact: hl.
have e1 := nth_both h1 (nth_fst hx) hl; have e2 := nth_both h2 (nth_fst hx) hl.
do 2 eexists; split; first by rewrite -e2; exact: (@sample_layer _ _ _ _ (modes_conical (k0_of w) kx ky x.1 x.2)).
rewrite el in hm2; apply: layer_maxwell; apply: solves_layer; first exact: hm2.
have -> : (conv_of l).2 = is_epzi x.1 by rewrite e1.
by move=> z; reflexivity.
Qed.

Lemma medium_tm (kx : nat -> C) n (c : conv3 n) t : medium_1d true kx c t =
  Medium c.1.1 (diagf n kx *m c.2 *m diagf n kx - 1%:M) t.
Proof.
case: c => [[ex ey] ez]; rewrite /medium_1d /=; congr Medium.
by rewrite /diagf mul_mx_diag mul_diag_mx; apply/matrixP => i j; rewrite !mxE; case: eqP.
Qed.

Lemma vderiv_0 n z : vderiv (fun _ => 0 : 'cV[C]_n) z 0.
Proof.
move=> i; have -> : (0 : 'cV[C]_n) i ord0 = 0 by rewrite mxE.
exact: cderiv_const.
Qed.
Lemma vderiv_scale n (a : C) (f : R -> 'cV[C]_n) z l : vderiv f z l -> vderiv (fun t => a *: f t) z (a *: l).
Proof.
by move=> h i; rewrite scale_entry; apply: cderiv_ext (cderiv_scale a (h i)) => t; rewrite scale_entry.
Qed.

Lemma diagf0 n : diagf n (fun=> 0 : C) = 0.
Proof. by apply/matrixP => i j; rewrite !mxE mul0rn. Qed.

Lemma te_layer k0 n (kx : nat -> C) (c : conv3 n) t (m : R -> 'cV[C]_n * 'cV[C]_n * 'cV[C]_n) :
  solves k0 (medium_1d false kx c t) (fun z => (m z).1.1) (fun z => (m z).1.2) ->
  (forall z, (m z).2 = (- ci) *: (diagf n kx *m (m z).1.1)) ->
  layer_eqs k0 kx (fun _ => 0) c t (fun z => Modes 0 (m z).1.1 0 (m z).1.2 0 (m z).2).
Proof.
case: c => [[ex ey] ez] [h _] hm; rewrite /layer_eqs diagf0; split=> [z hz|z] /=; last first.
  by rewrite !mul0mx mulmx0 !subr0 mulmx0 scaler0 hm.
have [] := h z hz; rewrite -[m_P _]/(1%:M : 'M[C]_n) -[m_Q _]/(te_operator kx (ex, ey, ez)) te_operatorE mul1mx => h1 h2.
rewrite !mul0mx !mulmx0 ?subr0 ?mulmx0 ?add0r ?subr0 ?scaler0 ?add0r ?subr0 ?scaler0 ?mulmx0 ?oppr0.
split; [exact: vderiv_0|exact: h1| |exact: vderiv_0].
by apply: vderiv_eq h2; rewrite mulmxBl mulmxA.
Qed.

Lemma tm_layer k0 n (kx : nat -> C) (c : conv3 n) t (m : R -> 'cV[C]_n * 'cV[C]_n * 'cV[C]_n) :
  solves k0 (medium_1d true kx c t) (fun z => (m z).1.1) (fun z => (m z).1.2) ->
  (forall z, (m z).2 = (- ci) *: (c.2 *m diagf n kx *m (m z).1.1)) ->
  layer_eqs k0 kx (fun _ => 0) c t
    (fun z => Modes ((- ci) *: (m z).1.2) 0 ((- ci) *: (m z).2) 0 ((- ci) *: (m z).1.1) 0).
Proof.
rewrite medium_tm; case: c => [[ex ey] ez] [h _] hm; rewrite /layer_eqs diagf0; split=> [z hz|z] /=; last first.
  by rewrite !mul0mx mulmx0 !subr0 scaler0 hm -!scalemxAr mulmxA.
have [h1 h2] := h z hz.
rewrite !mul0mx !mulmx0 !subr0 !mulmx0 ?add0r ?addr0 ?subr0 ?scaler0.
split; [|exact: vderiv_0|exact: vderiv_0|].
- apply: vderiv_eq (vderiv_scale (- ci) h2).
  by rewrite -!scalemxAr -scalerBr !scalerA [RtoC k0 * _]mulrC /= mulmxBl mul1mx !mulmxA.
- apply: vderiv_eq (vderiv_scale (- ci) h1).
  by rewrite -!scalemxAr !scalerA [RtoC k0 * _]mulrC.
Qed.

Lemma maxwell_1d pol w n kx th nt nb (ls : seq (layer n)) r T1' infos T1 px rx rz k a :
  rcwa_1d pinv eig false pol kx (k0_of w) th nt nb ls = Some (r, T1', infos) ->
  List.nth_error (field_1d w kx T1 infos px pol rx rz) k = Some a ->
  exists2 l, List.nth_error ls k = Some l &
  exists e h, sampled_1d (is_tm pol) px (thick l) rx rz a e h /\ maxwell (k0_of w) kx (fun _ => 0) (conv_of l) (thick l) e h.
Proof.
move=> hr; have hpol : (pol = 0 \/ pol = 1)%coqR.
  by move: hr; rewrite /rcwa_1d /transfer_1d_1; case: ifP => [/reqbP|_]; [left|case: ifP => [/reqbP|_] //; right].
have [F [G [T [hs h4]]]] := rcwa_1d_parts hr.
have hm := stack_matched_1d heig hs; have [h1 h2] := infos_1d hs.
have hsol := chain_solve (k0_of w) hm T1; rewrite -(profiles_g pol (k0_of w) kx) in hsol.
move=> ha; have [x hx ->] := nth_error_map ha.
have [m hm1 hm2] := all_solve_nth hsol (nth_error_mapE _ hx).
have [l hl el] := nth_error_map hm1; exists l; first exact: hl.
have e1 := nth_both h1 (nth_fst hx) hl; have e2 := nth_both h2 (nth_fst hx) hl.
rewrite el in hm2; rewrite -e2.
have ec : (conv_of l).2 = i1_epzi x.1 by rewrite e1.
case: hpol => ep; rewrite ep ?is_tm0 ?is_tm1 in hm2 *.
- have r0 : reqb 0 0 by rewrite /reqb; case: Req_EM_T.
  do 2 eexists; split; first exact: (@sample_layer_te _ _ _ (modes_1d 0 (k0_of w) kx x.1 x.2) _ _ _ _ _ is_tm0 r0).
  apply: layer_maxwell; apply: te_layer; first by rewrite e2; exact: hm2.
  by move=> z; rewrite /modes_1d r0.
- have r1 : reqb 1 0 = false by rewrite /reqb; case: Req_EM_T => // h; lra.
  do 2 eexists; split; first exact: (@sample_layer_tm _ _ _ (modes_1d 1 (k0_of w) kx x.1 x.2) _ _ _ _ _ r1).
  apply: layer_maxwell; apply: tm_layer; first by rewrite e2; exact: hm2.
  by move=> z; rewrite /modes_1d r1 ec.
Qed.

End Stacks.

(** ** The solvers *)
Section Solve.
Variable pinv : forall n, 'M[C]_n -> 'M[C]_n.
Variable eig : forall n, 'M[C]_n -> 'rV[C]_n * 'M[C]_n.
Hypothesis heig : eigen_oracle eig.

Lemma maxwell_solve_1d s w (convs : seq (conv3 (ff_x s))) r T1' infos :
  solve_1d pinv eig false s w convs = Some (r, T1', infos) ->
  forall T1 px rx rz k a, List.nth_error (field_1d w (kx_vector s w) T1 infos px (pol s) rx rz) k = Some a ->
  exists c t e h,
  [/\ List.nth_error convs k = Some c, List.nth_error (thickness s) k = Some t,
      sampled_1d (is_tm (pol s)) px t rx rz a e h
    & maxwell (k0_of w) (kx_vector s w) (fun _ => 0) c t e h].
Proof.
rewrite /solve_1d; case el: (layers_of _ _) => [ls|] // hr T1 px rx rz k a ha.
have [l hl [e [h [h1 h2]]]] := maxwell_1d (eigen_eig_ok heig) hr ha.
have [e1 e2] := layers_nth el hl.
by exists (conv_of l), (thick l), e, h; split.
Qed.

Lemma maxwell_solve_2d s w (convs : seq (conv3 (ff_y s * ff_x s))) r infos :
  solve_2d pinv eig false s w convs = Some (r, infos) ->
  let kx := kx_tiled s w in let ky := ky_tiled s w in
  forall T1 px py rx ry rz k a, List.nth_error (field_2d w kx ky T1 infos px py rx ry rz) k = Some a ->
  exists c t e h,
  [/\ List.nth_error convs k = Some c, List.nth_error (thickness s) k = Some t,
      sampled px py t rx ry rz a e h & maxwell (k0_of w) kx ky c t e h].
Proof.
move=> hr kx ky T1 px py rx ry rz k a ha; move: hr; rewrite /solve_2d; case el: (layers_of _ _) => [ls|] // hr.
have [l hl [e [h [h1 h2]]]] := maxwell_2d (eigen_eig_ok heig) hr ha.
have [e1 e2] := layers_nth el hl.
by exists (conv_of l), (thick l), e, h; split.
Qed.

Lemma maxwell_solve_conical s w (convs : seq (conv3 (ff_y s * ff_x s))) r infos :
  (forall c, List.In c (used s convs) -> line_convs c) ->
  solve_1d_conical pinv eig false s w convs = Some (r, infos) ->
  let kx := kx_tiled s w in let ky := ky_tiled s w in
  forall T1 px py rx ry rz k a, List.nth_error (field_conical w kx ky T1 infos px py rx ry rz) k = Some a ->
  exists c t e h,
  [/\ List.nth_error convs k = Some c, List.nth_error (thickness s) k = Some t,
      sampled px py t rx ry rz a e h & maxwell (k0_of w) kx ky c t e h].
Proof.
move=> hu hr kx ky T1 px py rx ry rz k a ha; move: hr; rewrite /solve_1d_conical; case: eqP => // hy.
case el: (layers_of _ _) => [ls|] // hr.
have hky i : (i < ff_y s * ff_x s)%N -> ky_tiled s w i = ky_vector s w 0%N.
  by rewrite /ky_tiled /tile_y {1}/ff_y hy mul1n => lt; rewrite divn_small.
have hyu l : List.In l ls -> y_uniform l by move=> /(layers_of_in el) /hu.
have [l hl [e [h [h1 h2]]]] := maxwell_conical (eigen_eig_ok heig) hky hyu hr ha.
have [e1 e2] := layers_nth el hl.
by exists (conv_of l), (thick l), e, h; split.
Qed.

(** There is one array per layer. *)
Lemma field_1d_nth s w (convs : seq (conv3 (ff_x s))) r T1' infos T1 px rx rz k :
  solve_1d pinv eig false s w convs = Some (r, T1', infos) -> (k < size (thickness s))%N ->
  exists a, List.nth_error (field_1d w (kx_vector s w) T1 infos px (pol s) rx rz) k = Some a.
Proof.
rewrite /solve_1d; case el: (layers_of _ _) => [ls|] // hr; rewrite -(layers_thick el).
have [F [G [T [hs h4]]]] := rcwa_1d_parts hr; have [_ <-] := infos_1d hs.
rewrite size_map /field_1d => hk.
case e: (List.nth_error _ k) => [a|]; first by exists a.
move: e => /List.nth_error_None /leP; rewrite -[List.length _]/(size _) size_map.
rewrite -(size_map fst) descend_fst leqNgt hk //.
Qed.

End Solve.
