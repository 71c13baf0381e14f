(** Fields in a stack of layers given by modal matrices: the reconstruction of calculate_field solves the layer equations and
    is continuous; every solution is of that form. *)
From Coq Require Import Reals Lra Psatz.
From mathcomp Require Import all_ssreflect ssralg matrix mxalgebra.
From Coquelicot Require Import Complex Hierarchy Continuity Derive AutoDerive.
From Verif Require Import Cplx Mx ModelTM ModelField Spec SpecSolve SpecField ProofFlux ProofEnergy1D ProofSubstrate.

Set Implicit Arguments.
Unset Strict Implicit.
Unset Printing Implicit Defensive.
Local Open Scope ring_scope.
Import GRing.Theory.

(** ** Calculus of complex functions of a real variable *)

Lemma cderiv_ext f g z l : (forall t, f t = g t) -> cderiv f z l -> cderiv g z l.
Proof.
by move=> e [h1 h2]; split; [move: h1|move: h2]; apply: is_derive_ext => t; rewrite e.
Qed.

Lemma ccont_ext f g z : (forall t, f t = g t) -> ccont f z -> ccont g z.
Proof.
by move=> e [h1 h2]; split; [move: h1|move: h2]; apply: continuous_ext => t; rewrite e.
Qed.

Lemma cderiv_ccont f z l : cderiv f z l -> ccont f z.
Proof. by case=> h1 h2; split; apply: ex_derive_continuous; eexists; eassumption. Qed.

Lemma cderiv_eq f z l l' : l = l' -> cderiv f z l -> cderiv f z l'.
Proof. by move=> ->. Qed.

Lemma cderiv_const c z : cderiv (fun _ => c) z 0.
Proof. by split; apply: is_derive_const. Qed.

Lemma cderiv_add f g z l k : cderiv f z l -> cderiv g z k -> cderiv (fun t => f t + g t) z (l + k).
Proof. by case=> h1 h2 [h3 h4]; split; apply: is_derive_plus. Qed.

Lemma cderiv_mul f g z l k : cderiv f z l -> cderiv g z k -> cderiv (fun t => f t * g t) z (l * g z + f z * k).
Proof.
case=> h1 h2 [h3 h4]; split.
- apply: (is_derive_ext (fun t => (Re (f t) * Re (g t) - Im (f t) * Im (g t))%coqR)); first by [].
  have -> : Re (l * g z + f z * k) = ((Re l * Re (g z) + Re (f z) * Re k) - (Im l * Im (g z) + Im (f z) * Im k))%coqR.
    by case: l k (f z) (g z) {h1 h2 h3 h4} => a b [c d] [x y] [u v]; rewrite /Re /Im /=; cunf => /=; ring.
  have a := is_derive_mult (fun t => Re (f t)) (fun t => Re (g t)) z _ _ h1 h3.
  have b := is_derive_mult (fun t => Im (f t)) (fun t => Im (g t)) z _ _ h2 h4.
  exact: is_derive_minus a b.
- apply: (is_derive_ext (fun t => (Re (f t) * Im (g t) + Im (f t) * Re (g t))%coqR)); first by [].
  have -> : Im (l * g z + f z * k) = ((Re l * Im (g z) + Re (f z) * Im k) + (Im l * Re (g z) + Im (f z) * Re k))%coqR.
    by case: l k (f z) (g z) {h1 h2 h3 h4} => a b [c d] [x y] [u v]; rewrite /Re /Im /=; cunf => /=; ring.
  have a := is_derive_mult (fun t => Re (f t)) (fun t => Im (g t)) z _ _ h1 h4.
  have b := is_derive_mult (fun t => Im (f t)) (fun t => Re (g t)) z _ _ h2 h3.
  exact: is_derive_plus a b.
Qed.

Lemma cderiv_scale c f z l : cderiv f z l -> cderiv (fun t => c * f t) z (c * l).
Proof. by move=> h; apply: cderiv_eq (cderiv_mul (cderiv_const c z) h); rewrite mul0r add0r. Qed.

Lemma ccont_add f g z : ccont f z -> ccont g z -> ccont (fun t => f t + g t) z.
Proof.
by case=> h1 h2 [h3 h4]; split; apply: (@continuous_plus R_UniformSpace R_AbsRing R_NormedModule).
Qed.

Lemma ccont_mul f g z : ccont f z -> ccont g z -> ccont (fun t => f t * g t) z.
Proof.
case=> h1 h2 [h3 h4]; split.
- apply: (continuous_ext (fun t => minus (mult (Re (f t)) (Re (g t))) (mult (Im (f t)) (Im (g t))))); first by [].
  by apply: (@continuous_minus R_UniformSpace R_AbsRing R_NormedModule); apply: (@continuous_mult R_UniformSpace R_AbsRing).
- apply: (continuous_ext (fun t => plus (mult (Re (f t)) (Im (g t))) (mult (Im (f t)) (Re (g t))))); first by [].
  by apply: (@continuous_plus R_UniformSpace R_AbsRing R_NormedModule); apply: (@continuous_mult R_UniformSpace R_AbsRing).
Qed.

Lemma ccont_const c z : ccont (fun _ => c) z.
Proof. exact: cderiv_ccont (cderiv_const c z). Qed.
Lemma ccont_scale c f z : ccont f z -> ccont (fun t => c * f t) z.
Proof. exact: ccont_mul (ccont_const c z). Qed.

Lemma cderiv_sum n (f : 'I_n -> R -> C) z (l : 'I_n -> C) :
  (forall j, cderiv (f j) z (l j)) -> cderiv (fun t => \sum_j f j t) z (\sum_j l j).
Proof.
move=> h; elim: n f l h => [|n IH] f l h.
  by rewrite big_ord0; apply: cderiv_ext (cderiv_const 0 z) => t; rewrite big_ord0.
rewrite big_ord_recl; apply: (@cderiv_ext (fun t => f ord0 t + \sum_(i < n) f (lift ord0 i) t)).
  by move=> t; rewrite big_ord_recl.
by apply: cderiv_add => //; apply: IH => j.
Qed.

Lemma ccont_sum n (f : 'I_n -> R -> C) z :
  (forall j, ccont (f j) z) -> ccont (fun t => \sum_j f j t) z.
Proof.
move=> h; elim: n f h => [|n IH] f h.
  by apply: ccont_ext (ccont_const 0 z) => t; rewrite big_ord0.
apply: (@ccont_ext (fun t => f ord0 t + \sum_(i < n) f (lift ord0 i) t)).
  by move=> t; rewrite big_ord_recl.
by apply: ccont_add => //; apply: IH => j.
Qed.

Lemma vderiv_mulmx m k (A : 'M[C]_(k, m)) (f : R -> 'cV[C]_m) z l :
  vderiv f z l -> vderiv (fun t => A *m f t) z (A *m l).
Proof.
move=> h i; rewrite mxE; apply: (@cderiv_ext (fun t => \sum_j A i j * f t j ord0)).
  by move=> t; rewrite mxE.
by apply: cderiv_sum => j; apply: cderiv_scale.
Qed.
Lemma vcont_mulmx m k (A : 'M[C]_(k, m)) (f : R -> 'cV[C]_m) z :
  vcont f z -> vcont (fun t => A *m f t) z.
Proof.
move=> h i; apply: (@ccont_ext (fun t => \sum_j A i j * f t j ord0)).
  by move=> t; rewrite mxE.
by apply: ccont_sum => j; apply: ccont_scale.
Qed.
Lemma vderiv_vcont m (f : R -> 'cV[C]_m) z l : vderiv f z l -> vcont f z.
Proof. by move=> h i; apply: cderiv_ccont (h i). Qed.
Lemma vderiv_ext m (f g : R -> 'cV[C]_m) z l : (forall t, f t = g t) -> vderiv f z l -> vderiv g z l.
Proof. by move=> e h i; apply: cderiv_ext (h i) => t; rewrite e. Qed.
Lemma vderiv_eq m (f : R -> 'cV[C]_m) z l l' : l = l' -> vderiv f z l -> vderiv f z l'.
Proof. by move=> ->. Qed.

Lemma cderiv_exp (q : C) (a b z : R) :
  cderiv (fun t => cexp (q * RtoC (a * t + b)%coqR)) z (q * RtoC a * cexp (q * RtoC (a * z + b)%coqR)).
Proof.
case: q => x y; split.
- apply: (is_derive_ext (fun t => (exp (x * (a * t + b)) * cos (y * (a * t + b)))%coqR)).
    by move=> t; rewrite /cexp /Re /Im /=; cunf => /=; congr (exp _ * cos _)%coqR; ring.
  by rewrite /cexp /Re /Im; cunf => /=; auto_derive => //; rewrite !(Rmult_0_r, Rminus_0_r, Rplus_0_r, Rplus_0_l, Rmult_0_l); ring.
- apply: (is_derive_ext (fun t => (exp (x * (a * t + b)) * sin (y * (a * t + b)))%coqR)).
    by move=> t; rewrite /cexp /Re /Im /=; cunf => /=; congr (exp _ * sin _)%coqR; ring.
  by rewrite /cexp /Re /Im; cunf => /=; auto_derive => //; rewrite !(Rmult_0_r, Rminus_0_r, Rplus_0_r, Rplus_0_l, Rmult_0_l); ring.
Qed.

(** The only solution of f' = c f. *)
Lemma const_of_deriv (g : R -> R) d : (0 <= d)%coqR ->
  (forall z, (0 < z < d)%coqR -> is_derive g z 0%coqR) -> (forall z, (0 <= z <= d)%coqR -> continuous g z) -> g d = g 0%coqR.
Proof.
move=> d0 h1 h2; have := @MVT_gen g 0 d (fun _ => 0%coqR); rewrite Rmin_left // Rmax_right //.
case=> [z hz|z hz|c [_ e]]; first exact: h1.
- by apply/continuity_pt_filterlim; apply: h2.
- lra.
Qed.

Lemma scalar_ode (c : C) (f : R -> C) d : (0 <= d)%coqR ->
  (forall z, (0 < z < d)%coqR -> cderiv f z (c * f z)) -> (forall z, (0 <= z <= d)%coqR -> ccont f z) ->
  f d = cexp (c * RtoC d) * f 0%coqR.
Proof.
move=> d0 h1 h2.
pose g t := cexp (- c * RtoC (1 * t + 0)%coqR) * f t.
have gd z : (0 < z < d)%coqR -> cderiv g z 0.
  move=> hz; apply: cderiv_eq (cderiv_mul (cderiv_exp (- c) 1 0 z) (h1 z hz)).
  set e := cexp _; set y := f z; rewrite [RtoC 1](_ : _ = 1) //; cring.
have gc z : (0 <= z <= d)%coqR -> ccont g z.
  by move=> hz; apply: ccont_mul; [exact: cderiv_ccont (cderiv_exp _ _ _ _)|exact: h2].
have e : g d = g 0%coqR.
  rewrite [LHS]surjective_pairing [RHS]surjective_pairing; congr pair.
    by apply: (@const_of_deriv (fun t => Re (g t))) => // z hz; [have [] := gd z hz|have [] := gc z hz].
  by apply: (@const_of_deriv (fun t => Im (g t))) => // z hz; [have [] := gd z hz|have [] := gc z hz].
move: e; rewrite /g.
have -> : (1 * d + 0 = d)%coqR by ring.
have -> : (1 * 0 + 0 = 0)%coqR by ring.
rewrite [RtoC 0](_ : _ = 0) // mulr0 cexp0 mul1r mulNr => <-.
by rewrite mulrA -cexpD subrr cexp0 mul1r.
Qed.

(** ** One layer *)

Section Layer.
Variable m : nat.
Variable k0 : R.
Implicit Types (W V : 'M[C]_m) (q : 'rV[C]_m) (c t : 'cV[C]_m).

Lemma dexpE q z c : dexp q z *m c = \col_i (cexp (q ord0 i * z) * c i ord0).
Proof. by apply/colP => i; rewrite mul_diag_mx !mxE. Qed.

Lemma profileE d q c1 c2 z s : profile k0 d q c1 c2 z s =
  \col_i (s * (cexp (q ord0 i * RtoC (- k0 * z)) * c1 i ord0) + cexp (q ord0 i * RtoC (k0 * (z - d))) * c2 i ord0).
Proof. by rewrite /profile !dexpE; apply/colP => i; rewrite !mxE. Qed.

Lemma diag_mulE (n : nat) (q : 'rV[C]_n) (c : 'cV[C]_n) i : (diag_mx q *m c) i ord0 = q ord0 i * c i ord0.
Proof. by rewrite mul_diag_mx mxE. Qed.

Lemma scale_entry (n : nat) (a : C) (c : 'cV[C]_n) i : (a *: c) i ord0 = a * c i ord0.
Proof. by rewrite mxE. Qed.

(** d/dz exchanges the two profiles. *)
Lemma profile_deriv d q c1 c2 z s :
  vderiv (fun z => profile k0 d q c1 c2 z s) z (RtoC k0 *: (diag_mx q *m profile k0 d q c1 c2 z (- s))).
Proof.
move=> i; rewrite mxE diag_mulE profileE mxE.
apply: (@cderiv_ext (fun z => s * c1 i ord0 * cexp (q ord0 i * RtoC (- k0 * z + 0)%coqR)
                            + c2 i ord0 * cexp (q ord0 i * RtoC (k0 * z + - (k0 * d))%coqR))).
  move=> t; rewrite profileE mxE.
  have -> : (- k0 * t + 0 = - k0 * t)%coqR by ring.
  have -> : (k0 * t + - (k0 * d) = k0 * (t - d))%coqR by ring.
  by cring.
apply: cderiv_eq (cderiv_add (cderiv_scale (s * c1 i ord0) (cderiv_exp (q ord0 i) (- k0) 0 z))
                             (cderiv_scale (c2 i ord0) (cderiv_exp (q ord0 i) k0 (- (k0 * d)) z))).
have -> : (- k0 * z + 0 = - k0 * z)%coqR by ring.
have -> : (k0 * z + - (k0 * d) = k0 * (z - d))%coqR by ring.
rewrite [RtoC (- k0)](_ : _ = - RtoC k0); last by rewrite RtoC_opp.
set e1 := cexp _; set e2 := cexp _; cring.
Qed.

Lemma dexp0 q : dexp q (RtoC 0) = 1%:M.
Proof.
rewrite /dexp -diag_const_mx; congr diag_mx; apply/rowP => j.
by rewrite !mxE [RtoC 0](_ : _ = 0) // mulr0 cexp0.
Qed.
Lemma dexpX q d : dexp q (RtoC (- k0 * d)) = Xmat k0 q d.
Proof.
rewrite /dexp /Xmat; congr diag_mx; apply/rowP => j; rewrite !mxE; congr cexp.
by rewrite RtoC_mul RtoC_opp; cring.
Qed.

Lemma profile_top d q c1 c2 s : profile k0 d q c1 c2 0 s = s *: c1 + Xmat k0 q d *m c2.
Proof.
rewrite /profile.
have -> : (- k0 * 0 = 0)%coqR by ring.
have -> : (k0 * (0 - d) = - k0 * d)%coqR by ring.
by rewrite dexp0 mul1mx dexpX.
Qed.
Lemma profile_bottom d q c1 c2 s : profile k0 d q c1 c2 d s = s *: (Xmat k0 q d *m c1) + c2.
Proof.
rewrite /profile dexpX.
have -> : (k0 * (d - d) = 0)%coqR by ring.
by rewrite dexp0 mul1mx.
Qed.

(** The layer equations are diagonalised by the modal matrices. *)
Definition diagonalised (l : medium m) W V q : Prop :=
  m_P l *m V = W *m diag_mx q /\ m_Q l *m W = V *m diag_mx q.

Lemma profile_solves l W V q c1 c2 : diagonalised l W V q ->
  solves k0 l (fun z => W *m profile k0 (m_d l) q c1 c2 z 1) (fun z => V *m profile k0 (m_d l) q c1 c2 z (-1)).
Proof.
case=> hP hQ.
have h z : vderiv (fun z => W *m profile k0 (m_d l) q c1 c2 z 1) z
             (RtoC k0 *: (m_P l *m (V *m profile k0 (m_d l) q c1 c2 z (-1)))) /\
           vderiv (fun z => V *m profile k0 (m_d l) q c1 c2 z (-1)) z
             (RtoC k0 *: (m_Q l *m (W *m profile k0 (m_d l) q c1 c2 z 1))).
  split.
    apply: vderiv_eq (vderiv_mulmx W (profile_deriv _ _ _ _ z 1)).
    by rewrite -scalemxAr !mulmxA hP.
  apply: vderiv_eq (vderiv_mulmx V (profile_deriv _ _ _ _ z (-1))).
  by rewrite -scalemxAr !mulmxA hQ opprK.
split=> z _; first exact: h.
by have [h1 h2] := h z; split; [exact: vderiv_vcont h1|exact: vderiv_vcont h2].
Qed.

(** Any solution, seen through its modal amplitudes. *)
Lemma solution_modes l W V q u v : W \in unitmx -> V \in unitmx -> diagonalised l W V q -> (0 <= m_d l)%coqR ->
  solves k0 l u v ->
  let a z := half *: (invmx W *m u z - invmx V *m v z) in
  let b z := half *: (invmx W *m u z + invmx V *m v z) in
  [/\ a (m_d l) = Xmat k0 q (m_d l) *m a 0%coqR, b 0%coqR = Xmat k0 q (m_d l) *m b (m_d l),
      (forall z, u z = W *m (a z + b z)) & (forall z, v z = V *m (b z - a z))].
Proof.
move=> uW uV [hP hQ] d0 [h1 h2] a b.
pose p z := invmx W *m u z; pose r z := invmx V *m v z.
have uE z : u z = W *m p z by rewrite /p mulKVmx.
have vE z : v z = V *m r z by rewrite /r mulKVmx.
have pd z : (0 < z < m_d l)%coqR -> vderiv p z (RtoC k0 *: (diag_mx q *m r z)).
  move=> hz; have [e _] := h1 z hz; apply: vderiv_eq (vderiv_mulmx (invmx W) e).
  by rewrite -scalemxAr vE !mulmxA -[invmx W *m m_P l *m V]mulmxA hP !mulmxA mulVmx // mul1mx.
have rd z : (0 < z < m_d l)%coqR -> vderiv r z (RtoC k0 *: (diag_mx q *m p z)).
  move=> hz; have [_ e] := h1 z hz; apply: vderiv_eq (vderiv_mulmx (invmx V) e).
  by rewrite -scalemxAr uE !mulmxA -[invmx V *m m_Q l *m W]mulmxA hQ !mulmxA mulVmx // mul1mx.
have pc z : (0 <= z <= m_d l)%coqR -> vcont p z by move=> hz; have [e _] := h2 z hz; exact: vcont_mulmx e.
have rc z : (0 <= z <= m_d l)%coqR -> vcont r z by move=> hz; have [_ e] := h2 z hz; exact: vcont_mulmx e.
have ai z i : a z i ord0 = half * p z i ord0 + (- half) * r z i ord0.
  by rewrite /a -/(p z) -/(r z) !mxE; cring.
have bi z i : b z i ord0 = half * p z i ord0 + half * r z i ord0.
  by rewrite /b -/(p z) -/(r z) !mxE; cring.
have uab z : u z = W *m (a z + b z).
  rewrite uE; congr (_ *m _); rewrite /a /b -/(p z) -/(r z) -scalerDr addrACA addNr addr0 scalerDr.
  by rewrite halfK.
have vab z : v z = V *m (b z - a z).
  rewrite vE; congr (_ *m _); rewrite /a /b -/(p z) -/(r z) -scalerBr opprB addrC addrA subrK scalerDr.
  by rewrite halfK.
clearbody p r; clearbody a b.
split.
- apply/colP => i; rewrite diag_mulE mxE.
  pose c := - (RtoC k0 * q ord0 i).
  have := @scalar_ode c (fun z => a z i ord0) (m_d l) d0.
  move=> -> //.
  + by congr (cexp _ * _); rewrite /c; cring.
  + move=> z hz; apply: (@cderiv_ext (fun z => half * p z i ord0 + (- half) * r z i ord0)) => [t|]; first by rewrite ai.
    apply: cderiv_eq (cderiv_add (cderiv_scale half (pd z hz i)) (cderiv_scale (- half) (rd z hz i))).
    by rewrite ai !scale_entry !diag_mulE /c; move: (p z i ord0) (r z i ord0) (q ord0 i) => x y w; cring.
  + move=> z hz; apply: (@ccont_ext (fun z => half * p z i ord0 + (- half) * r z i ord0)) => [t|]; first by rewrite ai.
    by apply: ccont_add; apply: ccont_scale; [exact: pc|exact: rc].
- apply/colP => i; rewrite diag_mulE mxE.
  pose c := RtoC k0 * q ord0 i.
  have := @scalar_ode c (fun z => b z i ord0) (m_d l) d0.
  move=> -> //.
  + rewrite mulrA -cexpD (_ : _ + _ = 0) ?cexp0 ?mul1r //; rewrite /c; cring.
  + move=> z hz; apply: (@cderiv_ext (fun z => half * p z i ord0 + half * r z i ord0)) => [t|]; first by rewrite bi.
    apply: cderiv_eq (cderiv_add (cderiv_scale half (pd z hz i)) (cderiv_scale half (rd z hz i))).
    by rewrite bi !scale_entry !diag_mulE /c; move: (p z i ord0) (r z i ord0) (q ord0 i) => x y w; cring.
  + move=> z hz; apply: (@ccont_ext (fun z => half * p z i ord0 + half * r z i ord0)) => [t|]; first by rewrite bi.
    by apply: ccont_add; apply: ccont_scale; [exact: pc|exact: rc].
- exact: uab.
- exact: vab.
Qed.

End Layer.

(** ** A stack, in a frame rotated by [R1] (electric) and [R2] (magnetic) *)

Section Chain.
Variable pinv : forall n, 'M[C]_n -> 'M[C]_n.
Variable m : nat.
Variable k0 : R.
Variables R1 R2 R1i R2i F0 G0 : 'M[C]_m.
Hypothesis R1K : R1i *m R1 = 1%:M.
Hypothesis R2K : R2i *m R2 = 1%:M.

Record gmode := GMode { gW : 'M[C]_m; gV : 'M[C]_m; gq : 'rV[C]_m; gd : R; gAi : 'M[C]_m; gB : 'M[C]_m }.
Definition gX l := Xmat k0 (gq l) (gd l).
Definition gu l t z := gW l *m profile k0 (gd l) (gq l) t (gB l *m gAi l *m gX l *m t) z 1.
Definition gv l t z := gV l *m profile k0 (gd l) (gq l) t (gB l *m gAi l *m gX l *m t) z (-1).
Definition gnext l (t : 'cV[C]_m) := gAi l *m gX l *m t.
Definition gfields t ls := [seq (gu lt.1 lt.2, gv lt.1 lt.2) | lt <- descend gnext t ls].

Fixpoint chain (ls : seq gmode) (F G T : 'M[C]_m) : Prop :=
  match ls with
  | [::] => [/\ F = F0, G = G0 & T = 1%:M]
  | l :: ls' => exists F1 G1 T1, chain ls' F1 G1 T1 /\
     layer_update pinv false (R1 *m gW l) (R2 *m gV l) (gX l) F1 G1 T1 = Some (F, G, T, gAi l, gB l)
  end.

Definition face F G (t : 'cV[C]_m) := (R1i *m (F *m t), - (R2i *m (G *m t))).

Lemma half2 (x y : 'M[C]_m) : half *: (x + y) + half *: (x - y) = x.
Proof. by rewrite -scalerDr addrACA subrr addr0 scalerDr halfK. Qed.
Lemma half2' (x y : 'M[C]_m) : half *: (x + y) - half *: (x - y) = y.
Proof. by rewrite -scalerBr opprB addrC addrA subrK scalerDr halfK. Qed.

Lemma layer_faces l F1 G1 T1 F G T (t : 'cV[C]_m) :
  layer_update pinv false (R1 *m gW l) (R2 *m gV l) (gX l) F1 G1 T1 = Some (F, G, T, gAi l, gB l) ->
  [/\ (gu l t 0%coqR, gv l t 0%coqR) = face F G t, (gu l t (gd l), gv l t (gd l)) = face F1 G1 (gnext l t)
    & T *m t = T1 *m gnext l t].
Proof.
move=> h; have [[uW uV uA eA eB] [eF eG eT]] := layer_update_some h; split.
- rewrite /gu /gv !profile_top -/(gX l) /face eF eG; congr pair.
    by rewrite scale1r !mulmxA R1K mul1mx -!mulmxA mulmxDl mul1mx -!mulmxA.
  by rewrite scaleN1r !mulmxA R2K mul1mx -!mulmxA mulmxBl mul1mx -!mulmxA mulmxBr mulmxDr mulmxN opprB addrC.
- rewrite /gu /gv !profile_bottom -/(gX l) /face /gnext; congr pair.
    by rewrite [F1 *m _]mulmxA (update_F (gX l) uW uA eA) -eB scale1r !mulmxA R1K mul1mx -!mulmxA mulmxDl -!mulmxA.
  rewrite [G1 *m _]mulmxA (update_G (gX l) uV uA eA) -eB scaleN1r !mulmxA R2K mul1mx -!mulmxA mulmxBl -!mulmxA.
  by rewrite mulmxBr mulmxDr mulmxN opprB addrC.
- by rewrite eT /gnext !mulmxA.
Qed.

Lemma chain_through ls F G T : chain ls F G T -> forall t,
  through (map gd ls) (face F G t) (gfields t ls) (face F0 G0 (T *m t)).
Proof.
elim: ls F G T => [|l ls IH] F G T /=.
  by case=> -> -> -> t; rewrite mul1mx.
case=> F1 [G1 [T1 [h1 h2]]] t; have [e1 e2 e3] := layer_faces t h2.
by split; [exact: e1|rewrite e2 e3; exact: IH].
Qed.

Fixpoint matched (ms : seq (medium m)) (ls : seq gmode) : Prop :=
  match ms, ls with
  | [::], [::] => True
  | a :: ms', l :: ls' => [/\ m_d a = gd l, diagonalised a (gW l) (gV l) (gq l) & matched ms' ls']
  | _, _ => False
  end.

Lemma matched_d ms ls : matched ms ls -> map (@m_d m) ms = map gd ls.
Proof. by elim: ms ls => [|a ms IH] [|l ls] //= [-> _ /IH ->]. Qed.

Lemma chain_solve ms ls : matched ms ls -> forall t, all_solve k0 ms (gfields t ls).
Proof.
elim: ms ls => [|a ms IH] [|l ls] //= [e1 e2 e3] t; split; last exact: IH.
by rewrite /gu /gv -e1; apply: profile_solves.
Qed.

Lemma chain_unique ms ls F G T : matched ms ls -> chain ls F G T -> (forall a, List.In a ms -> (0 <= m_d a)%coqR) ->
  R1 *m R1i = 1%:M -> R2 *m R2i = 1%:M ->
  forall top fs tau, through (map (@m_d m) ms) top fs (face F0 G0 tau) -> all_solve k0 ms fs ->
  exists t, top = face F G t /\ tau = T *m t.
Proof.
move=> hm hc hd R1K' R2K'; elim: ms ls F G T hm hc hd => [|a ms IH] [|l ls] F G T //=.
  by move=> _ [-> -> ->] _ top [|[u v] fs] tau //= -> _; exists tau; rewrite mul1mx.
case=> ed hdg hm [F1 [G1 [T1 [hc hup]]]] hd top [|[u v] fs] tau //= [etop hth] [hs hss].
have [|t1 [e1 etau]] := IH ls F1 G1 T1 hm hc _ _ fs tau hth hss; first by move=> b hb; apply: hd; right.
have [[uW uV uA eA eB] [eF eG eT]] := layer_update_some hup.
have uW' : gW l \in unitmx by move: uW; rewrite unitmx_mul => /andP[].
have uV' : gV l \in unitmx by move: uV; rewrite unitmx_mul => /andP[].
have d0 : (0 <= m_d a)%coqR by apply: hd; left.
have [] := solution_modes uW' uV' hdg d0 hs.
have key (P Pi M : 'M[C]_m) : P *m M \in unitmx -> M \in unitmx -> P *m Pi = 1%:M -> invmx M *m Pi = invmx (P *m M).
  by move=> u1 u2 e; rewrite -[LHS]mul1mx -(mulVmx u1) -!mulmxA [M *m _]mulmxA mulmxV // mul1mx e mulmx1.
case: e1 => -> ->.
have -> : half *: (invmx (gW l) *m (R1i *m (F1 *m t1)) - invmx (gV l) *m - (R2i *m (G1 *m t1)))
   = modeA (R1 *m gW l) (R2 *m gV l) F1 G1 *m t1.
  rewrite /modeA -scalemxAl mulmxDl -(key _ R1i) // -(key _ R2i) // mulmxN opprK -!mulmxA //.
have -> : half *: (invmx (gW l) *m (R1i *m (F1 *m t1)) + invmx (gV l) *m - (R2i *m (G1 *m t1)))
   = modeB (R1 *m gW l) (R2 *m gV l) F1 G1 *m t1.
  rewrite /modeB -scalemxAl mulmxBl -(key _ R1i) // -(key _ R2i) // mulmxN -!mulmxA //.
rewrite -eB ed -/(gX l) => ea eb eu ev.
pose t := half *: (invmx (gW l) *m u 0%coqR - invmx (gV l) *m v 0%coqR).
have et1 : t1 = gAi l *m (gX l *m t) by rewrite -ea eA mulKmx.
exists t; split; last by rewrite etau eT et1 !mulmxA.
have eu0 := eu 0%coqR; have ev0 := ev 0%coqR; rewrite eb -/t et1 in eu0 ev0.
rewrite -etop /face eF eG; congr pair; [rewrite eu0|rewrite ev0].
  by rewrite !mulmxA R1K mul1mx -!mulmxA mulmxDl mul1mx -!mulmxA.
by rewrite !mulmxA R2K mul1mx -!mulmxA mulmxBl mul1mx -!mulmxA !mulmxBr opprB.
Qed.

End Chain.
