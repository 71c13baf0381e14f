From Coq Require Import Reals Lra Psatz.
From mathcomp Require Import all_ssreflect ssralg matrix mxalgebra.
From Coquelicot Require Import Complex.
From Verif Require Import Cplx Mx Spec SpecSolve SpecField ModelTM ModelSMM ModelSMM2D SpecSMM2D ProofFlux ProofEff ProofEnergy1D ProofEnergy2D ProofEnd
  ProofSubstrate ProofWellSolve ProofField ProofBVP ProofBVP2 ProofFilmSolve SpecSMM ProofSMM ProofSMM2 ProofSMM2D ProofSMM2D2 ProofSMM2D3 ProofSMM2D4 ProofSMM2DEx
  ProofEnd2 ProofSetup ProofWell ProofSMM2D5 ProofFieldSolve ProofSMM2D6 ExampleKit ProofFilm2DEx.

Set Implicit Arguments.
Unset Strict Implicit.
Unset Printing Implicit Defensive.
Local Open Scope ring_scope.
Import GRing.Theory.

(** ** Layers of index 1 under index 1, one order at azimuth 45 degrees *)
Section Air.
Variables (k0 th nb : R) (kx ky : nat -> C).
Hypothesis hth : (0 < th < PI / 2)%coqR.
Hypothesis hnb : (1 < nb)%coqR.
Hypothesis ex : kx 0%N = RtoC (1 * sin th * cos (PI / 4)).
Hypothesis ey : ky 0%N = RtoC (1 * sin th * sin (PI / 4)).
Let a := kx 0%N.
Let b := ky 0%N.
Let Vg := homog2_V 1 1 kx ky.
Let z := kz_of (RtoC 1) a b.

Lemma diag1 f : diagf 1 f = (f 0%N)%:M.
Proof. by apply/matrixP => i j; rewrite !mxE !ord1. Qed.
Let Q : 'M[C]_(1 + 1) := block_mx (a * b)%:M (1 - a * a)%:M (b * b - 1)%:M (- (b * a))%:M.

Lemma air_z : exists2 x, (0 < x)%coqR & z = RtoC x.
Proof. exact: (kz_pos (rx1 ex) (ry1 ey) (prop1 hth ex ey) (@ord0 0) (Rle_refl 1)). Qed.
Lemma air_zz : z * z = 1 - a * a - b * b.
Proof.
have := kz_sq 1 (1 * sin th * cos (PI / 4)) (1 * sin th * sin (PI / 4)).
by rewrite /= /z /a /b ex ey !expr2 mul1r => ->.
Qed.
Lemma air_ab : a * b != 0.
Proof. by have [h1 h2] := off1 hth ex ey (ltnSn 0); apply: mulf_neq0; apply/eqP. Qed.

Lemma s1N (x : C) : - (x%:M : 'M[C]_1) = (- x)%:M. Proof. by apply/matrixP => i j; rewrite !ord1 !mxE !mulr1n. Qed.
Lemma s1D (x y : C) : (x%:M : 'M[C]_1) + y%:M = (x + y)%:M. Proof. by apply/matrixP => i j; rewrite !ord1 !mxE !mulr1n. Qed.
Lemma s1M (x y : C) : (x%:M : 'M[C]_1) *m y%:M = (x * y)%:M. Proof. by rewrite scalar_mxM. Qed.
Lemma air_P : smm_P (diagf 1 kx) (diagf 1 ky) 1%:M = Q.
Proof. by rewrite /smm_P /Q !diag1 !mulmx1 !s1N !s1M !s1D !mulNr [- _ + 1]addrC. Qed.
Lemma air_Q : smm_Q (diagf 1 kx) (diagf 1 ky) 1%:M 1%:M 1%:M = Q.
Proof. by rewrite /smm_Q /Q !diag1 !mulmx1 !s1N !s1M !s1D !mulNr [- _ + 1]addrC [-1 + _]addrC. Qed.
Lemma air_PQ : Q *m Q = (- (z * z))%:M.
Proof.
rewrite /Q mulmx_block !s1M !s1D (scalar_mx_block 1 1) air_zz; congr block_mx; try (congr _%:M; mring).
- by rewrite -[0](raddf0 (scalar_mx_additive C_ringType 1)); congr _%:M; mring.
- by rewrite -[0](raddf0 (scalar_mx_additive C_ringType 1)); congr _%:M; mring.
Qed.
Lemma air_Vg : Vg = (ci * z)^-1 *: Q.
Proof.
have ab := air_ab; have hk : homog2_kz 1 kx ky 0%N = z.
  have [x x0 e] := air_z; rewrite /homog2_kz -/a -/b /orp (_ : conj _ = z); last by rewrite /z /kz_of expr1n.
  by rewrite e; case: eqP => // /RtoC_inj; lra.
rewrite /Vg /homog2_V /homog2_Q !diag1 hk -/a -/b invr1 !mul1r /orp (negbTE ab) mulrC -/a oppr_eq0 [b * a == 0](_ : _ = false); last by rewrite mulrC (negbTE ab).
rewrite mulmx_block !mulmx0 !addr0 !add0r !s1M /Q scale_block_mx !expr2.
by congr block_mx; apply/matrixP => i j; rewrite !ord1 !mxE !mulr1n; mring.
Qed.
Lemma air_VgU : Vg \in unitmx.
Proof.
have := V_unit (rx1 ex) (ry1 ey) (off1 hth ex ey) (prop1 hth ex ey) (Rle_refl 1).
by rewrite expr1n.
Qed.

Lemma air_wv : exists W q, W \in unitmx /\ smm_wv eig_ex kx ky 1%:M 1%:M 1%:M = Some (W, Vg *m W, q).
Proof.
have [x x0 ez] := air_z.
have hd : diag_by (- (z * z))%:M (const_mx (- (z * z)), 1%:M : 'M[C]_(1 + 1)).
  by split; rewrite ?unitmx1 //= mulmx1 mul1mx diag_const_mx.
rewrite /smm_wv !np_inv1 air_P air_Q air_PQ.
have [uW eW] := eig_ex_spec hd; move: uW eW; case: (eig_ex _) => lam W /= uW eW.
have el : diag_mx lam = (- (z * z))%:M by rewrite -[LHS](mulKmx uW) -eW mul_scalar_mx -scalemxAr mulVmx // scalemx1.
have ql j : lam ord0 j = - (z * z) by have := congr1 (fun M : 'M[C]_(1 + 1) => M j j) el; rewrite !mxE eqxx !mulr1n.
have sz : csqrt (- (z * z)) = ci * z.
  rewrite ez -RtoC_mul -RtoC_opp csqrt_neg; last nra.
  by rewrite Ropp_involutive sqrt_square //; lra.
have eq : diag_mx (sqrtv lam) = (ci * z)%:M.
  by apply/matrixP => i j; rewrite !mxE ql sz.
have z0 : ci * z != 0 by rewrite mulf_neq0 ?ci_neq0 // ez RtoC_neq0 //; lra.
have uq : diag_mx (sqrtv lam) \in unitmx by rewrite eq unitmxE det_scalar unitfE expf_neq0.
exists W, (sqrtv lam); split=> //; rewrite /np_inv uq eq invmx_scalar; congr (Some (_, _, _)).
by rewrite air_Vg mul_mx_scalar scalemxAl.
Qed.

Let air t : layer 1 := Layer 1%:M 1%:M 1%:M t.
Lemma air_slabs ts : exists W q, W \in unitmx /\ smm_slabs eig_ex kx ky (map air ts) = Some (map (fun t => (W, Vg *m W, q, t)) ts).
Proof.
have [W [q [uW hw]]] := air_wv; exists W, q; split=> //.
by elim: ts => //= t ts ->; rewrite hw.
Qed.

Lemma air_layer W q t : W \in unitmx -> forall Sg : smat (1 + 1), S22 Sg = 0 ->
  exists S, add_layer k0 1%:M Vg (Some Sg) (W, Vg *m W, q, t) = Some S /\ S22 S = 0.
Proof.
move=> uW Sg h22; have uV := air_VgU.
have uVW : Vg *m W \in unitmx by rewrite unitmx_mul uV.
have e : invmx (Vg *m W) *m Vg = invmx W by rewrite -{2}[Vg](mulmxK uW) mulKmx.
have uA : invmx W + invmx W \in unitmx.
  rewrite -[invmx W]scale1r -scalerDl unitmxZ ?unitmx_inv // unitfE (_ : 1 + 1 = RtoC 2); last by cext.
  by apply: RtoC_neq0; lra.
rewrite /= /ab /np_inv uW uVW mulmx1 e subrr /s_layer /np_inv uA ?mulmx0 ?mul0mx ?mulmx0 ?mul0mx ?mulmx0 ?mul0mx ?subr0 uA.
rewrite /star /np_inv /= ?mulmx0 ?mul0mx h22 ?mulmx0 ?mul0mx ?subr0 unitmx1 /=.
by eexists; split; [reflexivity|rewrite /= ?mulmx0 ?mul0mx ?addr0].
Qed.

Lemma air_run kxa kya ts : exists d, smm_2d eig_ex 0 kx ky kxa kya k0 (RtoC th) (RtoC (PI / 4)) (RtoC 1) (RtoC nb) (map air ts) = Some d.
Proof.
have [W [q [uW hsl]]] := air_slabs ts; rewrite /smm_2d hsl.
have [S hS] : exists S, device k0 1%:M Vg (homog2_V 1 (RtoC 1 ^+ 2) kx ky) (homog2_V 1 (RtoC nb ^+ 2) kx ky) (map (fun t => (W, Vg *m W, q, t)) ts) = Some S.
  have [S0 hS0] := bare_device k0 (rx1 ex) (ry1 ey) hnb (off1 hth ex ey) (prop1 hth ex ey).
  move: hS0; rewrite expr1n -/Vg /device.
  have u1 := air_VgU; have e1 : ab_half Vg Vg = Some (1%:M + 1%:M, 0) by rewrite /ab_half /np_inv u1 mulVmx // subrr.
  have e2 : (1%:M + 1%:M : 'M[C]_(1 + 1)) = (RtoC 2)%:M by rewrite -raddfD /=; congr _%:M; cext.
  have u3 : (1%:M + 1%:M : 'M[C]_(1 + 1)) \in unitmx by rewrite e2 unitmxE det_scalar unitfE expf_neq0 // RtoC_neq0 //; lra.
  have [S1 [e3 h22]] : exists S1 : smat (1 + 1), s_rt (1%:M + 1%:M) 0 true = Some S1 /\ S22 S1 = 0.
    by rewrite /s_rt /np_inv u3; eexists; split; [reflexivity|rewrite /= mul0mx].
  rewrite !e1 !e3.
  have fold (Sg : smat (1 + 1)) : S22 Sg = 0 -> exists S, foldl (add_layer k0 1%:M Vg) (Some Sg) (map (fun t => (W, Vg *m W, q, t)) ts) = Some S /\ S22 S = 0.
    elim: ts Sg {hsl} => [|t l IH] Sg h; first by exists Sg.
    by have [S' [e' h']] := air_layer q t uW h; rewrite map_cons -[foldl _ _ _]/(foldl _ (add_layer _ _ _ _ _) _) e'; exact: IH.
  have [S' [-> h']] := fold _ h22; rewrite [foldl _ _ [::]]/=.
  case: (ab_half _ _) => [[At Bt]|] //; case: (s_rt _ _ _) => [St|] // _.
  by rewrite starE h' mulmx0 subr0 unitmx1; eexists.
rewrite hS /reqb; case: (Req_EM_T 0 0) => // _ /=.
by rewrite (sourceE (PI / 4) Rlt_0_1 hth true); eexists.
Qed.
End Air.

Definition g2t (ts : seq R) : setup := Setup (RtoC 1) (RtoC 2) (RtoC (PI / 4)) (Some (RtoC (PI / 4))) (RtoC (PI / 2)) 0 0 0 1 1 ts.
Definition air_convs (ts : seq R) : seq (conv3 1) := nseq (size ts) (1%:M, 1%:M, 1%:M).
Lemma g2t_phys ts : physical (g2t ts).
Proof. by have [h1 h2 h3 h4 h5] := g2_phys. Qed.
Lemma air_layers ts : layers_of (air_convs ts) ts = Some (map (fun t => Layer 1%:M 1%:M 1%:M t) ts).
Proof. by rewrite /air_convs; elim: ts => //= t l ->. Qed.

Lemma g2t_run ts : exists d, smm_solve_2d eig_ex (s := g2t ts) 1 (air_convs ts) = Some d.
Proof.
have [e1 e2] := g2_kx; have h2 : (1 < 2)%coqR by lra.
have [d hd] := air_run (k0_of 1) g2_th h2 e1 e2 (kx_tiled (g2t ts) 1) (ky_tiled (g2t ts) 1) ts.
by exists d; rewrite /smm_solve_2d air_layers.
Qed.

Lemma g2t_tmm ts : exists r infos,
  rcwa_2d (n := 1) pinv_ex eig_ex false (smm_kx (g2t ts) 1) (smm_ky (g2t ts) 1) (k0_of 1) (psi (g2t ts)) (theta (g2t ts)) (n_top (g2t ts)) (n_bot (g2t ts))
    (map (fun t => Layer 1%:M 1%:M 1%:M t) ts) = Some (r, infos).
Proof.
have [e1 e2] := g2_kx.
have rx := rx1 (kx := smm_kx g2 1) e1; have ry := ry1 (ky := smm_ky g2 1) e2.
have hp := prop1 g2_th e1 e2.
have h2 : (0 < 2)%coqR by lra.
have h4 : (0 <= PI / 4 < PI / 2)%coqR by have := PI_RGT_0; lra.
apply: (well_2d pinv_ex (eigen_eig_ok eig_ex_ok) (rvx rx) (rvy ry) (k0_of 1) (psi g2) (theta g2) Rlt_0_1 h2) => //.
- apply/forallP => i; have [h _] := off1 g2_th e1 e2 (ltn_ord i); by apply/orP; left; apply/eqP.
- move=> i hi; have [z z0 ez] := kz_pos rx ry hp (Ordinal hi) (Rle_refl 1).
  by rewrite (ez : kz_2d _ _ _ i = _).
have [xE yE] := smm_kE (s := g2) erefl erefl h4 erefl Rlt_0_1 Rlt_0_1 Rlt_0_1.
pose x (i : nat) := Re (smm_kx g2 1 i); pose y (i : nat) := Re (smm_ky g2 1 i).
have ekx : smm_kx g2 1 = fun i => RtoC (x i) by apply: FunctionalExtensionality.functional_extensionality => i; rewrite /x xE.
have eky : smm_ky g2 1 = fun i => RtoC (y i) by apply: FunctionalExtensionality.functional_extensionality => i; rewrite /y yE.
have hb (i : 'I_1) : (x i * x i + y i * y i < 1)%coqR by apply: (hp i) => //; rewrite ?ekx ?eky.
have cvE : uniform_convs 1 (RtoC 1) = (1%:M, 1%:M, 1%:M) by rewrite /uniform_convs invr1.
have [u1 /positive_definiteE p1 m1] := film_propagates Rlt_0_1 hb.
have [hx hy hz] := @film_lossless 1 1 Rlt_0_1.
move=> l hl.
have el : (epx l, epy l, epzi l) = uniform_convs 1 (RtoC 1) by rewrite cvE; have [t _ ->] := In_map hl.
rewrite -ekx -eky -el in u1 p1 m1; rewrite -[_%:M]/(uniform_convs 1 (RtoC 1)).1.1 -el in hx.
rewrite -[(RtoC 1)%:M]/(uniform_convs 1 (RtoC 1)).1.2 -el in hy; rewrite -[_^-1%:M]/(uniform_convs 1 (RtoC 1)).2 -el in hz.
split; first by split; apply: hermitian_herm.
- by rewrite e_from_hE in u1.
- by rewrite e_from_hE in p1.
- by rewrite maxwell_E in m1.
Qed.
