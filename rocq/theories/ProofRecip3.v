(** Reciprocity of the zeroth reflected order: solvers and objects. *)
From Coq Require Import Reals Lra.
From mathcomp Require Import all_ssreflect ssralg ssrint matrix.
From Coquelicot Require Import Complex.
From Verif Require Import Cplx Mx Spec SpecSolve SpecField SpecLayer SpecState SpecSym SpecRecip ModelTM ModelField ModelFourier ModelState
  ProofSetup ProofEff ProofInvert ProofEnergy1D ProofEnergy2D ProofField ProofFieldSolve ProofState2 ProofEnd ProofPassive ProofPassive2
  ProofSym2 ProofSym3 ProofSym4 ProofSym5 ProofSym6 ProofSym7 ProofRecip ProofRecip2.

Set Implicit Arguments.
Unset Strict Implicit.
Unset Printing Implicit Defensive.
Local Open Scope ring_scope.
Import GRing.Theory.

(** ** Three polarisations against three *)
Section Three.
Variables (n : nat) (sg : 'I_n -> 'I_n) (z : 'I_n -> C) (kx kx' ky ky' dc ds dc' ds' : nat -> C) (nt th : R) (nb : C).
Hypothesis hsg : involutive sg.
Hypothesis hz : forall i, z i * z i = 1.
Hypothesis hkx : forall i : 'I_n, kx' (sg i) = - kx i.
Hypothesis hky : forall i : 'I_n, ky' (sg i) = - ky i.
Hypothesis hdc : forall i : 'I_n, dc' (sg i) = z i * dc i.
Hypothesis hds : forall i : 'I_n, ds' (sg i) = z i * ds i.
Hypothesis hd1 : forall i : 'I_n, dc i ^+ 2 + ds i ^+ 2 = 1.
Hypothesis hc : forall i : 'I_n, (sg i == (n %/ 2)%N :> nat) = (i == (n %/ 2)%N :> nat).
Hypotheses (n0 : (0 < nt)%coqR) (t01 : (0 <= th < PI / 2)%coqR).
Hypothesis hkz : forall i : 'I_n, i = (n %/ 2)%N :> nat -> kz_of (RtoC nt) (kx i) (ky i) = RtoC (nt * cos th).
Variables (k0 : R) (cs : seq (conv3 n)) (ts : seq R).
Hypotheses (hts : forall t, List.In t ts -> (0 <= t)%coqR) (hsz : (size ts <= size cs)%N) (hr : all2p (reversed3 sg) cs cs).

Let cos0 : cos th <> 0%coqR.
Proof. by have := cos_gt_0 th; have := PI_RGT_0; lra. Qed.

Lemma recip_one ps ps' (d d' : diffraction n) fs fs' :
  solution_sp k0 (media_sp kx ky cs ts) (RtoC nt) nb (RtoC th) ps kx ky dc ds d fs ->
  solution_sp k0 (media_sp kx' ky' cs ts) (RtoC nt) nb (RtoC th) ps' kx' ky' dc' ds' d' fs' -> reciprocal (RtoC nt) ps ps' d d'.
Proof.
move=> [h _] [h' _] i hi.
have hnt : RtoC nt != 0 by apply/eqP => -[]; lra.
have hcos : ccos (RtoC th) != 0 by rewrite ccos_real; apply/eqP => -[].
have hk : kz_of (RtoC nt) (kx i) (ky i) = RtoC nt * ccos (RtoC th) by rewrite hkz // ccos_real RtoC_mul.
exact (specular_sp hsg hz hkx hky hdc hds hd1 hc hts hsz hr hi hk hnt hcos h h').
Qed.

Lemma recip_three ps ps' (r r' : sp_result n) fs fs' :
  solution3_sp k0 (media_sp kx ky cs ts) (RtoC nt) nb (RtoC th) ps kx ky dc ds r fs ->
  solution3_sp k0 (media_sp kx' ky' cs ts) (RtoC nt) nb (RtoC th) ps' kx' ky' dc' ds' r' fs' ->
  (forall d : diffraction n, d = res_te_inc r \/ d = res_tm_inc r ->
    extracted d (kz_2d (RtoC nt) kx ky) (kz_2d nb kx ky) (RtoC th) (RtoC nt) nb) ->
  (forall d : diffraction n, d = res_te_inc r' \/ d = res_tm_inc r' ->
    extracted d (kz_2d (RtoC nt) kx' ky') (kz_2d nb kx' ky') (RtoC th) (RtoC nt) nb) ->
  reciprocal_reports (RtoC nt) ps ps' (Report (Some (res r)) (Some (res_te_inc r)) (Some (res_tm_inc r)))
        (Report (Some (res r')) (Some (res_te_inc r')) (Some (res_tm_inc r'))).
Proof.
move=> [s1 s2 s3] [s1' s2' s3'] x x'.
have ee := recip_one s2 s2'; have mm := recip_one s3 s3'; have em := recip_one s2 s3'; have me := recip_one s3 s2'.
constructor; [exact: recip_one s1 s1'|by split|move=> i hi].
have si : sg i = i by apply: val_inj; rewrite /= hi; apply/eqP; rewrite hc hi.
have rule (d : diffraction n) (a b : nat -> C) : kz_of (RtoC nt) (a i) (b i) = RtoC (nt * cos th) ->
    extracted d (kz_2d (RtoC nt) a b) (kz_2d nb a b) (RtoC th) (RtoC nt) nb ->
    de_ri_s d i = nrm2 (R_s d i ord0) /\ de_ri_p d i = nrm2 (ci * R_p d i ord0 / RtoC nt).
  move=> hk /extracted_rule /(_ i) [[-> -> _] _]; rewrite /kz_2d -[conj _]/(kz_of _ _ _) hk ccos_real -RtoC_mul.
  have k00 : (nt * cos th)%coqR <> 0%coqR by apply: Rmult_integral_contrapositive; split; [lra|exact: cos0].
  have nt0 : nt <> 0%coqR by lra.
  have nn0 : (nt * nt)%coqR <> 0%coqR by apply: Rmult_integral_contrapositive.
  rewrite expr2 -RtoC_mul -(RtoC_inv k00) -(RtoC_inv nn0) -(RtoC_inv nt0) -!RtoC_mul !Re_RtoC.
  split; first by rewrite Rinv_r // Rmult_1_r.
  rewrite !nrm2M; have -> : nrm2 ci = 1%coqR by rewrite /nrm2 /Re /Im /=; ring.
  have -> : nrm2 (RtoC (/ nt)) = (/ nt * / nt)%coqR by rewrite /nrm2 Re_RtoC Im_RtoC; ring.
  by field; split=> //; exact: cos0.
have hk' : kz_of (RtoC nt) (kx' i) (ky' i) = RtoC (nt * cos th).
  by rewrite -si hkx hky /kz_of !sqrrN; exact: hkz.
have [p1 p2] := rule _ _ _ (hkz hi) (x _ (or_introl erefl)); have [p3 p4] := rule _ _ _ (hkz hi) (x _ (or_intror erefl)).
have [q1 q2] := rule _ _ _ hk' (x' _ (or_introl erefl)); have [q3 q4] := rule _ _ _ hk' (x' _ (or_intror erefl)).
rewrite p1 p2 p3 p4 q1 q2 q3 q4.
have sn : csin (RtoC (PI / 2)) = 1 by rewrite csin_real sin_PI2.
have cn : ccos (RtoC (PI / 2)) = 0 by rewrite ccos_real cos_PI2.
have s0 : csin 0 = 0 by rewrite -[0]/(RtoC 0) csin_real sin_0.
have c0 : ccos 0 = 1 by rewrite -[0 in LHS]/(RtoC 0) ccos_real cos_0.
have := ee i hi; have := mm i hi; have := em i hi; have := me i hi; rewrite /specular_along sn cn s0 c0.
by rewrite !mul1r !mul0r !add0r !addr0 => -> -> -> ->.
Qed.
End Three.

Section Solvers.
Variable pinv : forall n, 'M[C]_n -> 'M[C]_n.
Variable eig : forall n, 'M[C]_n -> 'rV[C]_n * 'M[C]_n.
Hypothesis heig : eigen_oracle eig.

Lemma recip_solve_1d s th' w (convs : seq (conv3 (ff_x s))) r T1 infos r' T1' infos' (sg : 'I_(ff_x s) -> 'I_(ff_x s)) :
  let s' := turn th' (phi s) (psi s) s in
  physical s -> phi s = None ->
  involutive sg -> (forall i : 'I_(ff_x s), kx_vector s' w (sg i) = - kx_vector s w i) ->
  (forall i, (sg i == fto_x s :> nat) = (i == fto_x s :> nat)) -> ccos th' = ccos (theta s) ->
  (forall t, List.In t (thickness s) -> (0 <= t)%coqR) -> all2p (reversed3 sg) convs convs ->
  solve_1d pinv eig false s w convs = Some (r, T1, infos) ->
  solve_1d pinv eig false s' w convs = Some (r', T1', infos') -> same_specular r r'.
Proof.
move=> s' hp hf hsg hk hc hth ht hm e1 e2 i hi.
have [b1 _] := bvp_solve_1d heig e1; have [b2 _] := bvp_solve_1d heig e2.
have hn : (ff_x s %/ 2)%N = fto_x s by rewrite /ff_x half_ff.
have hc' j : (sg j == (ff_x s %/ 2)%N :> nat) = (j == (ff_x s %/ 2)%N :> nat) by rewrite hn.
have hsz : (size (thickness s) <= size convs)%N.
  by move: e1; rewrite /solve_1d; case e: (layers_of _ _) => [ls|] // _; exact: layers_size e.
have [[nt n0 ent_] [th [t0 t1] eth] _ _ _] := hp.
have hnt : n_top s != 0 by rewrite ent_; apply/eqP => -[]; lra.
have hcos : ccos (theta s) != 0 by rewrite eth ccos_real; apply/eqP => -[]; have := cos_gt_0 th; have := PI_RGT_0; lra.
have hkz : kz_of (n_top s) (kx_vector s w i) 0 = n_top s * ccos (theta s).
  by rewrite hi ent_ (kz_mid w ent_ n0 eth (Logic.conj t0 t1) hf) eth ccos_real RtoC_mul.
have key := specular_1d hsg hk hc' ht hsz hm hi hth hkz hnt hcos b1 b2.
have [F [G [T x1]]] : exists F G T, transfer_1d_4 pinv false (pol s) F G T (kz_1d (n_top s) (kx_vector s w)) (kz_1d (n_bot s) (kx_vector s w))
    (theta s) (n_top s) (n_bot s) = Some (r, T1).
  by move: e1; rewrite /solve_1d; case: (layers_of _ _) => [ls|] // /rcwa_1d_inv.
have [F' [G' [T' x2]]] : exists F G T, transfer_1d_4 pinv false (pol s) F G T (kz_1d (n_top s) (kx_vector s' w)) (kz_1d (n_bot s) (kx_vector s' w))
    th' (n_top s) (n_bot s) = Some (r', T1').
  by move: e2; rewrite /solve_1d; case: (layers_of _ _) => [ls|] // /rcwa_1d_inv.
have [z1 z2] := zero_1d x1; have [z1' z2'] := zero_1d x2.
have [a1 a2] : R_s r' i ord0 = R_s r i ord0 /\ R_p r' i ord0 = R_p r i ord0.
  move: key z1 z1'; rewrite /co_R /cross_R; change (pol s') with (pol s).
  by case: (is_tm _) => -> -> ->.
have si : sg i = i by apply: val_inj; rewrite /= hi; apply/eqP; rewrite hc' hi.
have q1 := rule_1d x1; have q2 := rule_1d x2; rewrite hth in q2.
have [[c1 c2 c3] _] := q1 i; have [[d1 d2 d3] _] := q2 i.
have kE : kz_1d (n_top s) (kx_vector s' w) i = kz_1d (n_top s) (kx_vector s w) i by rewrite /kz_1d -{1}si hk sqrrN.
by rewrite d3 d1 d2 c3 c1 c2 a1 a2 kE.
Qed.

(** A setup lit from the azimuth turned by pi, with any polarisation. *)
Section Turned.
Variables (s : setup) (w : R) (ph' : option C) (ps' : C) (po : R) (convs : seq (conv3 (ff_y s * ff_x s))).
Let s' := Setup (n_top s) (n_bot s) (theta s) ph' ps' po (fto_x s) (fto_y s) (period_x s) (period_y s) (thickness s).
Hypothesis hp : physical s.
Hypothesis hph' : ph' = turned_phi Reverse Reverse (phi s).
Hypothesis hts : forall t, List.In t (thickness s) -> (0 <= t)%coqR.
Hypothesis hr : all2p (reversed3 (@sgr (fto_x s) (fto_y s))) convs convs.
Let n := (ff_y s * ff_x s)%N.
Let kx := kx_tiled s w.
Let ky := ky_tiled s w.
Let hp' : physical s' := sp_phys ps' hp hph'.

Lemma recip_solutions (r r' : sp_result n) fs fs' : (size (thickness s) <= size convs)%N ->
  (forall dc ds, directions n kx ky dc ds ->
    solution3_sp (k0_of w) (media_sp kx ky convs (thickness s)) (n_top s) (n_bot s) (theta s) (psi s) kx ky dc ds r fs) ->
  (forall dc ds, directions n (kx_tiled s' w) (ky_tiled s' w) dc ds ->
    solution3_sp (k0_of w) (media_sp (kx_tiled s' w) (ky_tiled s' w) convs (thickness s)) (n_top s) (n_bot s) (theta s) ps'
      (kx_tiled s' w) (ky_tiled s' w) dc ds r' fs') ->
  (forall d : diffraction n, d = res_te_inc r \/ d = res_tm_inc r ->
    extracted d (kz_2d (n_top s) kx ky) (kz_2d (n_bot s) kx ky) (theta s) (n_top s) (n_bot s)) ->
  (forall d : diffraction n, d = res_te_inc r' \/ d = res_tm_inc r' ->
    extracted d (kz_2d (n_top s) (kx_tiled s' w) (ky_tiled s' w)) (kz_2d (n_bot s) (kx_tiled s' w) (ky_tiled s' w)) (theta s) (n_top s) (n_bot s)) ->
  reciprocal_reports (n_top s) (psi s) ps' (Report (Some (res r)) (Some (res_te_inc r)) (Some (res_tm_inc r)))
        (Report (Some (res r')) (Some (res_te_inc r')) (Some (res_tm_inc r'))).
Proof.
move=> hsz k1 k2 x1 x2; have [dc [ds hd]] := directions_exist w hp.
have hsg := @sp_inv Reverse Reverse s; have hm1 : sign (-1) by right.
have hkx (i : 'I_n) : kx_tiled s' w (@sgr (fto_x s) (fto_y s) i) = -1 * kx i := proj1 (sp_kx w ps' hp hph' i).
have hky (i : 'I_n) : ky_tiled s' w (@sgr (fto_x s) (fto_y s) i) = -1 * ky i := proj2 (sp_kx w ps' hp hph' i).
have hd' := dir_ok hsg hm1 hm1 hkx hky (fun i => (tiled_real w hp i).2) hd.
pose z (i : 'I_n) := eta_of (-1) (-1) (kx i) (ky i) * -1.
have hz i : z i * z i = 1.
  have e := sign_sq (eta_sign (kx i) (ky i) hm1 hm1).
  by rewrite /z mulrACA e mul1r mulrNN mul1r.
have D1 (i : 'I_n) := dirE (-1) (-1) kx ky hsg (-1) dc i.
have D2 (i : 'I_n) := dirE (-1) (-1) kx ky hsg (-1) ds i.
have hd1 (i : 'I_n) : dc i ^+ 2 + ds i ^+ 2 = 1 by case: (hd i).
have [[nt n0 ent_] [th t01 eth] hphi _ _] := hp.
have hkz (i : 'I_n) : i = (n %/ 2)%N :> nat -> kz_of (RtoC nt) (kx i) (ky i) = RtoC (nt * cos th).
  move=> hi; have [f hf] := phi_real hphi; have [_ _ hmid] := tiled_phys w ent_ eth t01 hf.
  by apply: kz2_center => //; rewrite hi; exact: hmid.
have hkx' (i : 'I_n) : kx_tiled s' w (@sgr (fto_x s) (fto_y s) i) = - kx i by rewrite hkx mulN1r.
have hky' (i : 'I_n) : ky_tiled s' w (@sgr (fto_x s) (fto_y s) i) = - ky i by rewrite hky mulN1r.
have K1 := k1 _ _ hd; have K2 := k2 _ _ hd'; rewrite ent_ eth in K1 K2 x1 x2 *.
exact (recip_three (sg := @sgr (fto_x s) (fto_y s)) hsg hz hkx' hky' D1 D2 hd1 (sp_centre Reverse Reverse (s := s)) n0 t01 hkz hts hsz hr K1 K2 x1 x2).
Qed.

Lemma recip_solve_2d r infos r' infos' : solve_2d pinv eig false s w convs = Some (r, infos) ->
  solve_2d pinv eig false s' w convs = Some (r', infos') ->
  reciprocal_reports (n_top s) (psi s) ps' (Report (Some (res r)) (Some (res_te_inc r)) (Some (res_tm_inc r)))
        (Report (Some (res r')) (Some (res_te_inc r')) (Some (res_tm_inc r'))).
Proof.
move=> e1 e2; have hsz : (size (thickness s) <= size convs)%N.
  by move: e1; rewrite /solve_2d; case e: (layers_of _ _) => [ls|] // _; exact: layers_size e.
refine (recip_solutions hsz (bvp_solve_2d heig hp e1) (bvp_solve_2d heig hp' e2) _ _).
- by move: e1; rewrite /solve_2d; case: (layers_of _ _) => [ls|] // /rcwa_2d_inv [_ h1 h2] d [->|->].
by move: e2; rewrite /solve_2d; case: (layers_of _ _) => [ls|] // /rcwa_2d_inv [_ h1 h2] d [->|->].
Qed.
Lemma recip_solve_conical r infos r' infos' : (forall c, List.In c (used s convs) -> line_convs c) ->
  solve_1d_conical pinv eig false s w convs = Some (r, infos) -> solve_1d_conical pinv eig false s' w convs = Some (r', infos') ->
  reciprocal_reports (n_top s) (psi s) ps' (Report (Some (res r)) (Some (res_te_inc r)) (Some (res_tm_inc r)))
        (Report (Some (res r')) (Some (res_te_inc r')) (Some (res_tm_inc r'))).
Proof.
move=> hl e1 e2; have hsz : (size (thickness s) <= size convs)%N.
  by move: e1; rewrite /solve_1d_conical; case: ifP => // _; case e: (layers_of _ _) => [ls|] // _; exact: layers_size e.
refine (recip_solutions hsz (bvp_solve_conical heig hp hl e1) (bvp_solve_conical heig hp' hl e2) _ _).
- by move: e1; rewrite /solve_1d_conical; case: ifP => // _; case: (layers_of _ _) => [ls|] // /rcwa_conical_inv [_ h1 h2] d [->|->].
by move: e2; rewrite /solve_1d_conical; case: ifP => // _; case: (layers_of _ _) => [ls|] // /rcwa_conical_inv [_ h1 h2] d [->|->].
Qed.
End Turned.

(** ** Objects *)
Lemma recip_sp_obj ps po o o1 o2 r r' : physical_obj o -> thick_enough o -> o_use_pinv o = false -> ~ promised o 0 ->
  conv_solve pinv eig o = (o1, Solved r) -> conv_solve pinv eig (turned_about ps po o) = (o2, Solved r') ->
  reciprocal_reports (o_ntop o) (o_psi o) ps r r'.
Proof.
move=> hp ht hu hnp e e'; set o' := turned_about ps po o in e'.
have [fx [fy [cs [g [th [p [[ef ec eg pg et] [ep _ hg es]]]]]]]] := conv_solveE e.
have [fx' [fy' [cs' [g' [th' [p' [[ef' ec' eg' pg' et'] [ep' _ hg' es']]]]]]]] := conv_solveE e'.
have hf' : fto_of o' = fto_of o by [].
have ht' : o_theta o' = o_theta o by [].
have hpe' : period_of o' = period_of o by [].
rewrite hf' in ef'; rewrite hpe' in ep'; rewrite ht' in et'.
move: ef' et' ep' cs' ec' eg' es' pg'; rewrite ef et ep => -[<- <-] [<-] [<-] cs' ec' eg' es' pg'.
have ecs : cs' = cs by move: ec'; rewrite (_ : convs_of pinv o' fx fy = convs_of pinv o fx fy) // ec => -[].
rewrite {}ecs {ec'} in es'.
have g0 : g <> 0%N by move=> g0; apply: hnp; rewrite -g0.
have gE : g' = g.
  move: g0; inversion pg; inversion pg'; simpl in *; congruence.
rewrite {}gE {eg' hg' pg'} in es'.
have hrv := convs_rev hu ec.
have hphys ts : physical (setup_of o fx fy th p ts) by exact: physical_setup.
move: es es'; rewrite /solve_with; change (o_use_pinv o') with (o_use_pinv o); rewrite hu.
change (o_algo o') with (o_algo o); change (o_thickness o') with (o_thickness o); change (o_wavelength o') with (o_wavelength o).
case: ifP => _; first by case=> _ <- [_ <-]; exact: Reciprocal0.
case: (o_algo o) => //; case eth: (o_thickness o) => [|ts|] //.
have hts : forall t, List.In t (thickness (setup_of o fx fy th p ts)) -> (0 <= t)%coqR by exact: ht.
case: g g0 eg pg hg => [|[|[|g]]] // g0 eg pg _.
- case e1: (solve_1d_conical _ _ _ _ _ _) => [[d infos]|] // [_ <-].
  case e2: (solve_1d_conical _ _ _ _ _ _) => [[d' infos']|] // [_ <-].
  have l1 c : List.In c (used (setup_of o fx fy th p ts) cs) -> line_convs c.
    inversion pg as [|nx ls hmt hc _| |] => h; exact: (convs_line hmt hc hu ec (In_take h)).
  exact (@recip_solve_conical (setup_of o fx fy th p ts) (o_wavelength o) _ ps (Re po) cs (hphys ts) erefl hts hrv d infos d' infos' l1 e1 e2).
case e1: (solve_2d _ _ _ _ _ _) => [[d infos]|] // [_ <-].
case e2: (solve_2d _ _ _ _ _ _) => [[d' infos']|] // [_ <-].
exact (@recip_solve_2d (setup_of o fx fy th p ts) (o_wavelength o) _ ps (Re po) cs (hphys ts) erefl hts hrv d infos d' infos' e1 e2).
Qed.

Lemma recip_classical_obj o o1 o2 r r' : physical_obj o -> thick_enough o -> o_use_pinv o = false -> promised o 0 ->
  conv_solve pinv eig o = (o1, Solved r) -> conv_solve pinv eig (other_side o) = (o2, Solved r') ->
  reports same_specular r r'.
Proof.
move=> hp ht hu hpr e e'; set o' := other_side o in e'.
have [fx [fy [cs [g [th [p [[ef ec eg pg et] [ep _ hg es]]]]]]]] := conv_solveE e.
have [fx' [fy' [cs' [g' [th' [p' [[ef' ec' eg' pg' et'] [ep' _ hg' es']]]]]]]] := conv_solveE e'.
have hf' : fto_of o' = fto_of o by [].
have hpe' : period_of o' = period_of o by [].
have ht' : o_theta o' = Some (- th) by rewrite /= et.
rewrite hf' in ef'; rewrite hpe' in ep'; rewrite ht' in et'.
move: ef' et' ep' cs' ec' eg' es' pg'; rewrite ef ep => -[<- <-] [<-] [<-] cs' ec' eg' es' pg'.
have ecs : cs' = cs by move: ec'; rewrite (_ : convs_of pinv o' fx fy = convs_of pinv o fx fy) // ec => -[].
rewrite {}ecs {ec'} in es'.
have [hmt [nx [ls hc]] hpol hphi [f hff _]] : [/\ o_mtype o = Some false, (exists nx ls, o_cell o = CRaster 1 nx ls),
    o_pol o = 0 \/ o_pol o = 1, o_phi o = None & exists2 f, fto_of o = Some (f, 0%N) & True].
  by inversion hpr as [nx ls h1 h2 h3 h4 h5| | |]; split=> //; exists nx, ls.
have fy0 : fy = 0%N by move: ef; rewrite hff => -[].
have gg : grating_of o fy = Some 0%N.
  by rewrite /grating_of hmt hc hphi fy0 /=; case: hpol => ->; rewrite eqxx ?orbT.
have gg' : grating_of o' fy = Some 0%N by rewrite -gg.
have g0 : g = 0%N by move: eg; rewrite gg => -[].
have g0' : g' = g by move: eg'; rewrite gg' g0 => -[].
rewrite {}g0' {eg' hg' pg'} in es'.
have hrv := convs_rev hu ec.
move: es es'; rewrite /solve_with; change (o_use_pinv o') with (o_use_pinv o); rewrite hu.
change (o_algo o') with (o_algo o); change (o_thickness o') with (o_thickness o); change (o_wavelength o') with (o_wavelength o).
case: ifP => _; first by case=> _ <- [_ <-]; do 2 constructor.
case: (o_algo o) => //; case eth: (o_thickness o) => [|ts|] //; rewrite g0.
pose s := setup_of o fx fy th p ts.
have hts : forall t, List.In t (thickness s) -> (0 <= t)%coqR by exact: ht.
have hphys : physical s by exact: physical_setup.
case e1: (solve_1d _ _ _ _ _ _) => [[[d T1] infos]|] // [_ <-].
case e2: (solve_1d _ _ _ _ _ _) => [[[d' T1'] infos']|] // [_ <-].
constructor; constructor.
pose sg : 'I_(ff_x s) -> 'I_(ff_x s) := lift_n (order_place Reverse (ff_x s)).
have hinv : involutive sg := @cl_inv Reverse s.
have clE' (i : 'I_(ff_x s)) : sg i = order_place Reverse (ff_x s) i :> nat := @clE Reverse s i.
apply: (@recip_solve_1d s (- th) (o_wavelength o) (map (crop3 (ff_x s)) cs) d T1 infos d' T1' infos' sg hphys hphi hinv _ _ _ hts _ e1 e2).
- move=> i; rewrite clE' -[RHS]mulN1r; apply: (@kx_place Reverse s) => //; rewrite /phi_val /=.
  rewrite /sin_theta /= mulN1r -mulNr; congr (_ * _).
  have [t [tl tr] eth'] : angle_below_90 th by case: hp => _ h2 _ _ _; exact: h2.
  have := pi32_gt; have p0 := PI_RGT_0 => hpi; rewrite eth' -RtoC_opp !Re_RtoC.
  case: (Rle_dec pi32 t) => h3; first by exfalso; lra.
  case: (Rle_dec pi32 (- t)) => h4; first by exfalso; lra.
  by rewrite RtoC_opp csinN.
- move=> i; apply/eqP/eqP => h; last exact: (@cl_mid Reverse s).
  by rewrite -(hinv i); exact: (@cl_mid Reverse s).
- exact: ccosN.
apply: all2p_map hrv => c c'; apply: crop_rev; first by rewrite fy0 mul1n.
move=> i i' ei; have hi : (i < ff_x s)%N by rewrite ei.
rewrite clE' /sgr sg2E; try (by move=> j; exact: order_place_lt).
have hz : order_place Reverse fy.*2.+1 0 = 0%N by rewrite fy0.
by rewrite /tau2 (divn_small hi) (modn_small hi) hz -ei.
Qed.
End Solvers.
