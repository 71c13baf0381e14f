(** The public fields of the PyTorch backend are the conjugated mirror images of NumPy's. *)
From Coq Require Import Reals Lra FunctionalExtensionality.
From mathcomp Require Import all_ssreflect ssralg matrix.
From Coquelicot Require Import Complex Hierarchy Derive.
From Verif Require Import Cplx Mx ModelTM ModelField ModelTorch ModelTorchField Spec SpecSolve SpecField SpecMaxwell SpecFull SpecTorch SpecTorchField
  ModelState SpecLayer SpecState ProofSetup ProofField
  ProofEnergy1D ProofBVP ProofBVP2 ProofFieldSolve ProofMaxwell ProofEnergy2D ProofState2 ProofEnd ProofPassive ProofFull ProofPinv ProofTorch ProofTorch2.

Set Implicit Arguments.
Unset Strict Implicit.
Unset Printing Implicit Defensive.
Local Open Scope ring_scope.
Import GRing.Theory.

(** ** Conjugation and reflection y -> -y of a solution *)
Definition turn (a : C) (v : vec3) : vec3 := (a * conj (vx v), - a * conj (vy v), a * conj (vz v)).
Definition turned (a : C) (f : vfield) : vfield := fun x y z => turn a (f x (- y)%coqR z).

Lemma turn_scale a b v : turn a (vscale b v) = vscale (conj b) (turn a v).
Proof. by rewrite /turn /vscale /vx /vy /vz /= !conjM; congr (_, _, _); rewrite mulrCA. Qed.
Lemma turn_opp a v : turn (- a) v = vscale (-1) (turn a v).
Proof. by rewrite /turn /vscale /vx /vy /vz /=; congr (_, _, _); rewrite mulN1r ?mulNr ?opprK. Qed.

Lemma curl_turn a f x y z g : curl_at f x (- y)%coqR z g -> curl_at (turned a f) x y z (turn (- a) g).
Proof.
move=> [fxy [fxz [fyx [fyz [fzx [fzy [[h1 h2] [[h3 h4] [[h5 h6] ->]]]]]]]]].
exists (- a * conj fxy), (a * conj fxz), (- a * conj fyx), (- a * conj fyz), (a * conj fzx), (- a * conj fzy).
have cd b f' t l : cderiv f' t l -> cderiv (fun u => b * conj (f' u)) t (b * conj l) by move=> h; apply: cderiv_scale; apply: cderiv_conj.
split; last split; last split.
- split; last exact: cd h2.
  by apply: (cderiv_eq (l := a * conj (- fxy))); [rewrite conjN mulrN mulNr|apply: (cd a (fun u => vx (f x (- u)%coqR z))); apply: (cderiv_opp (f := fun u => vx (f x u z)))].
- by split; [exact: cd h3|exact: cd h4].
- split; first exact: cd h5.
  by apply: (cderiv_eq (l := a * conj (- fzy))); [rewrite conjN mulrN mulNr|apply: (cd a (fun u => vz (f x (- u)%coqR z))); apply: (cderiv_opp (f := fun u => vz (f x u z)))].
- rewrite /turn /vx /vy /vz /= !conjB; congr (_, _, _); cring.
Qed.

Section Turn.
Variables (n : nat) (k0 : R) (kx ky : nat -> C).
Hypotheses (kxr : forall i, is_real (kx i)) (kyr : forall i, is_real (ky i)).
Let ky' i := - ky i.

Lemma orders_turn (f : R -> R -> C) (c : 'cV[C]_n) (b : C) : orders k0 kx ky f c ->
  orders_m k0 kx ky' (fun x y => b * conj (f x (- y)%coqR)) (\col_i (b * conj (c i ord0))).
Proof.
move=> h x y; rewrite h (rmorph_sum conj_rmorphism) mulr_sumr; apply: eq_bigr => j _; rewrite mxE.
rewrite -[conj_rmorphism _]/(conj (_ * _)) conjM mulrCA; congr (_ * _).
rewrite -cexp_conj; congr (cexp _); have [u eu] := kxr j; have [v ev] := kyr j; rewrite /ky' eu ev; cext.
Qed.
Lemma orders_eq (f g : R -> R -> C) (c c' : 'cV[C]_n) : (forall x y, f x y = g x y) -> c = c' -> orders_m k0 kx ky' f c -> orders_m k0 kx ky' g c'.
Proof. by move=> h <- hf x y; rewrite -h. Qed.

Lemma conj_mulmx (A B : 'M[C]_n) (v : 'cV[C]_n) b : (forall i j, B i j = conj (A i j)) ->
  \col_i (b * conj ((A *m v) i ord0)) = B *m (\col_i (b * conj (v i ord0))).
Proof.
move=> h; apply/matrixP => i j; rewrite !mxE (rmorph_sum conj_rmorphism) mulr_sumr; apply: eq_bigr => k _.
by rewrite mxE h -[conj_rmorphism _]/(conj (_ * _)) conjM mulrCA.
Qed.

Lemma material_turn a (c : conv3 n) e d z : material k0 kx ky c e d z -> material_m k0 kx ky' (conj3 c) (turned a e) (turned a d) z.
Proof.
case: c => [[epx epy] epz] [ex [ey [dz [[h1 h2] [h3 h4] [h5 h6]]]]].
exists (\col_i (a * conj (ex i ord0))), (\col_i (- a * conj (ey i ord0))), (\col_i (a * conj (dz i ord0))).
have cm (A : 'M[C]_n) : forall i j, (\matrix_(i, j) conj (A i j)) i j = conj (A i j) by move=> i j; rewrite mxE.
have k2 := orders_turn a h2; have k4 := orders_turn (- a) h4; have k6 := orders_turn a h6.
rewrite (conj_mulmx _ _ (cm epx)) in k2; rewrite (conj_mulmx _ _ (cm epy)) in k4; rewrite (conj_mulmx _ _ (cm epz)) in k6.
split; split; [exact (orders_turn a h1)|exact k2|exact (orders_turn (- a) h3)|exact k4|exact (orders_turn a h5)|exact k6].
Qed.

Lemma maxwell_turn a (c : conv3 n) t e h : maxwell k0 kx ky c t e h -> maxwell_m k0 kx ky' (conj3 c) t (turned a e) (turned (- a) h).
Proof.
move=> [d hd]; exists (turned a d) => z hz; have [hm hc] := hd z hz; split; first exact: material_turn.
move=> x y; have [c1 c2] := hc x (- y)%coqR; have d1 := curl_turn a c1; have d2 := curl_turn (- a) c2.
by split; [move: d1|move: d2]; rewrite turn_scale conjM conjR ?conjN conjI ?opprK.
Qed.

Definition turned_plane (a : C) (uv : 'cV[C]_(n + n) * 'cV[C]_(n + n)) : 'cV[C]_(n + n) * 'cV[C]_(n + n) :=
  (col_mx (\col_i (a * conj (usubmx uv.1 i ord0))) (\col_i (- a * conj (dsubmx uv.1 i ord0))),
   col_mx (\col_i (- a * conj (ci * usubmx uv.2 i ord0))) (\col_i (a * conj (ci * dsubmx uv.2 i ord0)))).

Lemma plane_turn a e h z uv : on_plane k0 kx ky e h z uv -> on_plane_m k0 kx ky' (turned a e) (turned (- a) h) z (turned_plane a uv).
Proof.
move=> [h1 h2 h3 h4]; rewrite /on_plane_m /turned_plane /= !col_mxKu !col_mxKd.
have r3 := orders_turn (- a) h3; have r4 := orders_turn a h4.
split; [exact: (orders_turn a h1)|exact: (orders_turn (- a) h2)| |].
- by apply: (orders_eq _ _ r3) => //; apply/matrixP => i j; rewrite !mxE.
- by apply: (orders_eq _ _ r4) => [x y|]; [rewrite /turned /turn /vy /= opprK|apply/matrixP => i j; rewrite !mxE].
Qed.

Definition turned_value (a : C) (v : seq C) : seq C :=
  match v with
  | [:: e1; e2; e3; h1; h2; h3] => [:: a * conj e1; - a * conj e2; a * conj e3; - a * conj h1; a * conj h2; - a * conj h3]
  | _ => [::]
  end.

Lemma sampled_turn a px py t rx ry rz arr e h : sampled px py t rx ry rz arr e h ->
  sampled_m px py t rx ry rz (fun iz iy ix => turned_value a (arr iz iy ix)) (turned a e) (turned (- a) h).
Proof. by move=> hs iz iy ix hy /=; rewrite (hs iz iy ix hy) /turned Ropp_involutive /turn /vx /vy /vz /= opprK. Qed.

Lemma em_turn a px py rx ry rz ts (cs : seq (conv3 n)) arr top bot : em_stack k0 kx ky px py rx ry rz ts cs arr top bot ->
  em_stack_m k0 kx ky' px py rx ry rz ts [seq conj3 c | c <- cs] [seq (fun iz iy ix => turned_value a (f iz iy ix)) | f <- arr]
    (turned_plane a top) (turned_plane a bot).
Proof.
elim: ts cs arr top => [|t ts IH] [|c cs] [|f arr] top //=; try by move=> ->.
move=> [e [h [mid [h1 h2 h3 h4 h5]]]]; exists (turned a e), (turned (- a) h), (turned_plane a mid).
by split; [exact: plane_turn|exact: plane_turn|exact: maxwell_turn|exact: sampled_turn|exact: IH].
Qed.
End Turn.

(** ** The classical mount with all six components *)
Section Classical.
Variables (n : nat) (k0 : R) (kx : nat -> C) (p : R).
Notation vm := (R -> 'cV[C]_n * 'cV[C]_n * 'cV[C]_n).

Definition plane6 (tm : bool) (uv : 'cV[C]_n * 'cV[C]_n) : 'cV[C]_(n + n) * 'cV[C]_(n + n) :=
  if tm then (col_mx ((- ci) *: uv.2) 0, col_mx 0 ((- ci) *: uv.1)) else (col_mx 0 uv.1, col_mx uv.2 0).

Lemma sampled6 px py t rx ry rz (a : nat -> nat -> vec3) e h : p = 0%coqR \/ p = 1%coqR -> sampled_1d (is_tm p) px t rx rz a e h ->
  sampled px py t rx ry rz (fun iz (iy : nat) ix => expand_1d p (a iz ix)) e h.
Proof.
move=> hp hs iz iy ix _ /=; have := hs iz ix (grid py ry (ry.-1 - iy)).
case: hp => ->; rewrite ?is_tm0 ?is_tm1 /=.
- move=> [-> h1 h2 h3]; rewrite /expand_1d; have -> : reqb 0 0 by rewrite /reqb; case: Req_EM_T.
  by rewrite h1 h2 h3.
- move=> [-> h1 h2 h3]; rewrite /expand_1d; have -> : reqb 1 0 = false by rewrite /reqb; case: Req_EM_T => // h'; lra.
  by rewrite h1 h2 h3.
Qed.

Lemma em_of_1d6 px py rx ry rz (ms : seq (R * vm)) cs ts top bot : p = 0%coqR \/ p = 1%coqR ->
  through ts top [seq ((fun z => (x.2 z).1.1), (fun z => (x.2 z).1.2)) | x <- ms] bot ->
  all_solve k0 (media_1d (is_tm p) kx cs ts) [seq ((fun z => (x.2 z).1.1), (fun z => (x.2 z).1.2)) | x <- ms] ->
  (forall k x c t, List.nth_error ms k = Some x -> List.nth_error cs k = Some c -> List.nth_error ts k = Some t ->
     x.1 = t /\ forall z, (x.2 z).2 = (- ci) *: (if is_tm p then c.2 *m diagf n kx *m (x.2 z).1.1 else diagf n kx *m (x.2 z).1.1)) ->
  em_stack k0 kx (fun _ => 0) px py rx ry rz ts cs
    [seq (fun iz (iy : nat) ix => expand_1d p (sample_1d p k0 kx (linspace px rx ix) (x.2 (z_point rz x.1 iz)))) | x <- ms]
    (plane6 (is_tm p) top) (plane6 (is_tm p) bot).
Proof.
move=> hp; elim: ms ts cs top => [|x ms IH] [|t ts] [|c cs] top //=; try by move=> ->.
move=> [h1 h2] [h3 h4] h5.
have [e1 e2] := h5 0%N x c t erefl erefl erefl.
have pl z : plane6 (is_tm p) (x.2 z).1 = (e_part (pol_modes (is_tm p) x.2 z), h_part (pol_modes (is_tm p) x.2 z)).
  by case: (is_tm p).
exists (e_of k0 kx (fun _ => 0) (pol_modes (is_tm p) x.2)), (h_of k0 kx (fun _ => 0) (pol_modes (is_tm p) x.2)), (plane6 (is_tm p) (x.2 t).1); split.
- by rewrite -h1 -{1}Ropp_0 (_ : (_, _) = (x.2 0%coqR).1); [rewrite pl; exact: face_of|case: (x.2 0%coqR) => -[]].
- rewrite pl; exact: face_of.
- apply: layer_maxwell; case: hp e2 h3 => ->; rewrite ?is_tm0 ?is_tm1 => e2 h3.
    exact (te_layer h3 e2).
  exact (tm_layer h3 e2).
- apply: sampled6 => //; rewrite e1; case: hp => ep; rewrite ep ?is_tm0 ?is_tm1.
    refine (@sample_layer_te _ _ _ x.2 _ _ _ _ _ is_tm0 _); by rewrite /reqb; case: Req_EM_T.
  refine (@sample_layer_tm _ _ _ x.2 _ _ _ _ _ _); by rewrite /reqb; case: Req_EM_T => // h; lra.
- apply: IH => //; last by move=> k; exact: (h5 k.+1).
  by move: h2; rewrite (_ : (_, _) = (x.2 t).1) //; case: (x.2 t) => -[].
Qed.
End Classical.

Section Solve.
Variable pinv : forall n, 'M[C]_n -> 'M[C]_n.
Variable eig : forall n, 'M[C]_n -> 'rV[C]_n * 'M[C]_n.
Hypothesis heig : eigen_oracle eig.

Lemma em_solve_1d6 s w (convs : seq (conv3 (ff_x s))) r T1 infos px py rx ry rz :
  solve_1d pinv eig false s w convs = Some (r, T1, infos) ->
  let tm := is_tm (pol s) in let kx := kx_vector s w in
  em_stack (k0_of w) kx (fun _ => 0) px py rx ry rz (thickness s) convs
    [seq (fun iz (iy : nat) ix => expand_1d (pol s) (f iz ix)) | f <- field_1d w kx T1 infos px (pol s) rx rz]
    (plane6 tm (above_1d tm (n_top s) (theta s) kx (co_R tm r))) (plane6 tm (below_1d tm (n_bot s) kx (co_T tm r))).
Proof.
move=> hs tm kx; have [[_ h2] _] := bvp_solve_1d heig hs; have h1 := flow_solve_1d hs.
set k0 := k0_of w.
pose g (lt : info_1d (ff_x s) * 'cV[C]_(ff_x s)) := (i1_d lt.1, modes_1d (pol s) k0 kx lt.1 lt.2).
have -> : [seq (fun iz (iy : nat) ix => expand_1d (pol s) (f iz ix)) | f <- field_1d w kx T1 infos px (pol s) rx rz] =
  [seq (fun iz (iy : nat) ix => expand_1d (pol s) (sample_1d (pol s) k0 kx (linspace px rx ix) (x.2 (z_point rz x.1 iz)))) | x <- map g (descend (next_1d k0) T1 (rev infos))].
  by rewrite -!map_comp.
have ep : field_profiles_1d (pol s) k0 kx T1 infos = [seq ((fun z => (x.2 z).1.1), (fun z => (x.2 z).1.2)) | x <- map g (descend (next_1d k0) T1 (rev infos))].
  by rewrite -map_comp.
have hpol : (pol s = 0 \/ pol s = 1)%coqR.
  move: hs; rewrite /solve_1d; case: (layers_of _ _) => // ls.
  by rewrite /rcwa_1d /transfer_1d_1; case: ifP => [/reqbP|_]; [left|case: ifP => [/reqbP|_] //; right].
apply: em_of_1d6 => //; rewrite -?ep //.
move: hs; rewrite /solve_1d; case el: (layers_of _ _) => [ls|] // hr.
have [F [G [T [hst h4]]]] := rcwa_1d_parts hr; have [i1 i2] := infos_1d hst.
move=> k x c t hx hc ht; have [lt hlt ->] := nth_map_some hx.
have hk := nth_fst hlt.
have [l hl] : exists l, List.nth_error ls k = Some l.
  by have := ht; rewrite -(layers_thick el) => hm; have [l hl _] := nth_map_some hm; exists l.
have [e1 e2] := layers_nth el hl; rewrite e1 in hc; rewrite e2 in ht; case: hc => <-; case: ht => <-.
have d1 := nth_both i1 hk hl; have d2 := nth_both i2 hk hl; split; first exact: d2.
have ec : (conv_of l).2 = i1_epzi lt.1 by rewrite d1.
rewrite ec /g /= => z; rewrite /tm; case: hpol => ->; rewrite ?is_tm0 ?is_tm1 /modes_1d.
- by have -> : reqb 0 0 by rewrite /reqb; case: Req_EM_T.
- by have -> : reqb 1 0 = false by rewrite /reqb; case: Req_EM_T => // h; lra.
Qed.
End Solve.

(** ** The reconstruction is linear in T1 *)
Section Linear.
Variables (n : nat) (k0 : R) (kx ky : nat -> C) (a b : C).
Notation vec := 'cV[C]_(n + n).

Definition mlin (m m' : modes n) : modes n :=
  let f (u v : 'cV[C]_n) := a *: u + b *: v in
  Modes (f (m_Sx m) (m_Sx m')) (f (m_Sy m) (m_Sy m')) (f (m_Sz m) (m_Sz m')) (f (m_Ux m) (m_Ux m')) (f (m_Uy m) (m_Uy m')) (f (m_Uz m) (m_Uz m')).
Definition vlin (v v' : seq C) : seq C := [seq a * p.1 + b * p.2 | p <- zip v v'].

Lemma mul_lin p q (A : 'M[C]_(p, q)) (u v : 'cV[C]_q) : A *m (a *: u + b *: v) = a *: (A *m u) + b *: (A *m v).
Proof. by rewrite mulmxDr !scalemxAr. Qed.
Lemma add_lin p (u v u' v' : 'cV[C]_p) : a *: u + b *: v + (a *: u' + b *: v') = a *: (u + u') + b *: (v + v').
Proof. by rewrite !scalerDr addrACA. Qed.
Lemma sub_lin p (u v u' v' : 'cV[C]_p) : a *: u + b *: v - (a *: u' + b *: v') = a *: (u - u') + b *: (v - v').
Proof. by rewrite !scalerBr opprD addrACA. Qed.
Lemma scale_lin p c (u v : 'cV[C]_p) : c *: (a *: u + b *: v) = a *: (c *: u) + b *: (c *: v).
Proof. by rewrite scalerDr !scalerA ![c * _]mulrC. Qed.
Lemma profile_lin p d (q : 'rV[C]_p) c1 c2 c1' c2' z s :
  profile k0 d q (a *: c1 + b *: c1') (a *: c2 + b *: c2') z s = a *: profile k0 d q c1 c2 z s + b *: profile k0 d q c1' c2' z s.
Proof. by rewrite /profile !mul_lin scale_lin add_lin. Qed.
Lemma usub_lin (u v : vec) : usubmx (a *: u + b *: v) = a *: usubmx u + b *: usubmx v.
Proof. by rewrite linearD !linearZ. Qed.
Lemma dsub_lin (u v : vec) : dsubmx (a *: u + b *: v) = a *: dsubmx u + b *: dsubmx v.
Proof. by rewrite linearD !linearZ. Qed.

Lemma modes_2d_lin (l : info_sp 'M[C]_(n + n) n) (t t' : vec) z :
  modes_2d k0 kx ky l (a *: t + b *: t') z = mlin (modes_2d k0 kx ky l t z) (modes_2d k0 kx ky l t' z).
Proof. by rewrite /modes_2d /complete /mlin /back_sp /= !(mul_lin, usub_lin, dsub_lin, profile_lin, add_lin, sub_lin, scale_lin). Qed.
Lemma modes_conical_lin (l : info_sp 'M[C]_(n, n + n) n) (t t' : vec) z :
  modes_conical k0 kx ky l (a *: t + b *: t') z = mlin (modes_conical k0 kx ky l t z) (modes_conical k0 kx ky l t' z).
Proof. by rewrite /modes_conical /complete /mlin /back_sp /= !(mul_lin, usub_lin, dsub_lin, profile_lin, add_lin, sub_lin, scale_lin). Qed.

Lemma synth_lin ph (u v : 'cV[C]_n) : synth ph (a *: u + b *: v) = a * synth ph u + b * synth ph v.
Proof. by rewrite /synth !mulr_sumr -big_split; apply: eq_bigr => j _; rewrite !mxE /= mulrDr !mulrA ![cexp _ * _]mulrC. Qed.
Lemma sample_lin x y (m m' : modes n) : sample_sp k0 kx ky x y (mlin m m') = vlin (sample_sp k0 kx ky x y m) (sample_sp k0 kx ky x y m').
Proof. by rewrite /sample_sp /vlin /= !synth_lin; congr [:: _; _; _; _; _; _]; rewrite mulrDr !mulrA ![ci * _]mulrC. Qed.

Lemma descend_lin (L : Type) (next : L -> vec -> vec) (A : Type) (F : L * vec -> A) (lin : A -> A -> A) :
  (forall l t t', next l (a *: t + b *: t') = a *: next l t + b *: next l t') ->
  (forall l t t', F (l, a *: t + b *: t') = lin (F (l, t)) (F (l, t'))) ->
  forall ls t t', [seq F x | x <- descend next (a *: t + b *: t') ls] =
    [seq lin p.1 p.2 | p <- zip [seq F x | x <- descend next t ls] [seq F x | x <- descend next t' ls]].
Proof. by move=> h1 h2; elim=> [|l ls IH] t t' //=; rewrite h2 h1 IH. Qed.
End Linear.

Lemma field_2d_lin a b w n kx ky (t t' : 'cV[C]_(n + n)) infos px py rx ry rz :
  field_2d w kx ky (a *: t + b *: t') infos px py rx ry rz =
  [seq (fun iz iy ix => vlin a b (p.1 iz iy ix) (p.2 iz iy ix))
  | p <- zip (field_2d w kx ky t infos px py rx ry rz) (field_2d w kx ky t' infos px py rx ry rz)].
Proof.
rewrite /field_2d (@descend_lin n a b _ _ _ _ (fun f g iz iy ix => vlin a b (f iz iy ix) (g iz iy ix))) //.
- by move=> l u v; rewrite /next_2d mul_lin.
- move=> l u v /=; do 3 (apply: functional_extensionality => ?); by rewrite modes_2d_lin sample_lin.
Qed.
Lemma field_conical_lin a b w n kx ky (t t' : 'cV[C]_(n + n)) infos px py rx ry rz :
  field_conical w kx ky (a *: t + b *: t') infos px py rx ry rz =
  [seq (fun iz iy ix => vlin a b (p.1 iz iy ix) (p.2 iz iy ix))
  | p <- zip (field_conical w kx ky t infos px py rx ry rz) (field_conical w kx ky t' infos px py rx ry rz)].
Proof.
rewrite /field_conical (@descend_lin n a b _ _ _ _ (fun f g iz iy ix => vlin a b (f iz iy ix) (g iz iy ix))) //.
- by move=> l u v; rewrite /next_conical mul_lin.
- move=> l u v /=; do 3 (apply: functional_extensionality => ?); by rewrite modes_conical_lin sample_lin.
Qed.

(** ** Boundary values *)
Section Planes.
Variables (n : nat) (kx ky dc ds : nat -> C) (a : C) (nn : R).
Hypotheses (kxr : forall i, is_real (kx i)) (kyr : forall i, is_real (ky i)).
Hypothesis hdir : directions n kx ky dc ds.
Hypothesis hn : nn <> 0%coqR.
Let kz i := kz_m (RtoC nn) (kx i) (- ky i).

Lemma kz_conj i : conj (kz_of (RtoC nn) (kx i) (ky i)) = kz i.
Proof. by rewrite /kz /kz_m /kz_of conjK sqrrN. Qed.
Lemma conj_is_real z : is_real z -> conj z = z.
Proof. by move=> [x ->]; rewrite conjR. Qed.
Lemma dir_conj (i : 'I_n) : conj (dc i) = dc i /\ conj (ds i) = ds i.
Proof. by have [_ _ h1 h2 _] := hdir i; rewrite !conj_is_real. Qed.

Lemma upper_turn th ps ps' (Rs Rp : 'cV[C]_n) (As Ap : 'I_n -> C) :
  conj (ccos th) = ccos th -> csin ps' = - a * conj (csin ps) -> ccos ps' = a * conj (ccos ps) ->
  (forall i, As i = - a * conj (Rs i ord0)) -> (forall i, Ap i = a * (ci / RtoC nn) * conj (Rp i ord0)) ->
  turned_plane a (above_sp (RtoC nn) th ps kx ky dc ds Rs Rp) =
  upper_m (RtoC nn) th ps' (fun i : 'I_n => kz i) (fun i : 'I_n => dc i) (fun i : 'I_n => - ds i) As Ap.
Proof.
move=> eth es ec eA eB.
have hn' : RtoC nn != 0 by apply/eqP => -[h]; apply: hn.
have dE (i : 'I_n) : conj (if i == (n %/ 2)%N :> nat then 1 else 0 : C) = (if i == (n %/ 2)%N :> nat then 1 else 0).
  by case: ifP; rewrite ?conj1 ?conj0.
have nV : conj (RtoC nn)^-1 = (RtoC nn)^-1 by rewrite conjV conjR.
rewrite /turned_plane /above_sp /upper_m /e_xy /h_xy /xy_of /h_xy_of /= !col_mxKu !col_mxKd.
have pE y : RtoC nn * (a * (ci / RtoC nn) * y) = a * ci * y.
  rewrite [LHS]mulrC -!mulrA; congr (_ * (_ * _)); by rewrite mulrCA mulVf ?mulr1 // [y / _ * _]mulrAC.
congr (col_mx _ _, col_mx _ _); apply/matrixP => i j; rewrite !mxE; have [d1 d2] := dir_conj i;
  rewrite eA eB es ec ?pE ?expr2 ?invfM !(conjD, conjB, conjN, conjM) ?conjI ?conjR ?nV dE eth d1 d2 kz_conj;
  set d := (if _ then _ else _); move: d (kz i) (dc i) (ds i) (conj (csin ps)) (conj (ccos ps)) (conj (Rs _ _)) (conj (Rp _ _)) => d k u v s c x y.
- cring.
- cring.
- transitivity (ci * ci * (a * u * (RtoC nn * ccos th * s * d - k * x) - a * v * RtoC nn * c * d) + a * ci * v * y); first cring.
  rewrite ci2; cring.
- transitivity (ci * ci * (- a * v * (RtoC nn * ccos th * s * d - k * x) - a * u * RtoC nn * c * d) + a * ci * u * y); first cring.
  rewrite ci2; cring.
Qed.

Lemma lower_turn (Ts Tp : 'cV[C]_n) (Bs Bp : 'I_n -> C) :
  (forall i, Bs i = - a * conj (Ts i ord0)) -> (forall i, Bp i = a * (ci / RtoC nn) * conj (Tp i ord0)) ->
  turned_plane a (below_sp (RtoC nn) kx ky dc ds Ts Tp) =
  lower_m (RtoC nn) (fun i : 'I_n => kz i) (fun i : 'I_n => dc i) (fun i : 'I_n => - ds i) Bs Bp.
Proof.
move=> eA eB.
have hn' : RtoC nn != 0 by apply/eqP => -[h]; apply: hn.
have nV : conj (RtoC nn)^-1 = (RtoC nn)^-1 by rewrite conjV conjR.
have pE y : RtoC nn * (a * (ci / RtoC nn) * y) = a * ci * y.
  rewrite [LHS]mulrC -!mulrA; congr (_ * (_ * _)); by rewrite mulrCA mulVf ?mulr1 // [y / _ * _]mulrAC.
rewrite /turned_plane /below_sp /lower_m /e_xy /h_xy /xy_of /h_xy_of /= !col_mxKu !col_mxKd.
congr (col_mx _ _, col_mx _ _); apply/matrixP => i j; rewrite !mxE; have [d1 d2] := dir_conj i;
  rewrite eA eB ?pE ?expr2 ?invfM !(conjD, conjB, conjN, conjM) ?conjI ?conjR ?nV d1 d2 kz_conj;
  move: (kz i) (dc i) (ds i) (conj (Ts _ _)) (conj (Tp _ _)) => k u v x y.
- cring.
- cring.
- transitivity (ci * ci * (a * u * k * x) + a * ci * v * y); first cring.
  rewrite ci2; cring.
- transitivity (ci * ci * (- a * v * k * x) + a * ci * u * y); first cring.
  rewrite ci2; cring.
Qed.
End Planes.

(** ** Arrays *)
Lemma reticolo_turn n k0 kx ky x y (m : modes n) : reticolo (sample_sp k0 kx ky x y m) = turned_value (- 1) (sample_sp k0 kx ky x y m).
Proof. by rewrite /reticolo /= opprK; congr [:: _; _; _; _; _; _]; rewrite mulrC. Qed.
Lemma reticolo_opp n k0 kx ky x y (m : modes n) :
  reticolo (vlin (- 1) 0 (sample_sp k0 kx ky x y m) (sample_sp k0 kx ky x y m)) = turned_value 1 (sample_sp k0 kx ky x y m).
Proof. by rewrite /reticolo /vlin /= !mul0r !addr0 !mulN1r !conjN; congr [:: _; _; _; _; _; _]; rewrite ?mulrN ?mulr1 ?mulN1r ?mul1r ?opprK. Qed.
Lemma opp_lin n (t : 'cV[C]_(n + n)) : - t = (- 1) *: t + 0 *: t.
Proof. by rewrite scaleN1r scale0r addr0. Qed.

Definition Tv (a : C) (f : nat -> nat -> nat -> seq C) := fun iz iy ix => turned_value a (f iz iy ix).
Lemma t_field_2d_turn w n kx ky (t : 'cV[C]_(n + n)) infos px py rx ry rz :
  t_field_2d w kx ky t infos px py rx ry rz = map (Tv (- 1)) (field_2d w kx ky t infos px py rx ry rz) /\
  t_field_2d w kx ky (- t) infos px py rx ry rz = map (Tv 1) (field_2d w kx ky t infos px py rx ry rz).
Proof.
rewrite /t_field_2d (opp_lin t) field_2d_lin /field_2d; elim: (descend _ _ _) => [|lt ls [IH1 IH2]] //=.
by split; congr cons => //; do 3 (apply: functional_extensionality => ?); rewrite /Tv ?reticolo_turn ?reticolo_opp.
Qed.
Lemma t_field_conical_turn w n kx ky (t : 'cV[C]_(n + n)) infos px py rx ry rz :
  t_field_conical w kx ky t infos px py rx ry rz = map (Tv (- 1)) (field_conical w kx ky t infos px py rx ry rz) /\
  t_field_conical w kx ky (- t) infos px py rx ry rz = map (Tv 1) (field_conical w kx ky t infos px py rx ry rz).
Proof.
rewrite /t_field_conical (opp_lin t) field_conical_lin /field_conical; elim: (descend _ _ _) => [|lt ls [IH1 IH2]] //=.
by split; congr cons => //; do 3 (apply: functional_extensionality => ?); rewrite /Tv ?reticolo_turn ?reticolo_opp.
Qed.

Lemma mirrored_map a f : List.Forall (fun g => forall iz iy ix, size (g iz iy ix : seq C) = 6%N) f -> mirrored_arrays a (map (Tv a) f) f.
Proof.
elim=> [|g {}f hg _ IH] /=; constructor => // iz iy ix; move: (hg iz iy ix); rewrite /Tv.
by case: (g iz iy ix) => [|e1 [|e2 [|e3 [|h1 [|h2 [|h3 []]]]]]] // _; exists e1, e2, e3, h1, h2, h3.
Qed.
Lemma six_2d w n kx ky (t : 'cV[C]_(n + n)) infos px py rx ry rz :
  List.Forall (fun g => forall iz iy ix, size (g iz iy ix : seq C) = 6%N) (field_2d w kx ky t infos px py rx ry rz).
Proof. by rewrite /field_2d; elim: (descend _ _ _) => [|lt ls IH] /=; constructor. Qed.
Lemma six_conical w n kx ky (t : 'cV[C]_(n + n)) infos px py rx ry rz :
  List.Forall (fun g => forall iz iy ix, size (g iz iy ix : seq C) = 6%N) (field_conical w kx ky t infos px py rx ry rz).
Proof. by rewrite /field_conical; elim: (descend _ _ _) => [|lt ls IH] /=; constructor. Qed.

(** ** The three incidences of the conical and 2D solvers *)
Lemma side_sq a b x : side a b * (side a b * x) = x.
Proof. by have [->| ->] := side_pm a b; rewrite ?mul1r ?mulN1r ?opprK. Qed.

Lemma maxwell3 s w (p nt nb : R) (convs : seq (conv3 (ff_y s * ff_x s))) r r' F F' : physical s -> n_top s = RtoC nt -> n_bot s = RtoC nb ->
  psi s = RtoC p -> nb <> 0%coqR ->
  em3 (s := with_psi s (RtoC (- p))) w convs r F ->
  (forall t px py rx ry rz, F' t px py rx ry rz = map (Tv (- 1)) (F t px py rx ry rz)) ->
  (forall t px py rx ry rz, F' (- t) px py rx ry rz = map (Tv 1) (F t px py rx ry rz)) ->
  sp_agree (fun i => side (kx_vector s w (i %% ff_x s)%N) (kx_vector s w (fto_x s))) nt nb r' r ->
  torch_maxwell w convs r' F'.
Proof.
move=> ph ht hb hps hnb hem f1 f2 [_ [c1 c2 c3] [t1 t2 t3]] n kx ky sg dc ds hd px py rx ry rz em out inc neg.
have hnt : nt <> 0%coqR by case: ph => -[x hx]; rewrite ht => -[->] *; lra.
have [h1 h2] := tiled_real w ph.
have kxr i : is_real (kx i) by exact (h1 i).
have kyr i : is_real (ky i) by exact (h2 i).
have cth : conj (ccos (theta s)) = ccos (theta s).
  by case: ph => _ [th _ eth] _ _ _; rewrite eth ccos_real conjR.
have [e1 e2 e3] := hem dc ds hd px py rx ry rz.
have o1 (x : C) : 1 * x = x by rewrite mul1r.
rewrite /em_field -[n_top (with_psi _ _)]/(n_top s) -[n_bot (with_psi _ _)]/(n_bot s) ht hb in e1 e2 e3.
have k1 := em_turn kxr kyr 1 e1; have k2 := em_turn kxr kyr (- 1) e2; have k3 := em_turn kxr kyr 1 e3.
have inv (a x y : C) (i : 'I_n) : x = sg i * (a * conj y) -> sg i * x = a * conj y by move=> ->; exact (side_sq _ _ _).
rewrite /em /em_field_m t1 t2 t3 !f2 f1 ht hb hps; split; rewrite !scale1r.
- have s1 : csin (RtoC p) = - 1 * conj (csin (RtoC (- p))) by rewrite !csin_real sin_neg conjR mulN1r RtoC_opp CoppE; apply/esym; exact (opprK (RtoC (sin p))).
  have s2 : ccos (RtoC p) = 1 * conj (ccos (RtoC (- p))) by rewrite !ccos_real cos_neg conjR mul1r.
  have <- := @upper_turn n kx ky dc ds 1 nt hd hnt (theta s) (RtoC (- p)) (RtoC p) (R_s (res r)) (R_p (res r)) (out (R_s (res r'))) (out (R_p (res r'))) cth s1 s2.
  + have <- := @lower_turn n kx ky dc ds 1 nb hd hnb (T_s (res r)) (T_p (res r)) (out (T_s (res r'))) (out (T_p (res r'))).
    * exact k1.
    * by move=> i; have [_ _ q _] := c1 i; exact (inv _ _ _ _ q).
    * by move=> i; have [_ _ _ q] := c1 i; rewrite mul1r; exact (inv _ _ _ _ q).
  + by move=> i; have [q _ _ _] := c1 i; exact (inv _ _ _ _ q).
  + by move=> i; have [_ q _ _] := c1 i; rewrite mul1r; exact (inv _ _ _ _ q).
- have s1 : csin (RtoC (PI / 2)) = - - 1 * conj (csin (RtoC (PI / 2))) by rewrite csin_real sin_PI2 conjR opprK mul1r.
  have s2 : ccos (RtoC (PI / 2)) = - 1 * conj (ccos (RtoC (PI / 2))) by rewrite ccos_real cos_PI2 conjR mulr0.
  have <- := @upper_turn n kx ky dc ds (- 1) nt hd hnt (theta s) (RtoC (PI / 2)) (RtoC (PI / 2)) (R_s (res_te_inc r)) (R_p (res_te_inc r))
    (out (R_s (res_te_inc r'))) (neg (out (R_p (res_te_inc r')))) cth s1 s2.
  + have <- := @lower_turn n kx ky dc ds (- 1) nb hd hnb (T_s (res_te_inc r)) (T_p (res_te_inc r)) (inc (T_s (res_te_inc r'))) (neg (inc (T_p (res_te_inc r')))).
    * exact k2.
    * by move=> i; have [_ _ q _] := c2 i; rewrite /inc q mul1r opprK mul1r.
    * by move=> i; have [_ _ _ q] := c2 i; rewrite /neg /inc q !conjM conjN conjV conjI conjR opprK mulN1r mulNr.
  + by move=> i; have [q _ _ _] := c2 i; rewrite opprK; exact (inv _ _ _ _ q).
  + by move=> i; have [_ q _ _] := c2 i; rewrite mulN1r mulNr /neg; congr (- _); exact (inv _ _ _ _ q).
- have s1 : csin (RtoC 0) = - 1 * conj (csin (RtoC 0)) by rewrite csin_real sin_0 conjR mulr0.
  have s2 : ccos (RtoC 0) = 1 * conj (ccos (RtoC 0)) by rewrite ccos_real cos_0 conjR mul1r.
  have <- := @upper_turn n kx ky dc ds 1 nt hd hnt (theta s) (RtoC 0) (RtoC 0) (R_s (res_tm_inc r)) (R_p (res_tm_inc r))
    (out (R_s (res_tm_inc r'))) (neg (out (R_p (res_tm_inc r')))) cth s1 s2.
  + have <- := @lower_turn n kx ky dc ds 1 nb hd hnb (T_s (res_tm_inc r)) (T_p (res_tm_inc r)) (inc (T_s (res_tm_inc r'))) (neg (inc (T_p (res_tm_inc r')))).
    * exact k3.
    * by move=> i; have [_ _ q _] := c3 i; rewrite /inc q conjM conjN conj1.
    * by move=> i; have [_ _ _ q] := c3 i; rewrite /neg /inc q !conjM conjV conjI conjR mul1r !mulNr opprK.
  + by move=> i; have [q _ _ _] := c3 i; exact (inv _ _ _ _ q).
  + by move=> i; have [_ q _ _] := c3 i; rewrite mul1r /neg; have := inv _ _ _ _ q; rewrite /out => ->; rewrite !mulNr opprK.
Qed.

Section Solvers.
Variable pinv : forall n, 'M[C]_n -> 'M[C]_n.
Variable eig : forall n, 'M[C]_n -> 'rV[C]_n * 'M[C]_n.
Hypothesis heig : eigen_oracle eig.

Lemma t_tiled s w : physical s -> t_kx_tiled s w = kx_tiled s w /\ t_ky_tiled s w = ky_tiled s w.
Proof. by move=> ph; have [e1 e2 _ _] := phys_real w ph; rewrite /t_kx_tiled /t_ky_tiled e1 e2. Qed.
Lemma with_psi_phys s p : physical s -> physical (with_psi s p).
Proof. by []. Qed.

Lemma torch_fields_2d s w (p nt nb : R) (convs : seq (conv3 (ff_y s * ff_x s))) r infos :
  physical s -> n_top s = RtoC nt -> n_bot s = RtoC nb -> psi s = RtoC p -> nb <> 0%coqR ->
  solve_2d pinv eig false (with_psi s (RtoC (- p))) w convs = Some (r, infos) -> no_flat_mode infos ->
  exists2 r', t_solve_2d pinv eig false s w convs = Some (r', infos) &
    torch_maxwell w convs r' (fun T1 => t_field_2d w (t_kx_tiled s w) (t_ky_tiled s w) T1 infos).
Proof.
move=> ph ht hb hps hnb hs hf.
have hpi : false = true -> pinv_oracle pinv by [].
have [r' e' ha] := torch_2d hpi ph ht hb hps hs hf; exists r' => //.
have [-> ->] := t_tiled w ph.
have hem := em_solve_2d heig (with_psi_phys (RtoC (- p)) ph) hs.
refine (maxwell3 ph ht hb hps hnb hem _ _ ha) => t px py rx ry rz.
- exact (proj1 (t_field_2d_turn _ _ _ _ _ _ _ _ _ _)).
- exact (proj2 (t_field_2d_turn _ _ _ _ _ _ _ _ _ _)).
Qed.

Lemma torch_fields_conical s w (p nt nb : R) (convs : seq (conv3 (ff_y s * ff_x s))) r infos :
  physical s -> n_top s = RtoC nt -> n_bot s = RtoC nb -> psi s = RtoC p -> nb <> 0%coqR ->
  (forall c, List.In c (used s convs) -> line_convs c) ->
  solve_1d_conical pinv eig false (with_psi s (RtoC (- p))) w convs = Some (r, infos) ->
  exists2 r', t_solve_1d_conical pinv eig false s w convs = Some (r', infos) &
    torch_maxwell w convs r' (fun T1 => t_field_conical w (t_kx_tiled s w) (t_ky_tiled s w) T1 infos).
Proof.
move=> ph ht hb hps hnb hl hs.
have hpi : false = true -> pinv_oracle pinv by [].
have [r' e' ha] := torch_conical ph ht hb hps hs; exists r' => //.
have [-> ->] := t_tiled w ph.
have hem := em_solve_conical heig (with_psi_phys (RtoC (- p)) ph) hl hs.
refine (maxwell3 ph ht hb hps hnb hem _ _ ha) => t px py rx ry rz.
- exact (proj1 (t_field_conical_turn _ _ _ _ _ _ _ _ _ _)).
- exact (proj2 (t_field_conical_turn _ _ _ _ _ _ _ _ _ _)).
Qed.

(** NumPy's arrays and PyTorch's. *)
Lemma torch_mirror_2d s w (p nt nb : R) (convs : seq (conv3 (ff_y s * ff_x s))) r infos :
  physical s -> n_top s = RtoC nt -> n_bot s = RtoC nb -> psi s = RtoC p ->
  solve_2d pinv eig false (with_psi s (RtoC (- p))) w convs = Some (r, infos) -> no_flat_mode infos ->
  exists2 r', t_solve_2d pinv eig false s w convs = Some (r', infos) &
    forall px py rx ry rz,
    let f' T1 := t_field_2d w (t_kx_tiled s w) (t_ky_tiled s w) T1 infos px py rx ry rz in
    let f T1 := field_2d w (kx_tiled s w) (ky_tiled s w) T1 infos px py rx ry rz in
    [/\ mirrored_arrays 1 (f' (T1_res r')) (f (T1_res r)), mirrored_arrays (- 1) (f' (T1_te r')) (f (T1_te r))
      & mirrored_arrays 1 (f' (T1_tm r')) (f (T1_tm r))].
Proof.
move=> ph ht hb hps hs hf.
have hpi : false = true -> pinv_oracle pinv by [].
have [r' e' [_ _ [t1 t2 t3]]] := torch_2d hpi ph ht hb hps hs hf; exists r' => // px py rx ry rz /=.
have [-> ->] := t_tiled w ph; rewrite t1 t2 t3.
split.
- rewrite (proj2 (t_field_2d_turn _ _ _ _ _ _ _ _ _ _)); exact (mirrored_map _ (six_2d _ _ _ _ _ _ _ _ _ _)).
- rewrite (proj1 (t_field_2d_turn _ _ _ _ _ _ _ _ _ _)); exact (mirrored_map _ (six_2d _ _ _ _ _ _ _ _ _ _)).
- rewrite (proj2 (t_field_2d_turn _ _ _ _ _ _ _ _ _ _)); exact (mirrored_map _ (six_2d _ _ _ _ _ _ _ _ _ _)).
Qed.
Lemma torch_mirror_conical s w (p nt nb : R) (convs : seq (conv3 (ff_y s * ff_x s))) r infos :
  physical s -> n_top s = RtoC nt -> n_bot s = RtoC nb -> psi s = RtoC p ->
  solve_1d_conical pinv eig false (with_psi s (RtoC (- p))) w convs = Some (r, infos) ->
  exists2 r', t_solve_1d_conical pinv eig false s w convs = Some (r', infos) &
    forall px py rx ry rz,
    let f' T1 := t_field_conical w (t_kx_tiled s w) (t_ky_tiled s w) T1 infos px py rx ry rz in
    let f T1 := field_conical w (kx_tiled s w) (ky_tiled s w) T1 infos px py rx ry rz in
    [/\ mirrored_arrays 1 (f' (T1_res r')) (f (T1_res r)), mirrored_arrays (- 1) (f' (T1_te r')) (f (T1_te r))
      & mirrored_arrays 1 (f' (T1_tm r')) (f (T1_tm r))].
Proof.
move=> ph ht hb hps hs.
have [r' e' [_ _ [t1 t2 t3]]] := torch_conical ph ht hb hps hs; exists r' => // px py rx ry rz /=.
have [-> ->] := t_tiled w ph; rewrite t1 t2 t3.
split.
- rewrite (proj2 (t_field_conical_turn _ _ _ _ _ _ _ _ _ _)); exact (mirrored_map _ (six_conical _ _ _ _ _ _ _ _ _ _)).
- rewrite (proj1 (t_field_conical_turn _ _ _ _ _ _ _ _ _ _)); exact (mirrored_map _ (six_conical _ _ _ _ _ _ _ _ _ _)).
- rewrite (proj2 (t_field_conical_turn _ _ _ _ _ _ _ _ _ _)); exact (mirrored_map _ (six_conical _ _ _ _ _ _ _ _ _ _)).
Qed.
End Solvers.

(** ** The classical mount *)
Section Solve1.
Variable pinv : forall n, 'M[C]_n -> 'M[C]_n.
Variable eig : forall n, 'M[C]_n -> 'rV[C]_n * 'M[C]_n.
Hypothesis heig : eigen_oracle eig.

Definition Ex p (f : nat -> nat -> C * C * C) := fun iz (iy : nat) ix => expand_1d p (f iz ix).
Lemma reqb00 : reqb 0 0 = true. Proof. by rewrite /reqb; case: Req_EM_T. Qed.
Lemma reqb11 : reqb 1 1 = true. Proof. by rewrite /reqb; case: Req_EM_T. Qed.
Lemma reqb10 : reqb 1 0 = false. Proof. by rewrite /reqb; case: Req_EM_T => // h; lra. Qed.
Lemma reqb01 : reqb 0 1 = false. Proof. by rewrite /reqb; case: Req_EM_T => // h; lra. Qed.

Lemma t_field_1d_turn w n kx (t : 'cV[C]_n) infos px p rx rz : p = 0%coqR \/ p = 1%coqR ->
  t_field_1d w kx t infos px p rx rz = map (Tv (if is_tm p then 1 else - 1)) (map (Ex p) (field_1d w kx t infos px p rx rz)).
Proof.
move=> hp; rewrite /t_field_1d -map_comp; apply: eq_map => f; do 3 (apply: functional_extensionality => ?).
rewrite /= /Tv /Ex; case: (f _ _) => [[a0 a1] a2]; case: hp => ->; rewrite ?is_tm0 ?is_tm1 /expand_1d ?reqb00 ?reqb01 ?reqb10 ?reqb11 /reticolo /=.
- by rewrite !opprK; congr [:: _; _; _; _; _; _]; rewrite mulrC.
- by congr [:: _; _; _; _; _; _]; rewrite ?mulrN ?mulr1 ?mulN1r ?mul1r ?opprK.
Qed.

Section Planes1.
Variables (n : nat) (kx : nat -> C) (nt nb : R) (th : C).
Hypotheses (hnt : nt <> 0%coqR) (hnb : nb <> 0%coqR) (cth : conj (ccos th) = ccos th).
Let nz (x : R) : x <> 0%coqR -> RtoC x != 0. Proof. by move=> h; apply/eqP => -[h']; apply: h. Qed.
Let nV (x : R) : conj (RtoC x)^-1 = (RtoC x)^-1. Proof. by rewrite conjV conjR. Qed.
Let dE (i : 'I_n) : conj (if i == (n %/ 2)%N :> nat then 1 else 0 : C) = (if i == (n %/ 2)%N :> nat then 1 else 0).
Proof. by case: ifP; rewrite ?conj1 ?conj0. Qed.
Let kzE nn i : conj (kz_of nn (kx i) 0) = kz_m nn (kx i) 0. Proof. by rewrite /kz_m /kz_of conjK. Qed.
Let one (i : 'I_n) : C := 1.
Let none (i : 'I_n) : C := 0.
Let Kz (nn : R) (i : 'I_n) := kz_m (RtoC nn) (kx i) 0.

Lemma upper_te (Rv : 'cV[C]_n) (Av : 'I_n -> C) : (forall i, Av i = conj (Rv i ord0)) ->
  turned_plane (- 1) (plane6 false (above_1d false (RtoC nt) th kx Rv)) = upper_m (RtoC nt) th (RtoC (PI / 2)) (Kz nt) one none Av none.
Proof.
move=> eA; rewrite /turned_plane /above_1d /upper_m /plane6 /weigh /= /xy_of /h_xy_of !col_mxKu !col_mxKd ccos_real cos_PI2 csin_real sin_PI2.
congr (col_mx _ _, col_mx _ _); apply/matrixP => i j; rewrite !mxE /one /none.
- rewrite conj0; cring.
- rewrite eA conjD dE; set d := (if _ then _ else _); move: d (conj _) => d x; cring.
- rewrite eA !(conjD, conjM, conjN) conjI conjR dE cth kzE -/(Kz nt i).
  set d := (if _ then _ else _); move: d (Kz nt i) (conj _) => d k x.
  transitivity (ci * ci * (- (RtoC nt * ccos th * d) + k * x)); first cring.
  rewrite ci2; cring.
- rewrite mulr0 conj0; cring.
Qed.
Lemma lower_te (Tv : 'cV[C]_n) (Bv : 'I_n -> C) : (forall i, Bv i = conj (Tv i ord0)) ->
  turned_plane (- 1) (plane6 false (below_1d false (RtoC nb) kx Tv)) = lower_m (RtoC nb) (Kz nb) one none Bv none.
Proof.
move=> eB; rewrite /turned_plane /below_1d /lower_m /plane6 /weigh /= /xy_of /h_xy_of !col_mxKu !col_mxKd.
congr (col_mx _ _, col_mx _ _); apply/matrixP => i j; rewrite !mxE /one /none.
- rewrite conj0; cring.
- rewrite eB; cring.
- rewrite eB !(conjD, conjM, conjN) conjI kzE -/(Kz nb i); move: (Kz nb i) (conj _) => k x.
  transitivity (ci * ci * (- (k * x))); first cring.
  rewrite ci2; cring.
- rewrite mulr0 conj0; cring.
Qed.
Lemma upper_tm (Rv : 'cV[C]_n) (Av : 'I_n -> C) : (forall i, Av i = conj (Rv i ord0)) ->
  let uv := upper_m (RtoC nt) th (RtoC 0) (Kz nt) one none none Av in
  turned_plane 1 (plane6 true (above_1d true (RtoC nt) th kx Rv)) = ((RtoC nt)^-1 *: uv.1, (RtoC nt)^-1 *: uv.2).
Proof.
move=> eA uv; rewrite /uv /turned_plane /above_1d /upper_m /plane6 /weigh /= /xy_of /h_xy_of !scale_col_mx !col_mxKu !col_mxKd ccos_real cos_0 csin_real sin_0.
have hn := nz hnt.
congr (col_mx _ _, col_mx _ _); apply/matrixP => i j; rewrite !mxE /one /none.
- rewrite eA expr2 invfM !(conjD, conjM, conjN) conjI conjR !nV dE cth kzE -/(Kz nt i).
  set d := (if _ then _ else _); move: d (Kz nt i) (conj _) => d k x.
  transitivity (ci * ci * ((RtoC nt / RtoC nt) * ccos th / RtoC nt * d - k / RtoC nt / RtoC nt * x)); first cring.
  rewrite ci2 divff //; cring.
- rewrite conj0; cring.
- rewrite mulr0 conj0; cring.
- rewrite eA !(conjD, conjM, conjN) conjI dE; set d := (if _ then _ else _); move: d (conj _) => d x.
  transitivity (- (ci * ci) * (d + x)); first cring.
  rewrite ci2; transitivity ((RtoC nt)^-1 * RtoC nt * (d + x)); last cring.
  rewrite mulVf //; cring.
Qed.
Lemma lower_tm (Tv : 'cV[C]_n) (Bv : 'I_n -> C) : (forall i, Bv i = RtoC nt / RtoC nb * conj (Tv i ord0)) ->
  let uv := lower_m (RtoC nb) (Kz nb) one none none Bv in
  turned_plane 1 (plane6 true (below_1d true (RtoC nb) kx Tv)) = ((RtoC nt)^-1 *: uv.1, (RtoC nt)^-1 *: uv.2).
Proof.
move=> eB uv; rewrite /uv /turned_plane /below_1d /lower_m /plane6 /weigh /= /xy_of /h_xy_of !scale_col_mx !col_mxKu !col_mxKd.
have hn := nz hnt; have hb := nz hnb.
congr (col_mx _ _, col_mx _ _); apply/matrixP => i j; rewrite !mxE /one /none.
- rewrite eB expr2 invfM !(conjD, conjM, conjN) conjI !nV kzE -/(Kz nb i); move: (Kz nb i) (conj _) => k x.
  transitivity (ci * ci * (k / RtoC nb / RtoC nb * x)); first cring.
  rewrite ci2; transitivity (- ((RtoC nt)^-1 * RtoC nt) * (k / RtoC nb / RtoC nb * x)); last cring.
  rewrite mulVf //; cring.
- rewrite conj0; cring.
- rewrite mulr0 conj0; cring.
- rewrite eB !(conjD, conjM, conjN) conjI; move: (conj _) => x.
  transitivity (- (ci * ci) * x); first cring.
  rewrite ci2; transitivity ((RtoC nt)^-1 * RtoC nt * ((RtoC nb)^-1 * RtoC nb) * x); last cring.
  rewrite !mulVf //; cring.
Qed.
End Planes1.

Lemma pol_of s w (convs : seq (conv3 (ff_x s))) r T1 infos : solve_1d pinv eig false s w convs = Some (r, T1, infos) -> (pol s = 0 \/ pol s = 1)%coqR.
Proof.
rewrite /solve_1d; case: (layers_of _ _) => // ls.
by rewrite /rcwa_1d /transfer_1d_1; case: ifP => [/reqbP|_]; [left|case: ifP => [/reqbP|_] //; right].
Qed.

Lemma torch_fields_1d s w (nb : R) (convs : seq (conv3 (ff_x s))) r T1 infos :
  physical s -> n_bot s = RtoC nb -> nb <> 0%coqR ->
  solve_1d pinv eig false s w convs = Some (r, T1, infos) ->
  exists2 r', t_solve_1d pinv eig false s w convs = Some (r', T1, infos) &
    torch_maxwell_1d w convs r' (fun px => t_field_1d w (t_kx_vector s w) T1 infos px (pol s)).
Proof.
move=> ph hb hnb hs.
have hbr : is_real (n_bot s) by exists nb.
have [r' e' [_ hc]] := torch_1d ph hbr hs; exists r' => // px py rx ry rz n kx out none em.
have [nt ht hnt] : exists2 nt, n_top s = RtoC nt & nt <> 0%coqR by case: ph => -[x hx ->] *; exists x => //; lra.
have cth : conj (ccos (theta s)) = ccos (theta s) by case: ph => _ [th _ eth] _ _ _; rewrite eth ccos_real conjR.
have [ek _ h1 _] := phys_real w ph; have kxr i : is_real (kx i) by exact (h1 i).
have hp := pol_of hs; rewrite t_field_1d_turn // ek -/kx.
have zr (i : nat) : is_real ((fun _ : nat => 0 : C) i) by exists 0%coqR.
have k6 := em_turn kxr zr (if is_tm (pol s) then 1 else - 1) (em_solve_1d6 heig px py rx ry rz hs).
have z0 : (fun i : nat => - (0 : C)) = (fun _ => 0) by apply: functional_extensionality => i; rewrite oppr0.
rewrite z0 in k6.
have inv (x y : C) (i : 'I_n) : x = side (kx i) (kx (fto_x s)) * (1 * conj y) -> side (kx i) (kx (fto_x s)) * x = conj y.
  by move=> ->; rewrite side_sq mul1r.
rewrite /em /em_field_m ht hb; move: k6; rewrite ht hb; case: (is_tm (pol s)) => k6.
- have <- := @upper_tm n kx nt (theta s) hnt cth (R_p r) (out (R_p r')).
  + have <- := @lower_tm n kx nt nb hnt hnb (T_p r) (fun i => RtoC nt / RtoC nb * out (T_p r') i).
    * exact k6.
    * by move=> i; have [_ _ _ q] := hc i; congr (_ * _); exact (inv _ _ _ q).
  + by move=> i; have [_ q _ _] := hc i; exact (inv _ _ _ q).
- have sc (uv : 'cV[C]_(n + n) * 'cV[C]_(n + n)) : (1 *: uv.1, 1 *: uv.2) = uv by case: uv => u v; rewrite !scale1r.
  rewrite !sc.
  have <- := @upper_te n kx nt (theta s) cth (R_s r) (out (R_s r')).
  + have <- := @lower_te n kx nb (T_s r) (out (T_s r')).
    * exact k6.
    * by move=> i; have [_ _ q _] := hc i; exact (inv _ _ _ q).
  + by move=> i; have [q _ _ _] := hc i; exact (inv _ _ _ q).
Qed.
End Solve1.

(** ** NumPy's arrays and PyTorch's, classical mount *)
Section Mirror1.
Variable pinv : forall n, 'M[C]_n -> 'M[C]_n.
Variable eig : forall n, 'M[C]_n -> 'rV[C]_n * 'M[C]_n.
Lemma torch_mirror_1d s w (convs : seq (conv3 (ff_x s))) r T1 infos px rx rz :
  physical s -> is_real (n_bot s) -> solve_1d pinv eig false s w convs = Some (r, T1, infos) ->
  exists2 r', t_solve_1d pinv eig false s w convs = Some (r', T1, infos) &
  mirrored_arrays (if is_tm (pol s) then 1 else - 1) (t_field_1d w (t_kx_vector s w) T1 infos px (pol s) rx rz)
    [seq (fun iz (iy : nat) ix => let '(a0, a1, a2) := f iz ix in if is_tm (pol s) then [:: a1; 0; a2; 0; a0; 0] else [:: 0; a0; 0; a1; 0; a2])
    | f <- field_1d w (kx_vector s w) T1 infos px (pol s) rx rz].
Proof.
move=> ph hb hs; have [r' e' _] := torch_1d ph hb hs; exists r' => //.
have hp := pol_of hs; have [ek _ _ _] := phys_real w ph.
rewrite t_field_1d_turn // ek (_ : map _ (field_1d _ _ _ _ _ _ _ _) = map (Ex (pol s)) (field_1d w (kx_vector s w) T1 infos px (pol s) rx rz)).
- by apply: mirrored_map; elim: (field_1d _ _ _ _ _ _ _ _) => [|f fs IH] /=; constructor => // iz iy ix; rewrite /Ex /expand_1d; case: (f _ _) => [[a0 a1] a2]; case: ifP.
- apply: eq_map => f; do 3 (apply: functional_extensionality => ?); rewrite /Ex /expand_1d; case: (f _ _) => [[a0 a1] a2].
  by case: hp => ->; rewrite ?is_tm0 ?is_tm1 ?reqb00 ?reqb10.
Qed.
End Mirror1.

(** ** Superposition of the fields *)
Section Super.
Variable pinv : forall n, 'M[C]_n -> 'M[C]_n.
Variable eig : forall n, 'M[C]_n -> 'rV[C]_n * 'M[C]_n.
Variable up : bool.

Lemma T1_4 n (F G T : 'M[C]_(n + n)) kt kb ps th nt nb r : transfer_sp_4 pinv up F G T kt kb ps th nt nb = Some r ->
  T1_res r = csin ps *: T1_te r + ccos ps *: T1_tm r.
Proof.
rewrite /transfer_sp_4; case: (meeinv _ _ _) => [M|] //= [<-] /=.
by rewrite [in LHS]final_B_lin mulmxDr -!scalemxAr linearD !linearZ.
Qed.
Lemma T1_2d s w convs r infos : solve_2d pinv eig up s w convs = Some (r, infos) ->
  T1_res r = csin (psi s) *: T1_te r + ccos (psi s) *: T1_tm r.
Proof.
rewrite /solve_2d; case: (layers_of _ _) => [ls|] //; rewrite /rcwa_2d.
case: (transfer_sp_1 _ _ _ _ _) => [[[[[[[kt kb] c] s'] F] G] T]|] //.
case: (stack_with _ _ _) => [[[[F' G'] T'] is']|] //.
case e4: (transfer_sp_4 _ _ _ _ _ _ _ _ _ _ _) => [r'|] // [<- _].
exact: T1_4 e4.
Qed.
Lemma T1_conical s w convs r infos : solve_1d_conical pinv eig up s w convs = Some (r, infos) ->
  T1_res r = csin (psi s) *: T1_te r + ccos (psi s) *: T1_tm r.
Proof.
rewrite /solve_1d_conical; case: ifP => // _; case: (layers_of _ _) => [ls|] //; rewrite /rcwa_conical.
case: (transfer_sp_1 _ _ _ _ _) => [[[[[[[kt kb] c] s'] F] G] T]|] //.
case: (stack_with _ _ _) => [[[[F' G'] T'] is']|] //.
case e4: (transfer_sp_4 _ _ _ _ _ _ _ _ _ _ _) => [r'|] // [<- _].
exact: T1_4 e4.
Qed.
Lemma T1_t4 n fx kx (F G T : 'M[C]_(n + n)) kt kb ps th nt nb : let r := t_transfer_sp_4 pinv up fx kx F G T kt kb ps th nt nb in
  T1_res r = csin ps *: T1_te r + ccos ps *: T1_tm r.
Proof. by rewrite /t_transfer_sp_4 /= [in LHS]t_final_B_lin mulmxDr -!scalemxAr linearD !linearZ. Qed.
Lemma T1_t2d s w convs r infos : t_solve_2d pinv eig up s w convs = Some (r, infos) ->
  T1_res r = csin (psi s) *: T1_te r + ccos (psi s) *: T1_tm r.
Proof.
rewrite /t_solve_2d; case: (layers_of _ _) => [ls|] //; rewrite /t_rcwa_2d.
case: (t_transfer_sp_1 _ _ _ _ _) => [[[[[[[kt kb] c] s'] F] G] T]|] //.
case: (stack_with _ _ _) => [[[[F' G'] T'] is']|] // [<- _]; exact: T1_t4.
Qed.
Lemma T1_tconical s w convs r infos : t_solve_1d_conical pinv eig up s w convs = Some (r, infos) ->
  T1_res r = csin (psi s) *: T1_te r + ccos (psi s) *: T1_tm r.
Proof.
rewrite /t_solve_1d_conical; case: ifP => // _; case: (layers_of _ _) => [ls|] //; rewrite /t_rcwa_conical.
case: (t_transfer_sp_1 _ _ _ _ _) => [[[[[[[kt kb] c] s'] F] G] T]|] //.
case: (stack_with _ _ _) => [[[[F' G'] T'] is']|] // [<- _]; exact: T1_t4.
Qed.

(** Arrays built from one list of layers. *)
Lemma combined_map (A : Type) a b (ls : seq A) (f f1 f2 : A -> nat -> nat -> nat -> seq C) :
  (forall x iz iy ix, size (f1 x iz iy ix) = size (f2 x iz iy ix) /\ f x iz iy ix = vlin a b (f1 x iz iy ix) (f2 x iz iy ix)) ->
  combined a b (map f ls) (map f1 ls) (map f2 ls).
Proof.
move=> h; rewrite /combined !size_map; do 2 split=> //.
move=> k g g1 g2 hg hg1 hg2 iz iy ix.
have [x hx eg] := nth_map_some hg; have [x1 h1 eg1] := nth_map_some hg1; have [x2 h2 eg2] := nth_map_some hg2; subst g g1 g2.
rewrite hx in h1 h2; case: h1 h2 => <- [<-]; have [hs e] := h x iz iy ix; rewrite e {e}.
have sz : size (vlin a b (f1 x iz iy ix) (f2 x iz iy ix)) = size (f1 x iz iy ix) by rewrite size_map size_zip hs minnn.
rewrite sz hs; split=> //; split=> // c hc; rewrite (nth_map (0, 0)) ?size_zip ?hs ?minnn // nth_zip //.
Qed.

Lemma descend_pairs (L : Type) n (next : L -> 'cV[C]_(n + n) -> 'cV[C]_(n + n)) a b :
  (forall l t t', next l (a *: t + b *: t') = a *: next l t + b *: next l t') ->
  forall ls t1 t2, exists q : seq (L * ('cV[C]_(n + n) * 'cV[C]_(n + n))),
  [/\ descend next (a *: t1 + b *: t2) ls = [seq (x.1, a *: x.2.1 + b *: x.2.2) | x <- q],
      descend next t1 ls = [seq (x.1, x.2.1) | x <- q] & descend next t2 ls = [seq (x.1, x.2.2) | x <- q]].
Proof.
move=> h; elim=> [|l ls IH] t1 t2; first by exists [::].
have [q [e1 e2 e3]] := IH (next l t1) (next l t2); exists ((l, (t1, t2)) :: q); rewrite /= (h l t1 t2) e1 e2 e3; split; reflexivity.
Qed.

Lemma combined_2d a b w n kx ky (t t' : 'cV[C]_(n + n)) infos px py rx ry rz :
  let f T1 := field_2d w kx ky T1 infos px py rx ry rz in combined a b (f (a *: t + b *: t')) (f t) (f t').
Proof.
rewrite /field_2d; have [|q [-> -> ->]] := @descend_pairs _ n (next_2d (k0_of w)) a b _ (rev infos) t t'.
  by move=> l u v; rewrite /next_2d mul_lin.
rewrite -!map_comp; apply: combined_map => x iz iy ix /=; split=> //.
by rewrite modes_2d_lin sample_lin.
Qed.
Lemma combined_conical a b w n kx ky (t t' : 'cV[C]_(n + n)) infos px py rx ry rz :
  let f T1 := field_conical w kx ky T1 infos px py rx ry rz in combined a b (f (a *: t + b *: t')) (f t) (f t').
Proof.
rewrite /field_conical; have [|q [-> -> ->]] := @descend_pairs _ n (next_conical (k0_of w)) a b _ (rev infos) t t'.
  by move=> l u v; rewrite /next_conical mul_lin.
rewrite -!map_comp; apply: combined_map => x iz iy ix /=; split=> //.
by rewrite modes_conical_lin sample_lin.
Qed.

Lemma reticolo_lin (a b : R) n k0 kx ky x y (m m' : modes n) :
  reticolo (vlin (RtoC a) (RtoC b) (sample_sp k0 kx ky x y m) (sample_sp k0 kx ky x y m')) =
  vlin (RtoC a) (RtoC b) (reticolo (sample_sp k0 kx ky x y m)) (reticolo (sample_sp k0 kx ky x y m')).
Proof. by rewrite /reticolo /vlin /=; congr [:: _; _; _; _; _; _]; rewrite conjD [conj (RtoC a * _)]conjM [conj (RtoC b * _)]conjM !conjR mulrDl !mulrA. Qed.
Lemma t_combined_2d (a b : R) w n kx ky (t t' : 'cV[C]_(n + n)) infos px py rx ry rz :
  let f T1 := t_field_2d w kx ky T1 infos px py rx ry rz in combined (RtoC a) (RtoC b) (f (RtoC a *: t + RtoC b *: t')) (f t) (f t').
Proof.
rewrite /t_field_2d /field_2d; have [|q [-> -> ->]] := @descend_pairs _ n (next_2d (k0_of w)) (RtoC a) (RtoC b) _ (rev infos) t t'.
  by move=> l u v; rewrite /next_2d mul_lin.
rewrite -!map_comp; apply: combined_map => x iz iy ix /=; split=> //.
by rewrite modes_2d_lin sample_lin reticolo_lin.
Qed.
Lemma t_combined_conical (a b : R) w n kx ky (t t' : 'cV[C]_(n + n)) infos px py rx ry rz :
  let f T1 := t_field_conical w kx ky T1 infos px py rx ry rz in combined (RtoC a) (RtoC b) (f (RtoC a *: t + RtoC b *: t')) (f t) (f t').
Proof.
rewrite /t_field_conical /field_conical; have [|q [-> -> ->]] := @descend_pairs _ n (next_conical (k0_of w)) (RtoC a) (RtoC b) _ (rev infos) t t'.
  by move=> l u v; rewrite /next_conical mul_lin.
rewrite -!map_comp; apply: combined_map => x iz iy ix /=; split=> //.
by rewrite modes_conical_lin sample_lin reticolo_lin.
Qed.
End Super.
