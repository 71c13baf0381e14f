(** Two runs of the solvers agree: independence of the eigenvectors, conical against 2D. *)
From Coq Require Import Reals Lra Psatz FunctionalExtensionality.
From mathcomp Require Import all_ssreflect ssralg matrix mxalgebra.
From Coquelicot Require Import Complex.
From Verif Require Import Cplx Mx ModelTM ModelField Spec SpecSolve SpecField SpecAgree ProofFlux ProofEnergy1D ProofEnergy2D
  ProofSetup ProofEff ProofEnd ProofSubstrate ProofWellSolve ProofField ProofBVP ProofBVP2 ProofFieldSolve ProofAgree.

Set Implicit Arguments.
Unset Strict Implicit.
Unset Printing Implicit Defensive.
Local Open Scope ring_scope.
Import GRing.Theory.

(** ** Results are functions of the amplitudes *)
Definition report_1d (tm : bool) n (kt kb : nat -> C) (th nt nb : C) (Rv Tv : 'cV[C]_n) : diffraction n :=
  let de_r := fun i : 'I_n => Re (Rv i ord0 * conj (Rv i ord0) * RtoC (Re (kt i / (nt * ccos th)))) in
  let de_t := fun i : 'I_n => Re (Tv i ord0 * conj (Tv i ord0) *
     RtoC (Re (if tm then kb i / nb ^+ 2 / (ccos th / nt) else kb i / (nt * ccos th)))) in
  let o := fun _ : 'I_n => 0%coqR in
  if tm then Diffraction 0 Rv 0 Tv o de_r de_r o de_t de_t else Diffraction Rv 0 Tv 0 de_r o de_r de_t o de_t.

Definition report_sp n (kt kb : nat -> C) (th nt nb : C) (Rs Rp Ts Tp : 'cV[C]_n) : diffraction n :=
  let de (A : 'cV[C]_n) (w : nat -> C) := fun i : 'I_n =>
    Re (A i ord0 * conj (A i ord0) * RtoC (Re (w i))) in
  let ri_s := de Rs (fun i => kt i / (nt * ccos th)) in
  let ri_p := de Rp (fun i => kt i / nt ^+ 2 / (nt * ccos th)) in
  let ti_s := de Ts (fun i => kb i / (nt * ccos th)) in
  let ti_p := de Tp (fun i => kb i / nb ^+ 2 / (nt * ccos th)) in
  Diffraction Rs Rp Ts Tp ri_s ri_p (fun i => (ri_s i + ri_p i)%coqR) ti_s ti_p (fun i => (ti_s i + ti_p i)%coqR).

Lemma report_1dE pinv eig pol n kx k0 th nt nb (ls : seq (layer n)) r T1 infos :
  rcwa_1d pinv eig false pol kx k0 th nt nb ls = Some (r, T1, infos) ->
  let tm := is_tm pol in r = report_1d tm (kz_1d nt kx) (kz_1d nb kx) th nt nb (co_R tm r) (co_T tm r).
Proof.
move=> /rcwa_1d_parts /= [F [G [T [_]]]]; rewrite /transfer_1d_4; case: ifP => [/reqbP ->|_].
  by case: (meeinv _ _ _) => [M|] // [<- _]; rewrite is_tm0.
case: ifP => [/reqbP ->|_] //.
by case: (meeinv _ _ _) => [M|] // [<- _]; rewrite is_tm1.
Qed.

Definition report3 n kt kb th nt nb (r : sp_result n) : Prop :=
  let h (d : diffraction n) := d = report_sp kt kb th nt nb (R_s d) (R_p d) (T_s d) (T_p d) in
  [/\ h (res r), h (res_te_inc r) & h (res_tm_inc r)].

Lemma report_4 pinv n (F G T : 'M[C]_(n + n)) kt kb ps th nt nb r :
  transfer_sp_4 pinv false F G T kt kb ps th nt nb = Some r -> report3 kt kb th nt nb r.
Proof. by move=> /transfer_sp_4_some [_ ->]. Qed.

Lemma report_2dE pinv eig n kx ky k0 psi th nt nb (ls : seq (layer n)) r infos :
  rcwa_2d pinv eig false kx ky k0 psi th nt nb ls = Some (r, infos) ->
  report3 (kz_2d nt kx ky) (kz_2d nb kx ky) th nt nb r.
Proof.
rewrite /rcwa_2d /transfer_sp_1; case: ifP => // _.
case: (stack_with _ _ _) => [[[[F G] T] is']|] //.
by case h4: (transfer_sp_4 _ _ _ _ _ _ _ _ _ _ _) => [r4|] // [<- _]; apply: report_4 h4.
Qed.
Lemma report_conicalE pinv eig n kx ky k0 psi th nt nb (ls : seq (layer n)) r infos :
  rcwa_conical pinv eig false kx ky k0 psi th nt nb ls = Some (r, infos) ->
  report3 (kz_2d nt kx ky) (kz_2d nb kx ky) th nt nb r.
Proof.
rewrite /rcwa_conical /transfer_sp_1; case: ifP => // _.
case: (stack_with _ _ _) => [[[[F G] T] is']|] //.
by case h4: (transfer_sp_4 _ _ _ _ _ _ _ _ _ _ _) => [r4|] // [<- _]; apply: report_4 h4.
Qed.

(** ** What the layer records keep of the layers *)
Lemma stack_epzi_1d pinv eig n pol kx k0 st (ls : seq (layer n)) F G T infos :
  stack_with (step_1d pinv eig false pol kx k0) ls (st, [::]) = Some (F, G, T, infos) ->
  map (@i1_epzi n) (rev infos) = map (@epzi n) ls.
Proof.
elim: ls F G T infos => [|l ls IH] F G T infos /=; first by case: st => [[a b] c] [_ _ _ <-].
case e: (stack_with _ _ _) => [[[[F1 G1] T1] is']|] //; have h1 := IH _ _ _ _ e.
rewrite /step_1d; case h3: (transfer_1d_2 _ _ _ _ _ _ _ _) => [[[W V] q]|] //.
case h4: (transfer_1d_3 _ _ _ _ _ _ _ _ _ _) => [[[[[F2 G2] T2] Ai] B]|] // [_ _ _ <-].
by rewrite rev_rcons /= h1.
Qed.
Lemma stack_epzi_2d pinv eig n kx ky c s k0 st (ls : seq (layer n)) F G T infos :
  stack_with (step_2d pinv eig false kx ky c s k0) ls (st, [::]) = Some (F, G, T, infos) ->
  map (@is_epzi _ n) (rev infos) = map (@epzi n) ls.
Proof.
elim: ls F G T infos => [|l ls IH] F G T infos /=; first by case: st => [[a b] d] [_ _ _ <-].
case e: (stack_with _ _ _) => [[[[F1 G1] T1] is']|] //; have h1 := IH _ _ _ _ e.
rewrite /step_2d; case h3: (transfer_2d_2 _ _ _ _ _ _ _ _) => [[[W V] q]|] //.
case h4: (transfer_2d_3 _ _ _ _ _ _ _ _ _ _ _ _) => [[[[[F2 G2] T2] Ai] B]|] // [_ _ _ <-].
by rewrite rev_rcons /= h1.
Qed.
Lemma stack_epzi_conical pinv eig n kx ky c s k0 st (ls : seq (layer n)) F G T infos :
  stack_with (step_conical pinv eig false kx ky c s k0) ls (st, [::]) = Some (F, G, T, infos) ->
  map (@is_epzi _ n) (rev infos) = map (@epzi n) ls.
Proof.
elim: ls F G T infos => [|l ls IH] F G T infos /=; first by case: st => [[a b] d] [_ _ _ <-].
case e: (stack_with _ _ _) => [[[[F1 G1] T1] is']|] //; have h1 := IH _ _ _ _ e.
rewrite /step_conical; case h3: (transfer_1d_conical_2 _ _ _ _ _ _ _ _) => [[[W V] q]|] //.
case h4: (transfer_1d_conical_3 _ _ _ _ _ _ _ _ _ _ _ _) => [[[[[F2 G2] T2] Ai] B]|] // [_ _ _ <-].
by rewrite rev_rcons /= h1.
Qed.

(** ** Classical mount *)
Section One.
Variables pinv pinv' : forall n, 'M[C]_n -> 'M[C]_n.
Variables eig eig' : forall n, 'M[C]_n -> 'rV[C]_n * 'M[C]_n.
Hypothesis heig : eig_ok eig.
Hypothesis heig' : eig_ok eig'.

Lemma agree_1d pol n kx k0 th nt nb (ls : seq (layer n)) r T1 infos r' T1' infos' :
  (forall l, List.In l ls -> (0 <= thick l)%coqR) ->
  rcwa_1d pinv eig false pol kx k0 th nt nb ls = Some (r, T1, infos) ->
  rcwa_1d pinv' eig' false pol kx k0 th nt nb ls = Some (r', T1', infos') ->
  r = r' /\ agree (map (@thick n) ls) (field_profiles_1d pol k0 kx T1 infos) (field_profiles_1d pol k0 kx T1' infos').
Proof.
move=> hd h h'; have [b1 u1] := bvp_1d heig h; have [b2 _] := bvp_1d heig' h'.
have [e1 e2] := u1 hd _ _ _ b2.
have er : r = r' by rewrite (report_1dE h) (report_1dE h') e1 e2.
split=> //.
pose ms := [seq medium_1d (is_tm pol) kx (conv_of l) (thick l) | l <- ls].
have e0 : map (@m_d n) ms = map (@thick n) ls.
  by rewrite -map_comp; apply: eq_map => l /=; rewrite /medium_1d; case: (is_tm pol).
have [F [G [T [hs _]]]] := rcwa_1d_parts h.
have hm := stack_matched_1d heig hs; have [hc _] := stack_chain_1d hs.
rewrite -e0; case: b1 => t1 s1; case: b2 => t2 s2; rewrite e1 in t2.
apply: (chain_agree hm hc _ t1 s1 t2 s2) => a ha.
by have [l hl ->] := In_map ha; have := hd l hl; rewrite /medium_1d; case: (is_tm pol).
Qed.

Lemma samples_1d pol n kx w th nt nb (ls : seq (layer n)) r T1 infos r' T1' infos' px p res_x res_z :
  (forall l, List.In l ls -> (0 <= thick l)%coqR) ->
  rcwa_1d pinv eig false pol kx (k0_of w) th nt nb ls = Some (r, T1, infos) ->
  rcwa_1d pinv' eig' false pol kx (k0_of w) th nt nb ls = Some (r', T1', infos') ->
  same_samples res_z (field_1d w kx T1 infos px p res_x res_z) (field_1d w kx T1' infos' px p res_x res_z).
Proof.
move=> hd h h'; have [_ ha] := agree_1d hd h h'.
have [z1 z2] := agree_size ha.
split; first by rewrite /field_1d !size_map -(size_map (fun lt => ((fun z => (modes_1d pol (k0_of w) kx lt.1 lt.2 z).1.1), (fun z => (modes_1d pol (k0_of w) kx lt.1 lt.2 z).1.2)))) z1 -z2 size_map.
move=> k a b hka hkb iz hz; have [x hx ->] := nth_error_map hka; have [y hy ->] := nth_error_map hkb.
have [F [G [T [hs _]]]] := rcwa_1d_parts h; have [F' [G' [T' [hs' _]]]] := rcwa_1d_parts h'.
have [_ d1] := stack_chain_1d hs; have [_ d2] := stack_chain_1d hs'.
have z3 := stack_epzi_1d hs; have z4 := stack_epzi_1d hs'.
have hxl : List.nth_error (rev infos) k = Some x.1.
  by rewrite -(descend_fst (next_1d (k0_of w)) T1 (rev infos)); exact: nth_error_mapE hx.
have hyl : List.nth_error (rev infos') k = Some y.1.
  by rewrite -(descend_fst (next_1d (k0_of w)) T1' (rev infos')); exact: nth_error_mapE hy.
have hd1 : List.nth_error (map (@thick _) ls) k = Some (i1_d x.1) by rewrite -d1; exact: nth_error_mapE hxl.
have hd2 : List.nth_error (map (@thick _) ls) k = Some (i1_d y.1) by rewrite -d2; exact: nth_error_mapE hyl.
have ez1 : List.nth_error (map (@epzi _) ls) k = Some (i1_epzi x.1) by rewrite -z3; exact: nth_error_mapE hxl.
have ez2 : List.nth_error (map (@epzi _) ls) k = Some (i1_epzi y.1) by rewrite -z4; exact: nth_error_mapE hyl.
have ed : i1_d y.1 = i1_d x.1 by move: hd2; rewrite hd1 => -[->].
have ez : i1_epzi y.1 = i1_epzi x.1 by move: ez2; rewrite ez1 => -[->].
have d0 : (0 <= i1_d x.1)%coqR.
  by have [l hl ->] := nth_error_map hd1; apply: hd; apply: List.nth_error_In hl.
have [e1 e2] := agree_nth ha hd1 (nth_error_mapE _ hx) (nth_error_mapE _ hy) (z_point_in d0 hz).
rewrite ed.
have -> : modes_1d p (k0_of w) kx x.1 x.2 (z_point res_z (i1_d x.1) iz) = modes_1d p (k0_of w) kx y.1 y.2 (z_point res_z (i1_d x.1) iz).
  move: e1 e2; rewrite /= /modes_1d /= ez => e1 e2; congr pair; first by congr pair; [exact: e1|exact: e2].
  by case: (reqb p 0); do 2 f_equal; exact: e1.
by [].
Qed.
End One.

(** ** Conical mount and 2D *)
Section Sp.
Variable n : nat.
Variables (kx ky : nat -> C) (k0 : R) (th nt nb : C).
Hypothesis rx : real_vec n kx.
Hypothesis ry : real_vec n ky.
Let c := fun i => cos_varphi (kx i) (ky i).
Let s := fun i => sin_varphi (kx i) (ky i).

(** A list of layers as calculate_field sees them: thickness and mode vectors as functions of depth. *)
Definition mlist := seq (R * (R -> modes n)).
Definition mlist_2d T1 (infos : seq (info_sp 'M[C]_(n + n) n)) : mlist :=
  [seq (is_d lt.1, modes_2d k0 kx ky lt.1 lt.2) | lt <- descend (next_2d k0) T1 (rev infos)].
Definition mlist_conical T1 (infos : seq (info_sp 'M[C]_(n, n + n) n)) : mlist :=
  [seq (is_d lt.1, modes_conical k0 kx ky lt.1 lt.2) | lt <- descend (next_conical k0) T1 (rev infos)].
Definition profiles (ml : mlist) : seq (profile_of (n + n)) := [seq (fun z => e_part (p.2 z), fun z => h_part (p.2 z)) | p <- ml].
Fixpoint completes (ls : seq (layer n)) (ml : mlist) : Prop :=
  match ls, ml with
  | [::], [::] => True
  | l :: ls', p :: ml' =>
     [/\ p.1 = thick l,
         forall z, p.2 z = complete kx ky (epzi l) (m_Sx (p.2 z)) (m_Sy (p.2 z)) (m_Ux (p.2 z)) (m_Uy (p.2 z))
       & completes ls' ml']
  | _, _ => False
  end.
Definition sampled px py res_x res_y res_z (ml : mlist) : seq (nat -> nat -> nat -> seq C) :=
  [seq (fun iz iy ix => sample_sp k0 kx ky (linspace px res_x ix) (y_point py res_y iy) (p.2 (z_point res_z p.1 iz))) | p <- ml].

Definition run psi (ls : seq (layer n)) (r : sp_result n) (ml : 'cV[C]_(n + n) -> mlist) : Prop :=
  [/\ report3 (kz_2d nt kx ky) (kz_2d nb kx ky) th nt nb r,
      exists pinv gs F G T, matched (media_of kx ky ls) gs /\
        chain pinv k0 (RotE n c s) (RotH n c s) (F0_sp n kx ky nb) (G0_sp n kx ky nb) gs F G T,
      solution3_sp k0 (media_of kx ky ls) nt nb th psi kx ky c s r (fun t => profiles (ml t))
    & forall t, completes ls (ml t)].

Lemma agree_samples (ls : seq (layer n)) ml ml' px py res_x res_y res_z : (forall l, List.In l ls -> (0 <= thick l)%coqR) ->
  completes ls ml -> completes ls ml' -> agree (map (@thick n) ls) (profiles ml) (profiles ml') ->
  same_samples res_z (sampled px py res_x res_y res_z ml) (sampled px py res_x res_y res_z ml').
Proof.
elim: ls ml ml' => [|l ls IH] [|p ml] [|p' ml'] //=; first by move=> _ _ _ _; split=> // -[|k] a b.
move=> hd [e1 e2 e3] [e1' e2' e3'] [h1 h2].
have [|hs hn] := IH ml ml' _ e3 e3' h2; first by move=> x hx; apply: hd; right.
split; first by rewrite /= hs.
case=> [|k] a b /=; last exact: hn.
case=> <- [<-] iz hz; rewrite e1 e1'.
have d0 : (0 <= thick l)%coqR by apply: hd; left.
have [k1 k2] := h1 _ (z_point_in d0 hz).
move: k1 k2; rewrite e2 e2'.
set z := z_point _ _ _.
rewrite /e_part /h_part /= => /eq_col_mx [-> ->] /eq_col_mx [-> ->].
by [].
Qed.

Lemma media_d (ls : seq (layer n)) : map (@m_d (n + n)) (media_of kx ky ls) = map (@thick n) ls.
Proof. by rewrite /media_of -map_comp. Qed.

Lemma run_agree psi (ls : seq (layer n)) r r' ml ml' px py res_x res_y res_z :
  (forall l, List.In l ls -> (0 <= thick l)%coqR) -> run psi ls r ml -> run psi ls r' ml' ->
  [/\ res r = res r', res_te_inc r = res_te_inc r' & res_tm_inc r = res_tm_inc r'] /\
  let f := sampled px py res_x res_y res_z in
  [/\ same_samples res_z (f (ml (T1_res r))) (f (ml' (T1_res r'))),
      same_samples res_z (f (ml (T1_te r))) (f (ml' (T1_te r')))
    & same_samples res_z (f (ml (T1_tm r))) (f (ml' (T1_tm r')))].
Proof.
move=> hd [[p1 p2 p3] [pinv [gs [F [G [T [hm hc]]]]]] [s1 s2 s3] hcm] [[p1' p2' p3'] _ [s1' s2' s3'] hcm'].
have hd' a : List.In a (media_of kx ky ls) -> (0 <= m_d a)%coqR by move=> ha; have [l hl ->] := In_map ha; exact: hd.
have key psi' d d' t t' :
  d = report_sp (kz_2d nt kx ky) (kz_2d nb kx ky) th nt nb (R_s d) (R_p d) (T_s d) (T_p d) ->
  d' = report_sp (kz_2d nt kx ky) (kz_2d nb kx ky) th nt nb (R_s d') (R_p d') (T_s d') (T_p d') ->
  solution_sp k0 (media_of kx ky ls) nt nb th psi' kx ky c s d (profiles (ml t)) ->
  solution_sp k0 (media_of kx ky ls) nt nb th psi' kx ky c s d' (profiles (ml' t')) ->
  d = d' /\ same_samples res_z (sampled px py res_x res_y res_z (ml t)) (sampled px py res_x res_y res_z (ml' t')).
  move=> q q' [b u] [b' _]; have [e1 e2 e3 e4] := u hd' _ _ _ _ _ b'.
  split; first by rewrite q q' e1 e2 e3 e4.
  apply: (agree_samples px py res_x res_y res_z hd (hcm t) (hcm' t')).
  case: b => b1 b2; case: b' => b1' b2'; rewrite -media_d; rewrite e1 e2 in b1'.
  exact: (chain_agree hm hc hd' b1 b2 b1' b2').
have [k1 k1'] := key _ _ _ _ _ p1 p1' s1 s1'.
have [k2 k2'] := key _ _ _ _ _ p2 p2' s2 s2'.
have [k3 k3'] := key _ _ _ _ _ p3 p3' s3 s3'.
by [].
Qed.

Variable pinv : forall n, 'M[C]_n -> 'M[C]_n.
Variable eig : forall n, 'M[C]_n -> 'rV[C]_n * 'M[C]_n.
Hypothesis heig : eig_ok eig.

Lemma completes_2d (ls : seq (layer n)) (is' : seq (info_sp 'M[C]_(n + n) n)) t :
  map (@is_d _ n) is' = map (@thick n) ls -> map (@is_epzi _ n) is' = map (@epzi n) ls ->
  completes ls [seq (is_d lt.1, modes_2d k0 kx ky lt.1 lt.2) | lt <- descend (next_2d k0) t is'].
Proof.
elim: ls is' t => [|l ls IH] [|i is'] t //= [e1 e2] [e3 e4].
by split; [exact: e1|move=> z; rewrite -e3|exact: IH].
Qed.
Lemma completes_conical (ls : seq (layer n)) (is' : seq (info_sp 'M[C]_(n, n + n) n)) t :
  map (@is_d _ n) is' = map (@thick n) ls -> map (@is_epzi _ n) is' = map (@epzi n) ls ->
  completes ls [seq (is_d lt.1, modes_conical k0 kx ky lt.1 lt.2) | lt <- descend (next_conical k0) t is'].
Proof.
elim: ls is' t => [|l ls IH] [|i is'] t //= [e1 e2] [e3 e4].
by split; [exact: e1|move=> z; rewrite -e3|exact: IH].
Qed.

Lemma run_2d psi (ls : seq (layer n)) r infos :
  rcwa_2d pinv eig false kx ky k0 psi th nt nb ls = Some (r, infos) -> run psi ls r (fun t => mlist_2d t infos).
Proof.
move=> h; have b := bvp_2d rx ry heig h; have e := report_2dE h.
move: h; rewrite /rcwa_2d /transfer_sp_1; case: ifP => // _.
case hs: (stack_with _ _ _) => [[[[F G] T] is']|] //; have [hc hd] := stack_chain_2d hs.
have hm := stack_matched_2d heig hs; have hz := stack_epzi_2d hs.
case h4: (transfer_sp_4 _ _ _ _ _ _ _ _ _ _ _) => [r4|] // [er ei].
rewrite ei in hc hm hd hz; split=> //.
- by exists pinv, (map (@g2 n) (rev infos)), F, G, T.
- have pe t : profiles (mlist_2d t infos) = field_profiles_2d k0 kx ky t infos.
    by rewrite /profiles /mlist_2d /field_profiles_2d -map_comp.
  case: b => b1 b2 b3; split; rewrite pe //.
- by move=> t; apply: completes_2d.
Qed.

Lemma run_conical ky0 psi (ls : seq (layer n)) r infos :
  (forall i, (i < n)%N -> ky i = ky0) -> (forall l, List.In l ls -> y_uniform l) ->
  rcwa_conical pinv eig false kx ky k0 psi th nt nb ls = Some (r, infos) -> run psi ls r (fun t => mlist_conical t infos).
Proof.
move=> hk hl h; have b := bvp_conical rx ry heig hk hl h; have e := report_conicalE h.
move: h; rewrite /rcwa_conical /transfer_sp_1; case: ifP => // _.
case hs: (stack_with _ _ _) => [[[[F G] T] is']|] //; have [hc hd] := stack_chain_conical hs.
have hm := stack_matched_conical heig hk hl hs; have hz := stack_epzi_conical hs.
case h4: (transfer_sp_4 _ _ _ _ _ _ _ _ _ _ _) => [r4|] // [er ei].
rewrite ei in hc hm hd hz; split=> //.
- by exists pinv, (map (@gc n) (rev infos)), F, G, T.
- have pe t : profiles (mlist_conical t infos) = field_profiles_conical k0 kx ky t infos.
    by rewrite /profiles /mlist_conical /field_profiles_conical -map_comp.
  case: b => b1 b2 b3; split; rewrite pe //.
- by move=> t; apply: completes_conical.
Qed.
End Sp.

Lemma field_2dE w n kx ky (T1 : 'cV[C]_(n + n)) infos px py rx ry rz :
  field_2d w kx ky T1 infos px py rx ry rz = sampled kx ky (k0_of w) px py rx ry rz (mlist_2d kx ky (k0_of w) T1 infos).
Proof. by rewrite /sampled /mlist_2d -map_comp. Qed.
Lemma field_conicalE w n kx ky (T1 : 'cV[C]_(n + n)) infos px py rx ry rz :
  field_conical w kx ky T1 infos px py rx ry rz = sampled kx ky (k0_of w) px py rx ry rz (mlist_conical kx ky (k0_of w) T1 infos).
Proof. by rewrite /sampled /mlist_conical -map_comp. Qed.

(** ** The solvers *)
Section Solvers.
Variables pinv pinv' : forall n, 'M[C]_n -> 'M[C]_n.
Variables eig eig' : forall n, 'M[C]_n -> 'rV[C]_n * 'M[C]_n.
Hypothesis heig : eigen_oracle eig.
Hypothesis heig' : eigen_oracle eig'.

Lemma same_1d s w (convs : seq (conv3 (ff_x s))) r T1 infos r' T1' infos' :
  (forall t, List.In t (thickness s) -> (0 <= t)%coqR) ->
  solve_1d pinv eig false s w convs = Some (r, T1, infos) ->
  solve_1d pinv' eig' false s w convs = Some (r', T1', infos') ->
  r = r' /\ forall px p rx rz,
  same_samples rz (field_1d w (kx_vector s w) T1 infos px p rx rz) (field_1d w (kx_vector s w) T1' infos' px p rx rz).
Proof.
move=> hd; rewrite /solve_1d; case e: (layers_of _ _) => [ls|] // h h'.
have hd' l : List.In l ls -> (0 <= thick l)%coqR by move=> hl; apply: hd; apply: In_thick e hl.
have [er _] := agree_1d (eigen_eig_ok heig) (eigen_eig_ok heig') hd' h h'.
split; first exact: er.
by move=> px p rx rz; exact: (samples_1d (eigen_eig_ok heig) (eigen_eig_ok heig') px p rx rz hd' h h').
Qed.

Lemma thick_of s (convs : seq (conv3 (ff_y s * ff_x s))) ls : (forall t, List.In t (thickness s) -> (0 <= t)%coqR) ->
  layers_of convs (thickness s) = Some ls -> forall l, List.In l ls -> (0 <= thick l)%coqR.
Proof. by move=> hd e l hl; apply: hd; apply: In_thick e hl. Qed.

Section Pair.
Variables (s : setup) (w : R) (convs : seq (conv3 (ff_y s * ff_x s))).
Hypothesis hp : physical s.
Hypothesis hd : forall t, List.In t (thickness s) -> (0 <= t)%coqR.
Let kx := kx_tiled s w.
Let ky := ky_tiled s w.
Local Notation fld2 := (fun infos px py rx ry rz t => field_2d w kx ky t infos px py rx ry rz).
Local Notation fldc := (fun infos px py rx ry rz t => field_conical w kx ky t infos px py rx ry rz).
Lemma same_2d r infos r' infos' :
  solve_2d pinv eig false s w convs = Some (r, infos) -> solve_2d pinv' eig' false s w convs = Some (r', infos') ->
  same3 r r' /\ same_fields r r' (fld2 infos) (fld2 infos').
Proof.
case: hp => [[nt h0 h1] [th h2 h3] hp' _ _]; rewrite /solve_2d; case e: (layers_of _ _) => [ls|] // h h'.
have [f hf] := phi_real hp'; have [rx ry _] := tiled_phys w h1 h3 h2 hf.
have k1 := run_2d rx ry (eigen_eig_ok heig) h; have k2 := run_2d rx ry (eigen_eig_ok heig') h'.
have k := run_agree _ _ _ _ _ (thick_of hd e) k1 k2.
split; first by have [] := k 0%coqR 0%coqR 0%N 0%N 0%N.
by move=> px py rx' ry' rz; have [_ kk] := k px py rx' ry' rz; rewrite !field_2dE.
Qed.

Hypothesis hl : forall c, List.In c (used s convs) -> line_convs c.

Lemma ky_const : fto_y s = 0%N -> forall i, (i < ff_y s * ff_x s)%N -> ky_tiled s w i = ky_vector s w 0%N.
Proof. by move=> hy i; rewrite /ky_tiled /tile_y {1}/ff_y hy mul1n => lt; rewrite divn_small. Qed.

Lemma same_conical r infos r' infos' :
  solve_1d_conical pinv eig false s w convs = Some (r, infos) -> solve_1d_conical pinv' eig' false s w convs = Some (r', infos') ->
  same3 r r' /\ same_fields r r' (fldc infos) (fldc infos').
Proof.
case: hp => [[nt h0 h1] [th h2 h3] hp' _ _]; rewrite /solve_1d_conical; case: eqP => // hy.
case e: (layers_of _ _) => [ls|] // h h'.
have hyu l : List.In l ls -> y_uniform l by move=> /(layers_of_in e) /hl.
have [f hf] := phi_real hp'; have [rx ry _] := tiled_phys w h1 h3 h2 hf.
have k1 := run_conical rx ry (eigen_eig_ok heig) (ky_const hy) hyu h.
have k2 := run_conical rx ry (eigen_eig_ok heig') (ky_const hy) hyu h'.
have k := run_agree _ _ _ _ _ (thick_of hd e) k1 k2.
split; first by have [] := k 0%coqR 0%coqR 0%N 0%N 0%N.
by move=> px py rx' ry' rz; have [_ kk] := k px py rx' ry' rz; rewrite !field_conicalE.
Qed.

Lemma same_conical_2d r infos r' infos' :
  solve_1d_conical pinv eig false s w convs = Some (r, infos) -> solve_2d pinv' eig' false s w convs = Some (r', infos') ->
  same3 r r' /\ same_fields r r' (fldc infos) (fld2 infos').
Proof.
case: hp => [[nt h0 h1] [th h2 h3] hp' _ _]; rewrite /solve_1d_conical /solve_2d; case: eqP => // hy.
case e: (layers_of _ _) => [ls|] // h h'.
have hyu l : List.In l ls -> y_uniform l by move=> /(layers_of_in e) /hl.
have [f hf] := phi_real hp'; have [rx ry _] := tiled_phys w h1 h3 h2 hf.
have k1 := run_conical rx ry (eigen_eig_ok heig) (ky_const hy) hyu h.
have k2 := run_2d rx ry (eigen_eig_ok heig') h'.
have k := run_agree _ _ _ _ _ (thick_of hd e) k1 k2.
split; first by have [] := k 0%coqR 0%coqR 0%N 0%N 0%N.
by move=> px py rx' ry' rz; have [_ kk] := k px py rx' ry' rz; rewrite !field_conicalE !field_2dE.
Qed.
End Pair.
End Solvers.
