(** Relabelling the orders of the boundary-value problem. *)
From Coq Require Import Reals Lra Psatz FunctionalExtensionality.
From mathcomp Require Import all_ssreflect ssralg matrix.
From Coquelicot Require Import Complex.
From Verif Require Import Cplx Mx Spec SpecSolve SpecField SpecSym ModelTM ModelField ProofEff ProofInvert ProofField ProofFieldSolve.

Set Implicit Arguments.
Unset Strict Implicit.
Unset Printing Implicit Defensive.
Local Open Scope ring_scope.
Import GRing.Theory.

(** ** A linear map between two stacks *)
Section Map.
Variables (m : nat) (U V : 'M[C]_m).
Definition carries (a b : medium m) : Prop :=
  [/\ m_d b = m_d a, m_P b *m V = U *m m_P a & m_Q b *m U = V *m m_Q a].
Definition image (p : profile_of m) : profile_of m := (fun z => U *m p.1 z, fun z => V *m p.2 z).
Definition image2 (x : 'cV[C]_m * 'cV[C]_m) : 'cV[C]_m * 'cV[C]_m := (U *m x.1, V *m x.2).

Lemma solves_map k0 a b u v : carries a b -> solves k0 a u v -> solves k0 b (fun z => U *m u z) (fun z => V *m v z).
Proof.
case=> hd hP hQ [h1 h2]; split=> z; rewrite hd => hz.
  have [d1 d2] := h1 z hz; split.
    by apply: vderiv_eq (vderiv_mulmx U d1); rewrite -scalemxAr !mulmxA -hP.
  by apply: vderiv_eq (vderiv_mulmx V d2); rewrite -scalemxAr !mulmxA -hQ.
have [c1 c2] := h2 z hz; by split; apply: vcont_mulmx.
Qed.
Lemma all_solve_map k0 ls ls' fs : all2p carries ls ls' -> all_solve k0 ls fs -> all_solve k0 ls' (map image fs).
Proof.
elim: ls ls' fs => [|l ls IH] [|l' ls'] [|[u v] fs] //= [h hs] [h1 h2]; split; last exact: IH.
exact: solves_map h h1.
Qed.
Lemma thick_map ls ls' : all2p carries ls ls' -> map (@m_d m) ls' = map (@m_d m) ls.
Proof. by elim: ls ls' => [|l ls IH] [|l' ls'] //= [[-> _ _] /IH ->]. Qed.
Lemma through_map ds top fs bot : through ds top fs bot -> through ds (image2 top) (map image fs) (image2 bot).
Proof.
elim: ds top fs => [|d ds IH] top [|[u v] fs] //=; first by move=> ->.
by case=> <- h; split=> //; exact: IH h.
Qed.
Lemma bvp_map k0 ls ls' top fs bot : all2p carries ls ls' -> boundary_value_problem k0 ls top fs bot ->
  boundary_value_problem k0 ls' (image2 top) (map image fs) (image2 bot).
Proof.
move=> h [h1 h2]; split; last exact: all_solve_map h h2.
by rewrite (thick_map h); exact: through_map.
Qed.
End Map.

(** ** Monomial matrices *)
Section Mono.
Variables (n : nat) (sg : 'I_n -> 'I_n).
Hypothesis hsg : involutive sg.
Definition mono (u : 'I_n -> C) : 'M[C]_n := \matrix_(i, j) (if i == sg j then u j else 0).

Lemma mono_l u (A : 'M[C]_n) i j : (mono u *m A) (sg i) j = u i * A i j.
Proof.
rewrite mxE (bigD1 i) //= mxE eqxx big1 ?addr0 // => k hk.
by rewrite mxE (inj_eq (inv_inj hsg)) eq_sym (negbTE hk) mul0r.
Qed.
Lemma mono_r u (A : 'M[C]_n) i j : (A *m mono u) i j = A i (sg j) * u j.
Proof.
rewrite mxE (bigD1 (sg j)) //= mxE eqxx big1 ?addr0 // => k hk.
by rewrite mxE (negbTE hk) mulr0.
Qed.
Lemma mono_v u (v : 'cV[C]_n) i : (mono u *m v) (sg i) ord0 = u i * v i ord0.
Proof.
rewrite mxE (bigD1 i) //= mxE eqxx big1 ?addr0 // => k hk.
by rewrite mxE (inj_eq (inv_inj hsg)) eq_sym (negbTE hk) mul0r.
Qed.
Lemma mono_swap u w (A A' : 'M[C]_n) : (forall i j, A' (sg i) (sg j) * w j = u i * A i j) -> A' *m mono w = mono u *m A.
Proof. by move=> h; apply/matrixP => i j; rewrite -(hsg i) mono_l mono_r. Qed.
Lemma mono_col u (v v' : 'cV[C]_n) : (forall i, v' (sg i) ord0 = u i * v i ord0) -> mono u *m v = v'.
Proof. by move=> h; apply/matrixP => i j; rewrite (ord1 j) -(hsg i) mono_v h. Qed.
Lemma mono_colE u (v v' : 'cV[C]_n) : mono u *m v = v' -> forall i, v' (sg i) ord0 = u i * v i ord0.
Proof. by move=> <- i; rewrite mono_v. Qed.
End Mono.

(** ** Classical mount *)
Section OneD.
Variables (n : nat) (sg : 'I_n -> 'I_n) (ph : 'I_n -> C) (e : C) (kx kx' : nat -> C).
Hypothesis hsg : involutive sg.
Hypothesis he : e * e = 1.
Hypothesis hk : forall i : 'I_n, kx' (sg i) = e * kx i.
Let U := mono sg ph.

Lemma kx_sq (i : 'I_n) : kx' (sg i) ^+ 2 = kx i ^+ 2.
Proof. by rewrite hk exprMn [e ^+ 2]expr2 he mul1r. Qed.
Lemma kx_two (i j : 'I_n) x : kx' (sg i) * x * kx' (sg j) = kx i * x * kx j.
Proof.
rewrite !hk [LHS](_ : _ = (e * e) * (kx i * x * kx j)); last by cring.
by rewrite he mul1r.
Qed.

Lemma carries_1d tm c c' d : moved3 sg ph c c' -> carries U U (medium_1d tm kx c d) (medium_1d tm kx' c' d).
Proof.
case: c => [[ex ey] ez]; case: c' => [[ex' ey'] ez'] [h1 h2 h3]; case: tm; split=> //=; apply: mono_swap => // i j; rewrite ?mxE //.
- rewrite kx_two mulrBl mulrBr (inj_eq (inv_inj hsg)); congr (_ - _).
    rewrite [LHS](_ : _ = kx i * (ez' (sg i) (sg j) * ph j) * kx j); last by cring.
    by rewrite h3; cring.
  by case: eqP => [->|_]; rewrite ?mul1r ?mulr1 ?mul0r ?mulr0.
- by rewrite (inj_eq (inv_inj hsg)); case: eqP => [->|_]; rewrite ?mul1r ?mulr1 ?mul0r ?mulr0.
rewrite mulrBl mulrBr (inj_eq (inv_inj hsg)) h2 kx_sq; congr (_ - _).
by case: eqP => [->|_]; rewrite ?mul0r ?mulr0 // mulrC.
Qed.
Lemma media_1d_moved tm cs cs' ds : all2p (moved3 sg ph) cs cs' ->
  all2p (carries U U) (media_1d tm kx cs ds) (media_1d tm kx' cs' ds).
Proof.
elim: ds cs cs' => [|d ds IH] [|c cs] [|c' cs'] //= [h hs]; split; [exact: carries_1d h|exact: IH hs].
Qed.

Hypothesis hc : forall i : 'I_n, (sg i == (n %/ 2)%N :> nat) = (i == (n %/ 2)%N :> nat).
Hypothesis hph : forall i : 'I_n, i = (n %/ 2)%N :> nat -> ph i = 1.

Lemma kz_of_moved nn (i : 'I_n) : kz_of nn (kx' (sg i)) 0 = kz_of nn (kx i) 0.
Proof. by rewrite /kz_of kx_sq. Qed.
Lemma delta_moved (i : 'I_n) (x : C) : x * (if i == (n %/ 2)%N :> nat then 1 else 0) = ph i * (x * (if i == (n %/ 2)%N :> nat then 1 else 0)).
Proof. by case: eqP => [/hph ->|_]; rewrite ?mulr0 ?mul1r. Qed.

Lemma above_1d_moved tm nt th Rv : image2 U U (above_1d tm nt th kx Rv) = above_1d tm nt th kx' (U *m Rv).
Proof.
rewrite /image2 /above_1d /=; congr (_, _); apply: (mono_col hsg) => i; rewrite [LHS]mxE [X in _ = _ * X]mxE hc.
  by rewrite mono_v // mulrDr; congr (_ + _); have := delta_moved i 1; rewrite !mul1r.
rewrite kz_of_moved mono_v // mulrDr -delta_moved; congr (_ + _); cring.
Qed.
Lemma below_1d_moved tm nb Tv : image2 U U (below_1d tm nb kx Tv) = below_1d tm nb kx' (U *m Tv).
Proof.
rewrite /image2 /below_1d /=; congr (_, _); last first.
  by apply: (mono_col hsg) => i; rewrite [LHS]mxE [X in _ = _ * X]mxE kz_of_moved mono_v //; cring.
Qed.

Lemma bvp_1d_moved k0 tm nt nb th cs cs' ds Rv fs Tv : all2p (moved3 sg ph) cs cs' ->
  boundary_value_problem k0 (media_1d tm kx cs ds) (above_1d tm nt th kx Rv) fs (below_1d tm nb kx Tv) ->
  boundary_value_problem k0 (media_1d tm kx' cs' ds) (above_1d tm nt th kx' (U *m Rv)) (map (image U U) fs)
    (below_1d tm nb kx' (U *m Tv)).
Proof.
move=> h hb; rewrite -above_1d_moved -below_1d_moved; apply: bvp_map hb; exact: media_1d_moved.
Qed.
End OneD.

(** ** Conical mount and 2D gratings *)
Section Sp.
Variables (n : nat) (sg : 'I_n -> 'I_n) (ph eta : 'I_n -> C) (ex ey : C) (kx kx' ky ky' dc ds dc' ds' : nat -> C).
Hypothesis hsg : involutive sg.
Hypotheses (hex : ex * ex = 1) (hey : ey * ey = 1) (heta : forall i, eta i * eta i = 1).
Hypothesis hkx : forall i : 'I_n, kx' (sg i) = ex * kx i.
Hypothesis hky : forall i : 'I_n, ky' (sg i) = ey * ky i.
Hypothesis hdc : forall i : 'I_n, dc' (sg i) = eta i * ex * dc i.
Hypothesis hds : forall i : 'I_n, ds' (sg i) = eta i * ey * ds i.

Definition mono2 (a b : C) : 'M[C]_(n + n) := block_mx (mono sg (fun i => a * ph i)) 0 0 (mono sg (fun i => b * ph i)).
Let U := mono2 ex ey.
Let V := mono2 ey ex.

Lemma mono2_swap a b a' b' (A B D E A' B' D' E' : 'M[C]_n) :
  (forall i j, A' (sg i) (sg j) * (a' * ph j) = a * ph i * A i j) ->
  (forall i j, B' (sg i) (sg j) * (b' * ph j) = a * ph i * B i j) ->
  (forall i j, D' (sg i) (sg j) * (a' * ph j) = b * ph i * D i j) ->
  (forall i j, E' (sg i) (sg j) * (b' * ph j) = b * ph i * E i j) ->
  block_mx A' B' D' E' *m mono2 a' b' = mono2 a b *m block_mx A B D E.
Proof.
move=> h1 h2 h3 h4; rewrite /mono2 !mulmx_block !mulmx0 !mul0mx !addr0 !add0r.
by rewrite (mono_swap hsg h1) (mono_swap hsg h2) (mono_swap hsg h3) (mono_swap hsg h4).
Qed.

Lemma tk_moved a b (ka kb ka' kb' : nat -> C) (ez ez' : 'M[C]_n) i j : a * a = 1 -> b * b = 1 ->
  (forall i : 'I_n, ka' (sg i) = a * ka i) -> (forall i : 'I_n, kb' (sg i) = b * kb i) -> moved sg ph ez ez' ->
  tk ka' kb' ez' (sg i) (sg j) * (b * ph j) = a * ph i * tk ka kb ez i j.
Proof.
move=> ha hb h1 h2 h; rewrite !mxE h1 h2.
rewrite [LHS](_ : _ = a * (b * b) * ka i * (ez' (sg i) (sg j) * ph j) * kb j); last by cring.
by rewrite h hb; cring.
Qed.
Lemma dk_moved a b (ka kb ka' kb' : nat -> C) i j : a * a = 1 ->
  (forall i : 'I_n, ka' (sg i) = a * ka i) -> (forall i : 'I_n, kb' (sg i) = b * kb i) ->
  dk n ka' kb' (sg i) (sg j) * (a * ph j) = b * ph i * dk n ka kb i j.
Proof.
move=> ha h1 h2; rewrite !mxE (inj_eq (inv_inj hsg)); case: eqP => [->|_]; last by rewrite mul0r mulr0.
rewrite h1 h2 [LHS](_ : _ = b * (a * a) * ka j * ph j * kb j); last by cring.
by rewrite ha; cring.
Qed.
Lemma dk_same a b (ka ka' : nat -> C) i j : a * a = 1 -> (forall i : 'I_n, ka' (sg i) = a * ka i) ->
  dk n ka' ka' (sg i) (sg j) * (b * ph j) = b * ph i * dk n ka ka i j.
Proof.
move=> ha h1; rewrite !mxE (inj_eq (inv_inj hsg)); case: eqP => [->|_]; last by rewrite mul0r mulr0.
rewrite h1 [LHS](_ : _ = b * (a * a) * ka j * ph j * ka j); last by cring.
by rewrite ha; cring.
Qed.
Lemma id_moved a i j : (1%:M : 'M[C]_n) (sg i) (sg j) * (a * ph j) = a * ph i * (1%:M : 'M[C]_n) i j.
Proof. by rewrite !mxE (inj_eq (inv_inj hsg)); case: eqP => [->|_]; rewrite ?mul0r ?mulr0 ?mul1r ?mulr1. Qed.
Lemma scaled_moved a (A A' : 'M[C]_n) i j : moved sg ph A A' -> A' (sg i) (sg j) * (a * ph j) = a * ph i * A i j.
Proof. by move=> h; rewrite mulrCA h mulrA. Qed.

Lemma mx_oE (A : 'M[C]_n) i j : (- A) i j = - A i j. Proof. by rewrite mxE. Qed.
Lemma mx_sE (A B : 'M[C]_n) i j : (A - B) i j = A i j - B i j. Proof. by rewrite !mxE. Qed.

Lemma carries_sp c c' d : moved3 sg ph c c' -> carries U V (medium_sp kx ky c d) (medium_sp kx' ky' c' d).
Proof.
case: c => [[a b] ez]; case: c' => [[a' b'] ez'] [h1 h2 h3]; split=> //=; apply: mono2_swap => i j.
- by rewrite !mx_oE mulNr mulrN (tk_moved _ _ hex hey hkx hky h3).
- by rewrite !mx_sE mulrBl mulrBr (tk_moved _ _ hex hex hkx hkx h3) id_moved.
- by rewrite !mx_sE mulrBl mulrBr (tk_moved _ _ hey hey hky hky h3) id_moved.
- exact: (tk_moved _ _ hey hex hky hkx h3).
- by rewrite !mx_oE mulNr mulrN; congr (- _); exact: (dk_moved _ _ hex hkx hky).
- by rewrite !mx_sE mulrBl mulrBr (dk_same _ _ _ hex hkx) (scaled_moved _ _ _ h2).
- by rewrite !mx_sE mulrBl mulrBr (dk_same _ _ _ hey hky) (scaled_moved _ _ _ h1).
exact: (dk_moved _ _ hey hky hkx).
Qed.
Lemma media_sp_moved cs cs' ts : all2p (moved3 sg ph) cs cs' ->
  all2p (carries U V) (media_sp kx ky cs ts) (media_sp kx' ky' cs' ts).
Proof.
elim: ts cs cs' => [|d ts IH] [|c cs] [|c' cs'] //= [h hs]; split; [exact: carries_sp h|exact: IH hs].
Qed.

Lemma e_xy_moved (es ep es' ep' : 'I_n -> C) :
  (forall i, es' (sg i) = ex * ey * (ph i * eta i) * es i) -> (forall i, ep' (sg i) = ph i * eta i * ep i) ->
  U *m e_xy dc ds es ep = e_xy dc' ds' es' ep'.
Proof.
move=> h1 h2; rewrite /e_xy /U /mono2 mul_block_col !mul0mx addr0 add0r; congr col_mx; apply: (mono_col hsg) => i;
  rewrite !mxE h1 h2 hdc hds.
- rewrite [LHS](_ : _ = (eta i * eta i) * (ex * ph i) * (dc i * ep i) - (eta i * eta i) * (ey * ey) * (ex * ph i) * (ds i * es i)); last by cring.
  by rewrite heta hey; cring.
- rewrite [LHS](_ : _ = (eta i * eta i) * (ex * ex) * (ey * ph i) * (dc i * es i) + (eta i * eta i) * (ey * ph i) * (ds i * ep i)); last by cring.
  by rewrite heta hex; cring.
Qed.
Lemma h_xy_moved (hs hp hs' hp' : 'I_n -> C) :
  (forall i, hs' (sg i) = ex * ey * (ph i * eta i) * hs i) -> (forall i, hp' (sg i) = ph i * eta i * hp i) ->
  V *m h_xy dc ds hs hp = h_xy dc' ds' hs' hp'.
Proof.
move=> h1 h2; rewrite /h_xy /V /mono2 mul_block_col !mul0mx addr0 add0r; congr col_mx; apply: (mono_col hsg) => i;
  rewrite !mxE h1 h2 hdc hds.
- rewrite [LHS](_ : _ = (eta i * eta i) * (ex * ex) * (ey * ph i) * (dc i * hs i) - (eta i * eta i) * (ey * ph i) * (ds i * hp i)); last by cring.
  by rewrite heta hex; cring.
- rewrite [LHS](_ : _ = (eta i * eta i) * (ey * ey) * (ex * ph i) * (ds i * hs i) + (eta i * eta i) * (ex * ph i) * (dc i * hp i)); last by cring.
  by rewrite heta hey; cring.
Qed.

Hypothesis hc : forall i : 'I_n, (sg i == (n %/ 2)%N :> nat) = (i == (n %/ 2)%N :> nat).
Variables (psi psi' : C).
Hypothesis hsin : forall i : 'I_n, i = (n %/ 2)%N :> nat -> csin psi' = ex * ey * (ph i * eta i) * csin psi.
Hypothesis hcos : forall i : 'I_n, i = (n %/ 2)%N :> nat -> ccos psi' = ph i * eta i * ccos psi.
Let Ms := mono sg (fun i => ex * ey * (ph i * eta i)).
Let Mp := mono sg (fun i => ph i * eta i).

Lemma kz_of_moved2 nn (i : 'I_n) : kz_of nn (kx' (sg i)) (ky' (sg i)) = kz_of nn (kx i) (ky i).
Proof. by rewrite /kz_of (kx_sq hex hkx) (kx_sq hey hky). Qed.

Lemma above_sp_moved nt th Rs Rp :
  image2 U V (above_sp nt th psi kx ky dc ds Rs Rp) = above_sp nt th psi' kx' ky' dc' ds' (Ms *m Rs) (Mp *m Rp).
Proof.
rewrite /image2 /above_sp /=; congr (_, _).
- apply: e_xy_moved => i; rewrite hc ?kz_of_moved2 mono_v //; case: eqP => [hi|_].
  + by rewrite (hsin hi); cring.
  + by cring.
  + by rewrite (hcos hi); cring.
  + by cring.
- apply: h_xy_moved => i; rewrite hc ?kz_of_moved2 mono_v //; case: eqP => [hi|_].
  + by rewrite (hsin hi); cring.
  + by cring.
  + by rewrite (hcos hi); cring.
  + by cring.
Qed.
Lemma below_sp_moved nb Ts Tp :
  image2 U V (below_sp nb kx ky dc ds Ts Tp) = below_sp nb kx' ky' dc' ds' (Ms *m Ts) (Mp *m Tp).
Proof.
rewrite /image2 /below_sp /=; congr (_, _).
- by apply: e_xy_moved => i; rewrite ?kz_of_moved2 mono_v //; cring.
- by apply: h_xy_moved => i; rewrite ?kz_of_moved2 mono_v //; cring.
Qed.

Lemma bvp_sp_moved k0 nt nb th cs cs' ts fs Rs Rp Ts Tp : all2p (moved3 sg ph) cs cs' ->
  bvp_sp k0 (media_sp kx ky cs ts) nt nb th psi kx ky dc ds fs Rs Rp Ts Tp ->
  bvp_sp k0 (media_sp kx' ky' cs' ts) nt nb th psi' kx' ky' dc' ds' (map (image U V) fs) (Ms *m Rs) (Mp *m Rp) (Ms *m Ts) (Mp *m Tp).
Proof.
move=> h hb; rewrite /bvp_sp -above_sp_moved -below_sp_moved; apply: bvp_map hb; exact: media_sp_moved.
Qed.
Lemma solution_sp_moved k0 nt nb th cs cs' ts d d' fs fs' : all2p (moved3 sg ph) cs cs' ->
  (forall a, List.In a (media_sp kx' ky' cs' ts) -> (0 <= m_d a)%coqR) ->
  solution_sp k0 (media_sp kx ky cs ts) nt nb th psi kx ky dc ds d fs ->
  solution_sp k0 (media_sp kx' ky' cs' ts) nt nb th psi' kx' ky' dc' ds' d' fs' ->
  moved_amps sg (fun i => ex * ey * (ph i * eta i)) (fun i => ph i * eta i) d d'.
Proof.
move=> h hd [h1 _] [_ h2] i; have [a1 a2 a3 a4] := h2 hd _ _ _ _ _ (bvp_sp_moved h h1).
by rewrite -a1 -a2 -a3 -a4 !mono_v.
Qed.
End Sp.

(** ** Efficiencies follow the moduli of the amplitudes *)
Section Rule.
Variables (ws wp us up : C -> R).
Definition eff_rule n (kzt kzb : nat -> C) (r : diffraction n) : Prop :=
  forall i, [/\ de_ri_s r i = (nrm2 (R_s r i ord0) * ws (kzt i))%coqR, de_ri_p r i = (nrm2 (R_p r i ord0) * wp (kzt i))%coqR
              & de_ri r i = (de_ri_s r i + de_ri_p r i)%coqR] /\
            [/\ de_ti_s r i = (nrm2 (T_s r i ord0) * us (kzb i))%coqR, de_ti_p r i = (nrm2 (T_p r i ord0) * up (kzb i))%coqR
              & de_ti r i = (de_ti_s r i + de_ti_p r i)%coqR].

Lemma nrm2_unimodular a (x : C) : unimodular a -> nrm2 (a * x) = nrm2 x.
Proof.
move=> h; rewrite nrm2M; have e : RtoC (nrm2 a) = RtoC 1 by rewrite -mul_conj.
by case: e => ->; rewrite Rmult_1_l.
Qed.
Lemma effs_moved n (sg : 'I_n -> 'I_n) a b (kzt kzb kzt' kzb' : nat -> C) (r r' : diffraction n) :
  (forall i, unimodular (a i)) -> (forall i, unimodular (b i)) ->
  (forall i : 'I_n, kzt' (sg i) = kzt i) -> (forall i : 'I_n, kzb' (sg i) = kzb i) ->
  eff_rule kzt kzb r -> eff_rule kzt' kzb' r' -> moved_amps sg a b r r' -> moved_effs sg r r'.
Proof.
move=> ha hb ht hb' h h' hm i; have [e1 e2 e3 e4] := hm i.
have [[a1 a2 a3] [a4 a5 a6]] := h i; have [[b1 b2 b3] [b4 b5 b6]] := h' (sg i).
by rewrite b3 b6 b1 b2 b4 b5 e1 e2 e3 e4 !nrm2_unimodular // ht hb' -a1 -a2 -a4 -a5 -a3 -a6.
Qed.
End Rule.

Lemma de_nrm (x : C) w : Re (x * conj x * RtoC w) = (nrm2 x * w)%coqR.
Proof. by rewrite mul_conj -RtoC_mul. Qed.

Lemma extracted_rule n (r : diffraction n) kzt kzb th nt nb : extracted r kzt kzb th nt nb ->
  eff_rule (fun k => Re (k / (nt * ccos th))) (fun k => Re (k / nt ^+ 2 / (nt * ccos th)))
    (fun k => Re (k / (nt * ccos th))) (fun k => Re (k / nb ^+ 2 / (nt * ccos th))) kzt kzb r.
Proof. by case=> RT [T ->] i; rewrite /extract_sp /= !de_nrm. Qed.

Lemma rule_1d pinv up pol n (F G T : 'M[C]_n) kt kb th nt nb r T1 :
  transfer_1d_4 pinv up pol F G T kt kb th nt nb = Some (r, T1) ->
  eff_rule (fun k => Re (k / (nt * ccos th))) (fun k => Re (k / (nt * ccos th)))
    (fun k => Re (k / (nt * ccos th))) (fun k => Re (k / nb ^+ 2 / (ccos th / nt))) kt kb r.
Proof.
have z (x : R) : (0 = nrm2 0 * x)%coqR by rewrite /nrm2 (_ : Re 0 = 0%coqR) // (_ : Im 0 = 0%coqR) //; ring.
rewrite /transfer_1d_4; case: ifP => [_|_]; last case: ifP => [_|_] //.
- case: (meeinv _ _ _) => [M|] // [<- _] i; cbn [R_s R_p T_s T_p de_ri_s de_ri_p de_ri de_ti_s de_ti_p de_ti].
  by rewrite !de_nrm ![(0 : 'cV__) _ _]mxE -!z !Rplus_0_r.
case: (meeinv _ _ _) => [M|] // [<- _] i; cbn [R_s R_p T_s T_p de_ri_s de_ri_p de_ri de_ti_s de_ti_p de_ti].
by rewrite !de_nrm ![(0 : 'cV__) _ _]mxE -!z !Rplus_0_l.
Qed.
