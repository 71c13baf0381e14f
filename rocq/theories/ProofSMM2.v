From Coq Require Import Reals Lra Psatz.
From mathcomp Require Import all_ssreflect ssralg matrix mxalgebra.
From Coquelicot Require Import Complex.
From Verif Require Import Cplx Mx ModelTM ModelSMM SpecSMM ProofSMM.

Set Implicit Arguments.
Unset Strict Implicit.
Unset Printing Implicit Defensive.
Local Open Scope ring_scope.
Import GRing.Theory.

Section Direct.
Variable n : nat.
Variables (k0 : R) (Vg : 'M[C]_n).
Hypothesis uVg : Vg \in unitmx.

Lemma gap_waves (e h : 'cV[C]_n) : exists g k, g + k = e /\ Vg *m (g - k) = h.
Proof.
have [a ea] := double_half e; have [b eb] := double_half (invmx Vg *m h).
exists (a + b), (a - b); split; first by rewrite ea; mxab.
have -> : a + b - (a - b) = b + b by mxab.
by rewrite -eb mulKVmx.
Qed.

Lemma layers_through ls : forall (P : component_rel n) u v g' k',
  layers_rel k0 1%:M Vg ls P u v g' k' <->
  exists g k, P u v g k /\ through k0 ls (g + k) (Vg *m (g - k)) (g' + k') (Vg *m (g' - k')).
Proof.
elim: ls => [|[[[W V] m] d] l IH] P u v g' k' /=.
  split=> [h|[g [k [h [e1 e2]]]]]; first by exists g', k'.
  have e3 : g - k = g' - k' by rewrite -(mulKmx uVg (g - k)) e2 mulKmx.
  have -> : g' = g.
    apply: half_double; have -> : g' + g' = (g' + k') + (g' - k') by mxab.
    rewrite -e1 -e3; mxab.
  suff -> : k' = k by [].
  apply: half_double; have -> : k' + k' = (g' + k') - (g' - k') by mxab.
  rewrite -e1 -e3; mxab.
have IH' := IH (stacked P (layer_rel 1%:M Vg W V (smm_X d k0 m))) u v g' k'.
split=> [/IH' [a [b [[g [k [hP [p [q [[e1 e2] [e3 e4]]]]]]] ht]]]|[g [k [hP [p [q [e1 e2 ht]]]]]]].
- exists g, k; split=> //; exists p, q; rewrite mul1mx in e1; split=> //.
  by rewrite mul1mx in e3; rewrite e3 e4.
- have [a [b [eab hab]]] := gap_waves (W *m (smm_X d k0 m *m p + q)) (V *m (smm_X d k0 m *m p - q)).
  apply/IH'; exists a, b; rewrite eab hab; split=> //.
  exists g, k; split=> //; exists p, q; split; split=> //; rewrite ?mul1mx //.
Qed.

Lemma device_between Vr Vt (ls : seq (slab n)) u v u' v' :
  device_rel k0 1%:M Vg Vr Vt ls u v u' v' <-> between k0 Vr Vt ls u v u' v'.
Proof.
rewrite /device_rel /between; split.
- case=> a [b [/layers_through [g [k [[e1 e2] ht]]] [e3 e4]]]; rewrite !mul1mx in e1 e3.
  by rewrite e1 e2 -e3 -e4.
- have [g [k [egk hgk]]] := gap_waves (u + v) (Vr *m (u - v)).
  have [a [b [eab hab]]] := gap_waves (u' + v') (Vt *m (u' - v')).
  rewrite -egk -hgk -eab -hab => ht; exists a, b; split; last by split; rewrite ?mul1mx.
  by apply/layers_through; exists g, k; split=> //; split; rewrite ?mul1mx.
Qed.
End Direct.

Lemma device_unit n k0 (Wg Vg Vr Vt : 'M[C]_n) ls S : device k0 Wg Vg Vr Vt ls = Some S -> Vg \in unitmx.
Proof. by rewrite /device /ab_half /np_inv; case: ifP. Qed.

Lemma device_direct n k0 (Vg Vr Vt : 'M[C]_n) ls S : device k0 1%:M Vg Vr Vt ls = Some S ->
  forall u v u' v', scatters S u v u' v' <-> between k0 Vr Vt ls u v u' v'.
Proof. by move=> e u v u' v'; rewrite (device_scatters e) device_between //; exact: (device_unit e). Qed.

Lemma device_gap n k0 (Vg Vg' Vr Vt : 'M[C]_n) ls S S' : device k0 1%:M Vg Vr Vt ls = Some S ->
  device k0 1%:M Vg' Vr Vt ls = Some S' -> S = S'.
Proof. by move=> e e'; apply: scatters_inj => u v u' v' /(device_direct e) /(device_direct e'). Qed.

(** ** Agreement with the enhanced transmittance matrix method *)
Section Agree.
Variable pinv : forall n, 'M[C]_n -> 'M[C]_n.
Variable eig : forall n, 'M[C]_n -> 'rV[C]_n * 'M[C]_n.
Variable n : nat.
Notation stack pol kx k0 := (stack_with (step_1d pinv eig false pol kx k0)).

Definition slab_of (l : info_1d n) : slab n := (i1_W l, i1_V l, i1_q l, i1_d l).

Lemma smm_XE d k0 (q : 'rV[C]_n) : smm_X d k0 q = Xmat k0 q d.
Proof.
rewrite /smm_X /Xmat; congr diag_mx; apply/rowP => j; rewrite !mxE; congr cexp; rewrite !mulNr; congr (- _); by rewrite mulrC mulrA.
Qed.

Lemma layer_update_through (W V : 'M[C]_n) q d k0 F G T F' G' T' Ai B :
  layer_update pinv false W V (Xmat k0 q d) F G T = Some (F', G', T', Ai, B) ->
  forall t : 'cV[C]_n, let X := Xmat k0 q d in let t' := Ai *m X *m t in let b := B *m t' in
  [/\ F' *m t = W *m (t + X *m b), G' *m t = V *m (t - X *m b), W *m (X *m t + b) = F *m t',
      V *m (X *m t - b) = G *m t' & T' *m t = T *m t'].
Proof.
move: (Xmat _ _ _) => X; rewrite /layer_update /meeinv /=; case: ifP => // uW; case: ifP => // uV; case: ifP => // uA [<- <- <- <- <-] t.
set A := half *: _ in uA *; set B' := half *: _.
have two : (half : C) + half = 1 by rewrite /half; cext; rewrite /=; field.
have eF : W *m (A + B') = F.
  rewrite /A /B' -scalerDr; have -> : invmx W *m F + invmx V *m G + (invmx W *m F - invmx V *m G) = invmx W *m F + invmx W *m F by mxab.
  by rewrite scalerDr -scalerDl two scale1r mulKVmx.
have eG : V *m (A - B') = G.
  rewrite /A /B' -scalerBr; have -> : invmx W *m F + invmx V *m G - (invmx W *m F - invmx V *m G) = invmx V *m G + invmx V *m G by mxab.
  by rewrite scalerDr -scalerDl two scale1r mulKVmx.
have eA : A *m (invmx A *m X *m t) = X *m t by rewrite -!mulmxA mulKVmx.
split.
- by rewrite -mulmxA mulmxDl mul1mx !mulmxA.
- by rewrite -mulmxA mulmxBl mul1mx !mulmxA.
- by rewrite -eA -mulmxDl mulmxA eF.
- by rewrite -eA -mulmxBl mulmxA eG.
- by rewrite !mulmxA.
Qed.

Lemma stack_through pol kx k0 (ls : seq (layer n)) F0 G0 F G T infos : stack pol kx k0 ls (F0, G0, 1%:M, [::]) = Some (F, G, T, infos) ->
  forall t : 'cV[C]_n, through k0 (map slab_of (rev infos)) (F *m t) (G *m t) (F0 *m (T *m t)) (G0 *m (T *m t)).
Proof.
elim: ls F G T infos => [|l ls IH] F G T infos /=; first by case=> <- <- <- <- t /=; rewrite mul1mx.
case E: stack_with => [[[[F1 G1] T1] infos1]|] //; rewrite /step_1d.
case: transfer_1d_2 => [[[W V] q]|] //; case E2: transfer_1d_3 => [[[[[F' G'] T'] Ai] B]|] // [<- <- <- <-] t.
have [e1 e2 e3 e4 e5] := layer_update_through E2 t.
rewrite rev_rcons /= /slab_of /= smm_XE; exists t, (B *m (Ai *m Xmat k0 q (thick l) *m t)); split=> //.
by rewrite e3 e4 e5; apply: IH.
Qed.
End Agree.
