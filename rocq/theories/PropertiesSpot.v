(** Properties about layers that absorb in one place only. *)
From Coq Require Import Reals ZArith Lra Psatz.
From mathcomp Require Import all_ssreflect ssralg matrix.
From Coquelicot Require Import Complex.
From Verif Require Import Cplx Mx Spec SpecSolve SpecLayer SpecVec SpecState SpecPassive SpecAbsorb SpecStrict SpecSpot SpecJax SpecTorchObj ModelTM ModelFourier
  ModelVec ModelState ModelJax ModelTorchObj ProofLayer ProofInvert ProofPassive3 ProofEnd ProofAbsorb3 ProofAbsorb5 ProofSpot ProofSpot2 ProofSpotEx ProofPort ProofPortEx
  ProofObjEx ProofTorchPassEx ExampleKit PropertiesState PropertiesJax PropertiesTorchObj PropertiesStrict.

Set Implicit Arguments.
Unset Strict Implicit.
Unset Printing Implicit Defensive.
Local Open Scope ring_scope.
Import GRing.Theory.

(** ** C119: one absorbing pixel is enough *)

(** The matrices of a layer without gain, one pixel of which absorbs, take power out of every field; likewise a drawing. *)
Theorem C119_pixels : forall (pinv : forall n, 'M[C]_n -> 'M[C]_n) fx fy ny nx f c,
  (forall i j, (i < ny)%N -> (j < nx)%N -> passive_index (f i j)) -> absorbing_pixel ny nx f ->
  conv_continuous pinv false fx fy (Raster ny nx f) = Some c \/ conv_discrete pinv false true fx fy (Raster ny nx f) = Some c ->
  absorbing_convs c.
Proof.
move=> pinv fx fy ny nx f c hp ha; have h : all_px passive_px (Raster ny nx f) by move=> i j hi hj; apply: passive_pxE; exact: hp.
by case=> e; [exact (continuous_spot h ha e)|exact (discrete_spot h ha e)].
Qed.
Print Assumptions C119_pixels.

(** The solver object, from the cell to the report. *)
Theorem C119_object : forall (pinv : forall n, 'M[C]_n -> 'M[C]_n) eig, eigen_oracle eig ->
  forall o o' r, physical_obj o -> passive_cell_of o -> absorbing_spot_of o -> (0 < o_wavelength o)%coqR -> thick_obj o ->
  o_use_pinv o = false -> conv_solve pinv eig o = (o', Solved r) -> report_all power_lost r.
Proof. exact spot_end. Qed.
Print Assumptions C119_object.

Theorem C119_jax : forall (pinv : forall n, 'M[C]_n -> 'M[C]_n) eig broken, eigen_oracle eig ->
  forall o o' r, physical_obj o -> passive_cell_of o -> absorbing_spot_of o -> (0 < o_wavelength o)%coqR -> thick_obj o ->
  o_use_pinv o = false -> (conv_solve pinv eig o).2 <> Raised ->
  j_conv_solve pinv eig broken o = (o', Solved r) -> report_all power_lost r.
Proof. move=> pinv eig broken he o o' r hp hc hs hw ht hu hr hj; exact (spot_end he hp hc hs hw ht hu (of_jax hu hr hj)). Qed.
Print Assumptions C119_jax.

Theorem C119_torch : forall (pinv : forall n, 'M[C]_n -> 'M[C]_n) eig, eigen_oracle eig ->
  forall o c n' r, let a := t_attrs o in same_cell (t_cell o) c -> o_phi a <> Some 0 -> is_real (o_nbot a) ->
  physical_obj a -> passive_cell_of (numpy_twin c o) -> absorbing_spot_of (numpy_twin c o) -> (0 < o_wavelength a)%coqR -> thick_obj a ->
  o_use_pinv a = false -> conv_solve pinv eig (numpy_twin c o) = (n', Solved r) -> no_flat_memo (o_memo n') ->
  exists o' r', t_conv_solve pinv eig o = (o', Solved r') /\ report_all power_lost r'.
Proof.
move=> pinv eig he o c n' r a hc hph hb hp h1 h2 hw ht hu hs hf.
have hu' : o_use_pinv a = true -> pinv_oracle pinv by rewrite hu.
have [o' [r' [e hr]]] := C106_numpy_result hc hph hp hb hu' hs hf.
have hp' : physical_obj (numpy_twin c o) by case: (hp) => q1 q2 q3 [x q4] q5; split=> //; exists (- x)%coqR; rewrite /= RtoC_opp q4.
have hl := spot_end he hp' h1 h2 hw ht hu hs.
exists o', r'; split=> //.
case: hr hl => n x y z x' y' z' k1 k2 k3 [j1 j2 j3].
by split; [apply: lost_same k1 j1|apply: lost_same k2 j2|apply: lost_same k3 j3].
Qed.
Print Assumptions C119_torch.

(** Materials n - ik with n positive and k non-negative, every layer of positive thickness: the report conserves power exactly
    when no pixel absorbs. *)
Theorem C119_iff : forall (pinv : forall n, 'M[C]_n -> 'M[C]_n) eig, eigen_oracle eig ->
  forall o o' r ny nx layers ts, physical_obj o -> o_cell o = CRaster ny nx layers -> o_fourier_type o = 1%Z \/ o_enhanced o = true ->
  (forall f, List.In f layers -> forall i j, (i < ny)%N -> (j < nx)%N -> (0 < Re (f i j) /\ Im (f i j) <= 0)%coqR) ->
  o_thickness o = A1 ts -> size ts = size layers -> (forall t, List.In t ts -> (0 < t)%coqR) -> (0 < o_wavelength o)%coqR ->
  o_use_pinv o = false -> conv_solve pinv eig o = (o', Solved r) -> report_some r ->
  report_all power_conserved r <-> (forall f, List.In f layers -> forall i j, (i < ny)%N -> (j < nx)%N -> Im (f i j) = 0%coqR).
Proof.
move=> pinv eig he o o' r ny nx layers ts hp hc hft hm hts hsz hpos hw hu hs hr.
have sq (z : C) : Im (z ^+ 2) = (2 * Re z * Im z)%coqR by rewrite expr2 ImM; ring.
split=> [hcons f hf i j hi hj|hreal].
- have [h1 h2] := hm f hf i j hi hj; case: (Req_EM_T (Im (f i j)) 0) => // hne; exfalso.
  have [k hk] := List.In_nth_error _ _ hf.
  have hkt : (k < size ts)%N by rewrite hsz; apply/ltP; apply/List.nth_error_Some; rewrite hk.
  have [t ht] : exists t, List.nth_error ts k = Some t.
    by case e: (List.nth_error ts k) => [t|]; [exists t|move/List.nth_error_None/leP: e; rewrite leqNgt hkt].
  have hl : report_all power_lost r.
    apply: (spot_end he hp _ _ hw _ hu hs).
    + rewrite /passive_cell_of hc => g hg a b ha hb; have [q1 q2] := hm g hg a b ha hb.
      by rewrite /passive_index sq; nra.
    + exists k, ts, t; split=> //; first exact: hpos (List.nth_error_In _ _ ht).
      rewrite hc; split=> //; exists f => //; exists i, j; split=> //.
      by rewrite /absorbing_index sq; nra.
    + by move=> us u; rewrite hts => -[<-] /hpos; lra.
  case: r hr hcons hl {hs} => n a b c [d ->] [k1 _ _] [l1 _ _].
  have := k1 d erefl; have := l1 d erefl; rewrite /power_lost /power_conserved; lra.
apply: (C49_energy he hp _ hu hs); rewrite /real_cell_of hc => f hf i j hi hj.
have := hreal f hf i j hi hj; case: (f i j) => x y; rewrite /Im /= => ->; rewrite /conj /Cconj /=; congr (_, _); exact: Ropp_0.
Qed.
Print Assumptions C119_iff.

(** Any number of pixels, any number of orders: air, one pixel (column) of index 2 - i, air. *)
Example C119_pixels_ex pinv fx fy ny nx : (0 < ny)%N -> (1 < nx)%N -> exists c c',
  [/\ conv_continuous pinv false fx fy (Raster ny nx dot_ex) = Some c, absorbing_convs c,
      conv_discrete pinv false true fx fy (Raster ny nx dot_ex) = Some c' & absorbing_convs c'].
Proof.
move=> hy hx; have n1 : nrm2 (1 : C) = 1%coqR by rewrite /nrm2 /Re /Im /=; ring.
have hf : all_px (fun n => 0 < Re (1 * n ^+ 2)%R)%coqR (Raster ny nx dot_ex) by move=> i j _ _; exact: dot_forward.
have [ex [ey [ez [e _ _ _]]]] := @continuous_defined pinv fx fy (Raster ny nx dot_ex) 1 hy (ltnW hx) n1 hf.
have [ex' [ey' [ez' [e' _ _ _]]]] := @discrete_defined pinv true fx fy (Raster ny nx dot_ex) 1 hy (ltnW hx) n1 hf.
have hp i j : (i < ny)%N -> (j < nx)%N -> passive_index (dot_ex i j) by move=> _ _; exact: dot_passive.
exists (ex, ey, invmx ez), (ex', ey', invmx ez'); split=> //.
- by exact (C119_pixels hp (dot_spot hy hx) (or_introl e)).
by exact (C119_pixels hp (dot_spot hy hx) (or_intror e')).
Qed.

Example C119_object_ex pinv nx : (1 < nx)%N -> let o := dot_at nx 0 in
  [/\ physical_obj o, passive_cell_of o, absorbing_spot_of o & thick_obj o] /\
  exists o' (r : diffraction 1), conv_solve pinv eig_ex o = (o', Solved (Report (Some r) None None)) /\ power_lost r.
Proof.
move=> hx o; have r0 : is_real (0 : C) by exists 0%coqR.
have h := dot_ok hx r0; split=> //; case: h => h1 h2 h3 h4.
have [o' [r e]] := dot_run pinv 0 hx; exists o', r; split=> //.
have [h _ _] := C119_object eig_ex_ok h1 h2 h3 Rlt_0_1 h4 erefl e.
exact: h.
Qed.

Example C119_jax_ex pinv broken nx : (1 < nx)%N -> let o := dot_at nx 0 in
  (conv_solve pinv eig_ex o).2 <> Raised /\
  exists o' (r : diffraction 1), j_conv_solve pinv eig_ex broken o = (o', Solved (Report (Some r) None None)) /\ power_lost r.
Proof.
move=> hx o; have r0 : is_real (0 : C) by exists 0%coqR.
have [h1 h2 h3 h4] := dot_ok hx r0; have [o' [r e]] := dot_run pinv 0 hx.
have hr : (conv_solve pinv eig_ex o).2 <> Raised by rewrite e.
have [_ ej] := to_jax broken (o := o) erefl e.
split=> //; exists o', r; split=> //.
have [h _ _] := C119_jax eig_ex_ok h1 h2 h3 Rlt_0_1 h4 erefl hr ej.
exact: h.
Qed.

Example C119_torch_ex pinv nx : (1 < nx)%N -> let o := dot_t nx 0 in let c := CRaster 1 nx [:: dot_ex] in
  exists n' r o' r', [/\ same_cell (t_cell o) c, o_phi (t_attrs o) <> Some 0, physical_obj (t_attrs o), passive_cell_of (numpy_twin c o)
    & absorbing_spot_of (numpy_twin c o)] /\
  [/\ conv_solve pinv eig_ex (numpy_twin c o) = (n', Solved r), no_flat_memo (o_memo n'),
      t_conv_solve pinv eig_ex o = (o', Solved r') & report_all power_lost r'].
Proof.
move=> hx o c; have r0 : is_real (0 : C) by exists 0%coqR.
have rn : is_real (- 0 : C) by exists 0%coqR; rewrite oppr0.
have [n' [r e]] := dot_run pinv (- 0) hx.
have [_ h2 h3 h4] := dot_ok hx rn; have [k3 _ _ _] := dot_ok hx r0.
have k1 : same_cell (t_cell o) c by constructor.
have k2 : o_phi (t_attrs o) <> Some 0 by [].
have k4 : is_real (o_nbot (t_attrs o)) by exists 2%coqR.
have e' : conv_solve pinv eig_ex (numpy_twin c o) = (n', Solved (Report (Some r) None None)) := e.
have hf : no_flat_memo (o_memo n').
  by apply: (classical_no_flat _ e'); apply: (@P1d _ nx [:: dot_ex]) => //; [left|exists 0%N].
have [o' [r' [ej hl]]] := @C119_torch pinv eig_ex eig_ex_ok o c _ _ k1 k2 k4 k3 h2 h3 Rlt_0_1 h4 erefl e' hf.
by exists n', (Report (Some r) None None), o', r'.
Qed.

(** The absorbing line is what loses the power. *)
Example C119_iff_ex pinv nx : (1 < nx)%N -> exists o' (r : diffraction 1),
  conv_solve pinv eig_ex (dot_at nx 0) = (o', Solved (Report (Some r) None None)) /\ ~ power_conserved r.
Proof.
move=> hx; have r0 : is_real (0 : C) by exists 0%coqR.
have [h1 h2 h3 h4] := dot_ok hx r0; have [o' [r e]] := dot_run pinv 0 hx; exists o', r; split=> // hc.
have hm f : List.In f [:: dot_ex] -> forall i j, (i < 1)%N -> (j < nx)%N -> (0 < Re (f i j) /\ Im (f i j) <= 0)%coqR.
  by move=> /= [<-|//] i j _ _; rewrite /dot_ex; case: eqP => _; rewrite /nab /Re /Im /=; lra.
have ht t : List.In t [:: 3%coqR] -> (0 < t)%coqR by move=> /= [<-|//]; lra.
have hr : report_some (Report (Some r) None None) by exists r.
have [h _] := C119_iff eig_ex_ok h1 (o := dot_at nx 0) erefl (or_intror erefl) hm erefl erefl ht Rlt_0_1 erefl e hr.
have {}hc : report_all power_conserved (Report (Some r) None None) by split=> // d [<-].
have := h hc dot_ex (or_introl erefl) 0%N 1%N isT hx; rewrite /dot_ex /= /nab /Im /=; lra.
Qed.
