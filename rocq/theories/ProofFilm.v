(** Stacks of unpatterned films: the solver decouples into scalar film problems, one per order. *)
From Coq Require Import Reals Lra Psatz.
From mathcomp Require Import all_ssreflect ssralg matrix mxalgebra.
From Coquelicot Require Import Complex.
From Verif Require Import Cplx Mx Spec ModelTM SpecSolve SpecFilm ProofFlux ProofEnergy1D.

Set Implicit Arguments.
Unset Strict Implicit.
Unset Printing Implicit Defensive.
Local Open Scope ring_scope.
Import GRing.Theory.

Lemma inv_eq n (A B : 'M[C]_n) : A *m B = 1%:M -> invmx A = B.
Proof. by move=> h; have [uA _] := mulmx1_unit h; rewrite -[RHS](mulKmx uA) h mulmx1. Qed.

Lemma reqb01 : reqb 0 1 = false.
Proof. by rewrite /reqb; case: Req_EM_T => // h; lra. Qed.

Lemma Ctwo_neq0 : (2%:R : C) != 0.
Proof. by rewrite (_ : 2%:R = RtoC 2); [apply: RtoC_neq0; lra | cext]. Qed.

Section DiagInv.
Variable n : nat.
Implicit Types f g : nat -> C.

Lemma diagf_unit f : (diagf n f \in unitmx) = [forall i : 'I_n, f i != 0].
Proof.
rewrite unitmxE /diagf det_diag unitfE prodf_seq_neq0.
apply/allP/forallP => h i; first by have := h i (mem_index_enum i); rewrite mxE.
by move=> _; rewrite mxE /=; apply: h.
Qed.

Lemma diagf_inv f : diagf n f \in unitmx -> invmx (diagf n f) = diagf n (fun i => (f i)^-1).
Proof.
move=> u; have h := u; rewrite diagf_unit in h; move/forallP: h => h.
rewrite -[RHS](mulKmx u) diagfM.
rewrite (@diagf_eq n (fun i => f i / f i) (fun _ => 1)) ?diagf1 ?mulmx1 // => i li.
by rewrite mulfV //; apply: (h (Ordinal li)).
Qed.

Lemma diagf_nz f (i : 'I_n) : diagf n f \in unitmx -> f i != 0.
Proof. by rewrite diagf_unit => /forallP. Qed.
End DiagInv.

Lemma unitmx_split n (A B : 'M[C]_n) : A *m B \in unitmx -> A \in unitmx /\ B \in unitmx.
Proof. by rewrite unitmx_mul => /andP. Qed.

Section Film.
Variable pinv : forall n, 'M[C]_n -> 'M[C]_n.
Variable eig : forall n, 'M[C]_n -> 'rV[C]_n * 'M[C]_n.
Hypothesis heig : eig_ok eig.
Variable n : nat.
Variable kx : nat -> C.
Variable k0 : R.

(** Any function of the eigenvalues of a diagonal matrix is the same function of its entries. *)
Lemma eig_diag_fun (D : nat -> C) W (lam : 'rV[C]_n) (phi : C -> C) :
  diagf n D *m W = W *m diag_mx lam ->
  diagf n (fun i => phi (D i)) *m W = W *m diag_mx (map_mx phi lam).
Proof.
move=> h; apply/matrixP => i j; rewrite mul_mx_diag /diagf mul_diag_mx !mxE.
have := congr1 (fun A : 'M_n => A i j) h; rewrite mul_mx_diag /diagf mul_diag_mx !mxE => e.
case: (eqVneq (W i j) 0) => [->|nz]; first by rewrite mulr0 mul0r.
by rewrite mulrC in e; rewrite (mulfI nz e) mulrC.
Qed.

(** One step on diagonal data carried by an invertible matrix. *)
Lemma diag_step (W V X P F G T F' G' T' Ai B : 'M[C]_n) (y x f g t : nat -> C) :
  F = diagf n f *m P -> G = diagf n g *m P -> T = diagf n t *m P ->
  V = diagf n y *m W -> diagf n x *m W = W *m X ->
  layer_update pinv false W V X F G T = Some (F', G', T', Ai, B) ->
  let a i := half * (f i + g i / y i) in
  let b i := half * (f i - g i / y i) in
  [/\ forall i : 'I_n, y i != 0, forall i : 'I_n, a i != 0,
      F' = diagf n (fun i => 1 + x i * b i / a i * x i) *m W,
      G' = diagf n (fun i => y i * (1 - x i * b i / a i * x i)) *m W
    & T' = diagf n (fun i => t i / a i * x i) *m W].
Proof.
move=> eF eG eT eV eX /layer_update_some [[uW uV uA eA eB] [eF' eG' eT']] a b.
have uy : diagf n y \in unitmx by move: uV; rewrite eV => /unitmx_split [].
have iV : invmx V = invmx W *m diagf n (fun i => (y i)^-1).
  by apply: inv_eq; rewrite -diagf_inv // eV -!mulmxA mulKVmx // mulmxV.
have eAm : modeA W V F G = invmx W *m (diagf n a *m P).
  rewrite /modeA iV eF eG -!mulmxA -mulmxDr scalemxAr; congr (_ *m _).
  rewrite !mulmxA diagfM -mulmxDl diagfD scalemxAl diagfZ; congr (_ *m _).
  by apply: diagf_eq => i li; rewrite /a [_^-1 * _]mulrC.
have eBm : modeB W V F G = invmx W *m (diagf n b *m P).
  rewrite /modeB iV eF eG -!mulmxA -mulmxBr scalemxAr; congr (_ *m _).
  rewrite !mulmxA diagfM -mulmxBl diagfN diagfD scalemxAl diagfZ; congr (_ *m _).
  by apply: diagf_eq => i li; rewrite /b [_^-1 * _]mulrC.
have [_ /unitmx_split [ua uP]] : invmx W \in unitmx /\ diagf n a *m P \in unitmx.
  by apply: unitmx_split; rewrite -eAm.
have iA : Ai = invmx P *m diagf n (fun i => (a i)^-1) *m W.
  by rewrite eA; apply: inv_eq; rewrite -diagf_inv // eAm -!mulmxA mulKVmx // mulKVmx // mulVmx.
have eXi (Z : 'M[C]_n) : X *m (invmx W *m Z) = invmx W *m (diagf n x *m Z).
  by rewrite -[X in X *m (invmx W *m Z)](mulKmx uW) -eX -!mulmxA mulKVmx.
have key : X *m B *m Ai *m X = invmx W *m (diagf n (fun i => x i * b i / a i * x i) *m W).
  rewrite eB eBm iA -!mulmxA eXi; congr (_ *m _).
  by rewrite mulKVmx // -eX !mulmxA !diagfM.
split.
- by move=> i; apply: diagf_nz uy.
- by move=> i; apply: diagf_nz ua.
- by rewrite eF' key mulmxDr mulmx1 mulKVmx // -{1}[W]mul1mx -mulmxDl -diagf1 diagfD.
- rewrite eG' key eV -mulmxA mulmxBr mulmx1 mulKVmx // -{1}[W]mul1mx -mulmxBl mulmxA -diagf1 diagfN diagfD diagfM.
  by [].
- rewrite eT' eT iA -!mulmxA mulKVmx // -eX !mulmxA !diagfM; congr (_ *m _).
Qed.

(** The four ways the solver describes an unpatterned film. *)
Definition film_layer (ed : C * R) : layer n :=
  Layer (ed.1%:M : 'M[C]_n) (ed.1%:M) ((ed.1)^-1)%:M ed.2.

Lemma scalar_diagf (c : C) : c%:M = diagf n (fun _ => c).
Proof. by apply/matrixP => i j; rewrite !mxE. Qed.

Lemma film_modes (pol : R) ed W V q :
  transfer_1d_2 pinv eig false pol kx (epx (film_layer ed)) (epy (film_layer ed)) (epzi (film_layer ed)) =
    Some (W, V, q) ->
  let qf i := csqrt (kx i ^+ 2 - ed.1) in
  [/\ (pol = 0%coqR \/ pol = 1%coqR),
      V = diagf n (fun i => admittance (reqb pol 1) ed.1 (qf i)) *m W
    & forall d, diagf n (fun i => cexp (- RtoC k0 * qf i * RtoC d)) *m W = W *m Xmat k0 q d].
Proof.
rewrite /transfer_1d_2 /=.
set D := fun i : nat => kx i ^+ 2 - ed.1.
have fin (B : 'M[C]_n) : B = diagf n D -> forall lam W0, eig B = (lam, W0) ->
   diagf n (fun i => csqrt (D i)) *m W0 = W0 *m diag_mx (sqrtv lam) /\
   forall d, diagf n (fun i => cexp (- RtoC k0 * csqrt (D i) * RtoC d)) *m W0 = W0 *m Xmat k0 (sqrtv lam) d.
  move=> eB lam W0 e; have := heig B; rewrite e /= eB => h.
  split; first exact: (eig_diag_fun csqrt h).
  move=> d; rewrite (eig_diag_fun (fun z => cexp (- RtoC k0 * csqrt z * RtoC d)) h).
  by congr (_ *m diag_mx _); apply/rowP => j; rewrite !mxE.
case: ifP => [/reqbP ->|_].
  case e: (eig _) => [lam W0] [<- <- <-].
  have eB : diagf n kx *m diagf n kx - ed.1%:M = diagf n D.
    by rewrite scalar_diagf diagfM diagfN diagfD; apply: diagf_eq => i _; rewrite /D expr2.
  have [h1 h2] := fin _ eB _ _ e.
  split; [by left | | exact: h2].
  by rewrite -h1 /admittance reqb01.
case: ifP => // /reqbP ->.
case e: (eig _) => [lam W0].
case hE: (meeinv pinv false _) => [Ei|] // [<- <- <-].
have [uE eE] := meeinv_some hE.
case: (posnP n) => [n0|n0].
  split; [by right | |].
    by apply/matrixP => i; case: i => i hi; exfalso; rewrite n0 in hi.
  by move=> d; apply/matrixP => i; case: i => i hi; exfalso; rewrite n0 in hi.
have ez : ed.1 != 0.
  by move: uE; rewrite scalar_diagf => /(@diagf_nz n _ (Ordinal n0)).
have eB : (ed.1)%:M *m (diagf n kx *m ((ed.1)^-1)%:M *m diagf n kx - 1%:M) = diagf n D.
  rewrite !scalar_diagf !diagfM diagfN diagfD diagfM; apply: diagf_eq => i _.
  rewrite /D mulrDr mulrN mulr1 expr2; congr (_ - _).
  by rewrite mulrAC mulrCA mulfV // mulr1.
have [h1 h2] := fin _ eB _ _ e.
split; [by right | | exact: h2].
have uE' := uE; rewrite scalar_diagf in uE'.
rewrite -mulmxA -h1 eE scalar_diagf (diagf_inv uE') mulmxA diagfM; congr (_ *m _).
by apply: diagf_eq => i _; rewrite /admittance mulrC.
Qed.

(** Scalar identity behind one step: it is the film's characteristic matrix up to a common factor. *)
Lemma film_step_scalar (ph y f g s E H : C) :
  y != 0 -> s != 0 -> f = E / s -> g = H / s ->
  let x := cexp (- ph) in
  let a := half * (f + g / y) in let b := half * (f - g / y) in
  a != 0 ->
  let s' := s * a / x in
  [/\ s' != 0, 1 + x * b / a * x = (film_matrix ph y (E, H)).1 / s'
    & y * (1 - x * b / a * x) = (film_matrix ph y (E, H)).2 / s'].
Proof.
move=> y0 s0 ef eg x a b a0 s'.
have x0 : x != 0 by apply: cexp_neq0.
have s'0 : s' != 0 by exact: mulf_neq0 (mulf_neq0 s0 a0) (invr_neq0 x0).
have two := Ctwo_neq0.
have ex : cexp ph = x^-1 by rewrite /x cexpN invrK.
have hb : (half : C) = 2%:R^-1.
  apply: (mulIf two); rewrite mulVf // -[2%:R]/(1 + 1 : C) mulrDr mulr1; exact: half_half.
have fE : f * s = E by rewrite ef mulfVK.
have gE : g * s = H by rewrite eg mulfVK.
have dv : a + b = f by rewrite /a /b -mulrDr addrACA subrr addr0 mulrDr -mulrDl half_half mul1r.
have dg : (a - b) * y = g.
  rewrite /a /b -mulrBr opprB addrC addrA subrK mulrDr -mulrDl half_half mul1r mulfVK //.
split => //.
- apply: (mulIf s'0); rewrite [RHS]mulfVK // /film_matrix /ccosh /csinh -/x ex /= -fE -gE -dv -dg /s' -hb.
  have -> : (x^-1 - x) * half / y * ((a - b) * y * s) = half * (x^-1 - x) * (a - b) * s * (y / y).
    by set yi := y^-1; set xi := x^-1; cring.
  rewrite mulfV // mulr1 [(1 + _) * _]mulrDl mul1r.
  have -> : x * b / a * x * (s * a / x) = x * b * s * (a / a) * (x / x).
    by set ai := a^-1; set xi := x^-1; cring.
  rewrite !mulfV // !mulr1.
  set xi := x^-1.
  transitivity ((half + half) * (s * a * xi) + (half + half) * (x * b * s)); first by rewrite half_half !mul1r.
  by cring.
- apply: (mulIf s'0); rewrite [RHS]mulfVK // /film_matrix /ccosh /csinh -/x ex /= -fE -gE -dv -dg /s' -hb.
  rewrite [y * (1 - _)]mulrBr mulr1 [(y - _) * _]mulrBl.
  have -> : y * (x * b / a * x) * (s * a / x) = y * x * b * s * (a / a) * (x / x).
    by set ai := a^-1; set xi := x^-1; cring.
  rewrite !mulfV // !mulr1.
  set xi := x^-1.
  transitivity ((half + half) * (y * (s * a * xi)) - (half + half) * (y * x * b * s)); first by rewrite half_half !mul1r.
  by cring.
Qed.

Definition stackE (pol : R) (films : seq (C * R)) (yb : nat -> C) (i : nat) : C * C :=
  film_stack (reqb pol 1) k0 (kx i) films (yb i).

Lemma film_run (pol : R) (films : seq (C * R)) (yb : nat -> C) F' G' T' infos :
  stack_with (step_1d pinv eig false pol kx k0) (map film_layer films)
    (1%:M, diagf n yb, 1%:M, [::]) = Some (F', G', T', infos) ->
  exists (P : 'M[C]_n) (s : nat -> C),
  [/\ P \in unitmx, forall i : 'I_n, s i != 0,
      F' = diagf n (fun i => (stackE pol films yb i).1 / s i) *m P,
      G' = diagf n (fun i => (stackE pol films yb i).2 / s i) *m P
    & T' = diagf n (fun i => (s i)^-1) *m P].
Proof.
elim: films F' G' T' infos => [|ed fs IH] F' G' T' infos /=.
  case=> <- <- <- _; exists 1%:M, (fun _ => 1); rewrite !mulmx1; split.
  - exact: unitmx1.
  - by move=> i; apply: oner_neq0.
  - by rewrite -diagf1; apply: diagf_eq => i _; rewrite invr1 mulr1.
  - by apply: diagf_eq => i _; rewrite invr1 mulr1.
  - by rewrite -diagf1; apply: diagf_eq => i _; rewrite invr1.
case hs: (stack_with _ _ _) => [[[[F1 G1] T1] is1]|] //.
have [P [s [uP s0 eF eG eT]]] := IH _ _ _ _ hs.
rewrite /step_1d; case hm: (transfer_1d_2 _ _ _ _ _ _ _ _) => [[[W V] q]|] //.
have [hpol eV eX] := film_modes hm.
rewrite /transfer_1d_3; case hu: (layer_update _ _ _ _ _ _ _ _) => [[[[[F2 G2] T2] Ai] B]|] // [<- <- <- _].
have [y0 a0 eF2 eG2 eT2] := diag_step eF eG eT eV (eX _) hu.
set qf := fun i => csqrt (kx i ^+ 2 - ed.1) in eV eX y0 a0 eF2 eG2 eT2.
set y := fun i => admittance (reqb pol 1) ed.1 (qf i).
set ph := fun i => RtoC k0 * qf i * RtoC ed.2.
have exq i : cexp (- RtoC k0 * qf i * RtoC (thick (film_layer ed))) = cexp (- ph i).
  by congr cexp; rewrite /ph /= !mulNr.
pose a i := half * ((stackE pol fs yb i).1 / s i + (stackE pol fs yb i).2 / s i / y i).
exists W, (fun i => s i * a i / cexp (- ph i)).
have main (i : 'I_n) := film_step_scalar (ph i) (y0 i) (s0 i) erefl erefl (a0 i).
split.
- by have [[]] := layer_update_some hu.
- by move=> i; have [] := main i.
- rewrite eF2; congr (_ *m _); apply: diagf_eq => i li.
  by have [_ e _] := main (Ordinal li); rewrite exq; exact: e.
- rewrite eG2; congr (_ *m _); apply: diagf_eq => i li.
  by have [_ _ e] := main (Ordinal li); rewrite exq; exact: e.
- rewrite eT2; congr (_ *m _); apply: diagf_eq => i li.
  by rewrite exq !invfM invrK.
Qed.

(** Closing the stack: the amplitudes of a film stack order by order. *)
Lemma film_close (y0 : nat -> C) (inc : C) (P F G T M : 'M[C]_n) (E H s : nat -> C) :
  (forall i : 'I_n, s i != 0) ->
  F = diagf n (fun i => E i / s i) *m P -> G = diagf n (fun i => H i / s i) *m P ->
  T = diagf n (fun i => (s i)^-1) *m P ->
  G + diagf n y0 *m F \in unitmx -> M = invmx (G + diagf n y0 *m F) ->
  let T1 := M *m (diagf n y0 *m delta_i0 n + inc *: delta_i0 n) in
  forall i : 'I_n, [/\ y0 i * E i + H i != 0,
    (F *m T1 - delta_i0 n) i ord0 =
      (if i == (n %/ 2)%N :> nat then E i * ((y0 i + inc) / (y0 i * E i + H i)) - 1 else 0)
  & (T *m T1) i ord0 =
      (if i == (n %/ 2)%N :> nat then (y0 i + inc) / (y0 i * E i + H i) else 0)].
Proof.
move=> s0 eF eG eT uM eM T1.
set D := fun i => (y0 i * E i + H i) / s i.
have eD : G + diagf n y0 *m F = diagf n D *m P.
  rewrite eF eG mulmxA diagfM -mulmxDl diagfD; congr (_ *m _); apply: diagf_eq => i _.
  by rewrite /D mulrDl addrC mulrA.
have [uD uP] : diagf n D \in unitmx /\ P \in unitmx by apply: unitmx_split; rewrite -eD.
have ePT : P *m T1 = diagf n (fun i => (D i)^-1) *m (diagf n (fun i => y0 i + inc) *m delta_i0 n).
  rewrite -diagf_inv // /T1 eM eD.
  have -> : invmx (diagf n D *m P) = invmx P *m invmx (diagf n D).
    by apply: inv_eq; rewrite -mulmxA mulKVmx // mulmxV.
  rewrite -mulmxA mulKVmx //; congr (_ *m _).
  by rewrite -diagfD mulmxDl -(scalar_diagf inc) mul_scalar_mx.
have ent i : (P *m T1) i ord0 = (if i == (n %/ 2)%N :> nat then (y0 i + inc) / D i else 0).
  rewrite ePT mulmxA diagfM /diagf mul_diag_mx !mxE.
  by case: eqP => _; rewrite ?mulr1 ?mulr0 // mulrC.
move=> i; have d0 : D i != 0 by apply: diagf_nz uD.
have q0 : y0 i * E i + H i != 0.
  by apply/eqP => z; move: d0; rewrite /D z mul0r eqxx.
split => //.
- rewrite eF -mulmxA mxE /diagf mul_diag_mx !mxE.
  have -> : \sum_(j < n) P i j * T1 j ord0 = (P *m T1) i ord0 by rewrite mxE.
  rewrite ent; case: ifP => _; last by rewrite mulr0 subr0.
  congr (_ - _); rewrite /D invfM invrK -!mulrA; congr (_ * _).
  by rewrite mulrC -!mulrA mulfV ?mulr1.
- rewrite eT -mulmxA /diagf mul_diag_mx !mxE.
  have -> : \sum_(j < n) P i j * T1 j ord0 = (P *m T1) i ord0 by rewrite mxE.
  rewrite ent; case: ifP => _; last by rewrite mulr0.
  by rewrite /D invfM invrK mulrC -!mulrA mulfV ?mulr1.
Qed.

(** Amplitudes of the polarisation that is solved, and of the other one. *)
Definition amp_R (pol : R) (r : diffraction n) := if reqb pol 1 then R_p r else R_s r.
Definition amp_T (pol : R) (r : diffraction n) := if reqb pol 1 then T_p r else T_s r.
Definition other_R (pol : R) (r : diffraction n) := if reqb pol 1 then R_s r else R_p r.
Definition other_T (pol : R) (r : diffraction n) := if reqb pol 1 then T_s r else T_p r.

Theorem film_rcwa_1d (pol : R) (theta nt nb : C) (films : seq (C * R)) r T1 infos :
  rcwa_1d pinv eig false pol kx k0 theta nt nb (map film_layer films) = Some (r, T1, infos) ->
  let tm := reqb pol 1 in
  let y0 i := admittance tm (nt ^+ 2) (ci * kz_1d nt kx i) in
  let yb i := admittance tm (nb ^+ 2) (ci * kz_1d nb kx i) in
  let inc := if tm then ci * ccos theta / nt else ci * nt * ccos theta in
  let EH i := film_stack tm k0 (kx i) films (yb i) in
  (pol = 0%coqR \/ pol = 1%coqR) /\ other_R pol r = 0 /\ other_T pol r = 0 /\
  forall i : 'I_n, [/\ y0 i * (EH i).1 + (EH i).2 != 0,
    amp_R pol r i ord0 = (if i == (n %/ 2)%N :> nat
      then (EH i).1 * ((y0 i + inc) / (y0 i * (EH i).1 + (EH i).2)) - 1 else 0)
  & amp_T pol r i ord0 = (if i == (n %/ 2)%N :> nat
      then (y0 i + inc) / (y0 i * (EH i).1 + (EH i).2) else 0)].
Proof.
rewrite /rcwa_1d /transfer_1d_1.
case: ifP => [/reqbP ->|_].
  rewrite diagfZ.
  case hs: (stack_with _ _ _) => [[[[F G] T] is']|] //.
  have [P [s [uP s0 eF eG eT]]] := film_run hs.
  rewrite /transfer_1d_4 reqb_refl diagfZ.
  case hM: (meeinv pinv false (G + _)) => [M|] //; have [uM eM] := meeinv_some hM.
  case=> <- _ _; rewrite /amp_R /amp_T /other_R /other_T reqb01 /=.
  split; first by left.
  split=> //; split=> //.
  move=> i; have := film_close (ci * nt * ccos theta) s0 eF eG eT uM eM i.
  by rewrite /stackE reqb01.
case: ifP => // /reqbP ->.
rewrite diagfZ.
case hs: (stack_with _ _ _) => [[[[F G] T] is']|] //.
have [P [s [uP s0 eF eG eT]]] := film_run hs.
rewrite /transfer_1d_4 reqb10 reqb_refl diagfZ.
case hM: (meeinv pinv false (G + _)) => [M|] //; have [uM eM] := meeinv_some hM.
case=> <- _ _; rewrite /amp_R /amp_T /other_R /other_T reqb_refl /=.
split; first by right.
split=> //; split=> //.
move=> i; have [d0 e1 e2] := film_close (ci * ccos theta / nt) s0 eF eG eT uM eM i.
rewrite /stackE reqb_refl in d0 e1 e2.
have ey j : ci / nt ^+ 2 * kz_1d nt kx j = admittance true (nt ^+ 2) (ci * kz_1d nt kx j).
  by rewrite /admittance mulrAC.
have eb j : ci * (kz_1d nb kx j / nb ^+ 2) = admittance true (nb ^+ 2) (ci * kz_1d nb kx j).
  by rewrite /admittance mulrA.
by rewrite !ey !eb in d0 e1 e2.
Qed.

End Film.
