From Coq Require Import Reals Lra Psatz.
From mathcomp Require Import all_ssreflect ssralg matrix mxalgebra.
From Coquelicot Require Import Complex.
From Verif Require Import Cplx Mx ModelSMM SpecSMM.

Set Implicit Arguments.
Unset Strict Implicit.
Unset Printing Implicit Defensive.
Local Open Scope ring_scope.
Import GRing.Theory.

Lemma np_invP n (A Ai : 'M[C]_n) : np_inv A = Some Ai -> A \in unitmx /\ Ai = invmx A.
Proof. by rewrite /np_inv; case: ifP => // u [<-]. Qed.

Section Star.
Variable n : nat.
Implicit Types A B S : smat n.

(** Sylvester: 1 - XY is invertible iff 1 - YX is. *)
Lemma unit_swap (X Y : 'M[C]_n) : 1%:M - X *m Y \in unitmx -> 1%:M - Y *m X \in unitmx.
Proof.
move=> u; have h : (1%:M - Y *m X) *m (1%:M + Y *m invmx (1%:M - X *m Y) *m X) = 1%:M.
  rewrite mulmxDr mulmx1 !mulmxBl !mul1mx.
  have -> : Y *m X *m (Y *m invmx (1%:M - X *m Y) *m X) = Y *m (X *m Y *m invmx (1%:M - X *m Y)) *m X by rewrite !mulmxA.
  have e : X *m Y *m invmx (1%:M - X *m Y) = invmx (1%:M - X *m Y) - 1%:M.
    apply/eqP; rewrite eq_sym subr_eq -[X in _ == X](addrC 1%:M) -subr_eq0 opprD addrCA addrC -subr_eq0 oppr0 addr0.
    have e1 := mulmxV u; rewrite mulmxBl mul1mx in e1; rewrite -[X in _ - X]e1; apply/eqP; mxab.
  rewrite e mulmxBr mulmxBl mulmx1; mxab.
by case: (mulmx1_unit h).
Qed.

Lemma starE A B : star A B = if 1%:M - S11 B *m S22 A \in unitmx then
  Some (Smat (S11 A + S12 A *m invmx (1%:M - S11 B *m S22 A) *m S11 B *m S21 A) (S12 A *m invmx (1%:M - S11 B *m S22 A) *m S12 B)
        (S21 B *m invmx (1%:M - S22 A *m S11 B) *m S21 A) (S22 B + S21 B *m invmx (1%:M - S22 A *m S11 B) *m S22 A *m S12 B))
  else None.
Proof. by rewrite /star /np_inv; case: ifP => // u; rewrite (unit_swap u). Qed.

Lemma solve_inv (M : 'M[C]_n) (x y : 'cV[C]_n) : M \in unitmx -> M *m x = y -> x = invmx M *m y.
Proof. by move=> u <-; rewrite mulKmx. Qed.

Lemma star_rel A B S : star A B = Some S -> forall u v u' v',
  scatters S u v u' v' <-> stacked (scatters A) (scatters B) u v u' v'.
Proof.
rewrite starE; case: ifP => // uD [<-] u v u' v'; have uF := unit_swap uD.
set D := 1%:M - S11 B *m S22 A in uD *; set F := 1%:M - S22 A *m S11 B in uF *.
have fwd : forall g h, g = S21 A *m u + S22 A *m h -> h = S11 B *m g + S12 B *m v' ->
    h = invmx D *m (S11 B *m S21 A *m u + S12 B *m v') /\ g = invmx F *m (S21 A *m u + S22 A *m S12 B *m v').
  move=> g h eg eh; split; apply: solve_inv => //.
  - rewrite /D mulmxBl mul1mx {1}eh {1}eg mulmxDr !mulmxA; mxab.
  - rewrite /F mulmxBl mul1mx {1}eg {1}eh mulmxDr !mulmxA; mxab.
split=> [[/= ev eu']|[g [h [[/= ev eg] [/= eh eu']]]]]; last first.
  have [eh' eg'] := fwd g h eg eh; split=> /=.
  - by rewrite ev eh' mulmxDr !mulmxDl !mulmxA mulmxDr !mulmxA addrA.
  - rewrite eu' eg' mulmxDr !mulmxDl !mulmxA mulmxDr !mulmxA; mxab.
pose h := invmx D *m (S11 B *m S21 A *m u + S12 B *m v').
pose g := S21 A *m u + S22 A *m h.
have eh : h = S11 B *m g + S12 B *m v'.
  have : D *m h = S11 B *m S21 A *m u + S12 B *m v' by rewrite /h mulKVmx.
  rewrite /g; move: (h) => k; rewrite /D mulmxBl mul1mx mulmxDr !mulmxA => e.
  by rewrite -{1}[k](subrK (S11 B *m S22 A *m k)) e addrAC.
have [_ eg'] := fwd g h erefl eh.
exists g, h; split; split=> //=.
- by rewrite ev /h mulmxDr !mulmxDl !mulmxA mulmxDr !mulmxA addrA.
- rewrite eu' eg' mulmxDr !mulmxDl !mulmxA mulmxDr !mulmxA; mxab.
Qed.

(** A scattering matrix is determined by the component it describes. *)
Lemma scatters_inj S S' : (forall u v u' v', scatters S u v u' v' -> scatters S' u v u' v') -> S = S'.
Proof.
move=> h; have key : forall u v' : 'cV[C]_n, S11 S *m u + S12 S *m v' = S11 S' *m u + S12 S' *m v' /\
                                  S21 S *m u + S22 S *m v' = S21 S' *m u + S22 S' *m v'.
  by move=> u v'; have [e1 e2] := h u _ _ v' (Logic.conj erefl erefl).
have ext (M M' : 'M[C]_n) : (forall x : 'cV[C]_n, M *m x = M' *m x) -> M = M'.
  move=> e; rewrite -[M]mulmx1 -[M']mulmx1; apply/matrixP => i j.
  by have := congr1 (fun X : 'cV_n => X i ord0) (e (col j 1%:M)); rewrite !colE !mulmxA -!colE !mxE.
move: key; case: S {h} => a b c d; case: S' => a' b' c' d' /= key; congr Smat; apply: ext => x.
- by have [] := key x 0; rewrite !mulmx0 !addr0.
- by have [] := key 0 x; rewrite !mulmx0 !add0r.
- by have [] := key x 0; rewrite !mulmx0 !addr0.
- by have [] := key 0 x; rewrite !mulmx0 !add0r.
Qed.

Lemma star_id_l S : star (identity_smat n) S = Some S.
Proof. by rewrite starE /identity_smat /= !(mulmx0, mul0mx) !subr0 unitmx1 invmx1 !(mul1mx, mulmx1, mulmx0, mul0mx, addr0, add0r); case: S. Qed.
Lemma star_id_r S : star S (identity_smat n) = Some S.
Proof. by rewrite starE /identity_smat /= !(mulmx0, mul0mx) !subr0 unitmx1 invmx1 !(mul1mx, mulmx1, mulmx0, mul0mx, addr0, add0r); case: S. Qed.

(** A square matrix without kernel is invertible. *)
Lemma ker_unit (M : 'M[C]_n) : (forall x : 'cV[C]_n, M *m x = 0 -> x = 0) -> M \in unitmx.
Proof.
move=> h; rewrite -unitmx_tr -row_free_unit -kermx_eq0; apply/eqP/row_matrixP => i; rewrite row0.
have e : M *m (row i (kermx M^T))^T = 0 by rewrite -{1}[M]trmxK -trmx_mul -row_mul mulmx_ker row0 trmx0.
by rewrite -[LHS]trmxK (h _ e) trmx0.
Qed.
Lemma unit_ker (M : 'M[C]_n) (x : 'cV[C]_n) : M \in unitmx -> M *m x = 0 -> x = 0.
Proof. by move=> u e; rewrite -[x](mulKmx u) e mulmx0. Qed.

Lemma star_some A B S : star A B = Some S -> 1%:M - S11 B *m S22 A \in unitmx.
Proof. by rewrite starE; case: ifP. Qed.
Lemma star_ex A B : 1%:M - S11 B *m S22 A \in unitmx -> exists S, star A B = Some S.
Proof. by rewrite starE => ->; eexists. Qed.

(** No wave can circulate between two components whose product exists. *)
Lemma star_no_cycle A B S (g h v w : 'cV[C]_n) : star A B = Some S ->
  scatters A 0 v g h -> scatters B g h w 0 -> g = 0 /\ h = 0.
Proof.
move=> /star_some u [_ eg] [eh _]; rewrite mulmx0 add0r in eg; rewrite mulmx0 addr0 in eh.
have h0 : h = 0 by apply: (unit_ker u); rewrite mulmxBl mul1mx -mulmxA -eg -eh subrr.
by rewrite eg h0 mulmx0.
Qed.

Lemma star_assoc_ex A B D AB BD X : star A B = Some AB -> star B D = Some BD -> star AB D = Some X ->
  exists Y, star A BD = Some Y.
Proof.
move=> eAB eBD eX; apply: star_ex; apply: ker_unit => h /eqP; rewrite mulmxBl mul1mx subr_eq0 -mulmxA => /eqP eh.
pose g := S22 A *m h.
have sA : scatters A 0 (S12 A *m h) g h by split; rewrite mulmx0 add0r.
have sBD : scatters BD g h (S21 BD *m g) 0 by split; rewrite mulmx0 addr0.
have [k [l [sB sD]]] := (star_rel eBD _ _ _ _).1 sBD.
have sAB : scatters AB 0 (S12 A *m h) k l by apply/(star_rel eAB); exists g, h.
have [k0 l0] := star_no_cycle eX sAB sD.
by rewrite k0 l0 in sB; have [] := star_no_cycle eAB sA sB.
Qed.

Lemma star_assoc_ex' A B D AB BD Y : star A B = Some AB -> star B D = Some BD -> star A BD = Some Y ->
  exists X, star AB D = Some X.
Proof.
move=> eAB eBD eY; apply: star_ex; apply: ker_unit => l /eqP; rewrite mulmxBl mul1mx subr_eq0 -mulmxA => /eqP el.
pose k := S22 AB *m l.
have sAB : scatters AB 0 (S12 AB *m l) k l by split; rewrite mulmx0 add0r.
have sD : scatters D k l (S21 D *m k) 0 by split; rewrite mulmx0 addr0.
have [g [h [sA sB]]] := (star_rel eAB _ _ _ _).1 sAB.
have sBD : scatters BD g h (S21 D *m k) 0 by apply/(star_rel eBD); exists k, l.
have [g0 h0] := star_no_cycle eY sA sBD; subst g h.
by have [] := star_no_cycle eBD sB sD.
Qed.

Lemma star_assoc A B D AB BD X : star A B = Some AB -> star B D = Some BD ->
  (star AB D = Some X <-> star A BD = Some X).
Proof.
move=> eAB eBD.
have key : forall X Y, star AB D = Some X -> star A BD = Some Y -> X = Y.
  move=> X' Y eX eY; apply: scatters_inj => u v u' v' /(star_rel eX) [k [l [/(star_rel eAB) [g [h [sA sB]]] sD]]].
  apply/(star_rel eY); exists g, h; split=> //; apply/(star_rel eBD); by exists k, l.
split=> e.
- by have [Y eY] := star_assoc_ex eAB eBD e; rewrite (key _ _ e eY).
- by have [Y eY] := star_assoc_ex' eAB eBD e; rewrite -(key _ _ eY e).
Qed.
End Star.

(** ** Layers and half-spaces match tangential fields *)
Section Fields.
Variable n : nat.
Variables (W V Wg Vg : 'M[C]_n).

Lemma inv_eqP (M : 'M[C]_n) (x y : 'cV[C]_n) : M \in unitmx -> (M *m x = y <-> x = invmx M *m y).
Proof. by move=> u; split=> [<-|->]; rewrite ?mulKmx ?mulKVmx. Qed.

Lemma half_double (x y : 'cV[C]_n) : x + x = y + y -> x = y.
Proof.
move=> e; apply/matrixP => i j; have := congr1 (fun M : 'cV_n => M i j) e; rewrite !mxE => e'.
have [h1 h2] := (congr1 fst e', congr1 snd e').
rewrite /= in h1 h2; apply: injective_projections => /=; lra.
Qed.

(** the A, B form of matching *)
Lemma tangentialP A B : ab W Wg V Vg = Some (A, B) -> forall u v p r,
  same_tangential Wg Vg W V u v p r <-> (A *m u + B *m v = p + p /\ B *m u + A *m v = r + r).
Proof.
rewrite /ab; case EW: np_inv => [Wi|] //; case EV: np_inv => [Vi|] // [<- <-] u v p r.
have [uW ->] := np_invP EW; have [uV ->] := np_invP EV; rewrite /same_tangential.
have eW : Wg *m (u + v) = W *m (p + r) <-> invmx W *m Wg *m (u + v) = p + r.
  by rewrite -mulmxA; split=> [->|<-]; rewrite ?mulKmx ?mulKVmx.
have eV : Vg *m (u - v) = V *m (p - r) <-> invmx V *m Vg *m (u - v) = p - r.
  by rewrite -mulmxA; split=> [->|<-]; rewrite ?mulKmx ?mulKVmx.
set P := invmx W *m Wg in eW *; set Q := invmx V *m Vg in eV *.
have s1 : (P + Q) *m u + (P - Q) *m v = P *m (u + v) + Q *m (u - v).
  rewrite !mulmxDl !mulmxDr mulNmx mulmxN; mxab.
have s2 : (P - Q) *m u + (P + Q) *m v = P *m (u + v) - Q *m (u - v).
  rewrite !mulmxDl !mulmxDr mulNmx mulmxN; mxab.
rewrite s1 s2; split=> [[/eW -> /eV ->]|[e1 e2]]; first by split; mxab.
split; [apply/eW|apply/eV]; apply: half_double.
- have -> : P *m (u + v) + P *m (u + v) = (P *m (u + v) + Q *m (u - v)) + (P *m (u + v) - Q *m (u - v)) by mxab.
  rewrite e1 e2; mxab.
- have -> : Q *m (u - v) + Q *m (u - v) = (P *m (u + v) + Q *m (u - v)) - (P *m (u + v) - Q *m (u - v)) by mxab.
  rewrite e1 e2; mxab.
Qed.

Lemma same_tangential_sym (W1 V1 W2 V2 : 'M[C]_n) u v u' v' :
  same_tangential W1 V1 W2 V2 u v u' v' <-> same_tangential W2 V2 W1 V1 u' v' u v.
Proof. by split=> -[e1 e2]. Qed.

Lemma double_half (x : 'cV[C]_n) : exists y, x = y + y.
Proof.
exists (RtoC (/ 2)%coqR *: x); rewrite -scalerDl -[LHS]scale1r; congr (_ *: _).
cext; rewrite /=; field.
Qed.

Lemma layer_scatters A B d k0 modes S : ab W Wg V Vg = Some (A, B) -> s_layer A B d k0 modes = Some S ->
  forall u v u' v', scatters S u v u' v' <-> layer_rel Wg Vg W V (smm_X d k0 modes) u v u' v'.
Proof.
move=> eab; rewrite /s_layer; move: (smm_X _ _ _) => X.
case EA: np_inv => [Ai|] //; have [uA ->] := np_invP EA.
case ET: np_inv => [Ti|] //; have [uT ->] := np_invP ET => -[<-] u v u' v'.
have layerP : layer_rel Wg Vg W V X u v u' v' <->
    (A *m v = X *m (B *m u' + A *m v') - B *m u /\ A *m u' = X *m (A *m u + B *m v) - B *m v').
  split=> [[p [q [/(tangentialP eab) [e1 e2] /same_tangential_sym /(tangentialP eab) [e3 e4]]]]|[e1 e2]].
  - by rewrite e1 e4 !mulmxDr -e2 -e3; split; [rewrite addrC addKr|rewrite addrK].
  - have [p ep] := double_half (A *m u + B *m v); have [q eq] := double_half (B *m u' + A *m v').
    exists p, q; split; [apply/(tangentialP eab)|apply/same_tangential_sym/(tangentialP eab)].
    + by split=> //; rewrite e1 eq mulmxDr addrC subrK.
    + by split=> //; rewrite e2 ep mulmxDr subrK.

rewrite layerP /scatters /= {layerP}.
set T := A - _ in uT *.
(* eliminate one unknown *)
have elim : forall (x y a b : 'cV[C]_n), A *m x = X *m (B *m y + A *m b) - B *m a -> A *m y = X *m (A *m a + B *m x) - B *m b ->
    x = invmx T *m (X *m B *m invmx A *m X *m A - B) *m a + invmx T *m X *m (A - B *m invmx A *m B) *m b.
  move=> x y a b ex ey.
  have ey' : y = invmx A *m (X *m (A *m a + B *m x) - B *m b) by apply/(inv_eqP _ _ uA).
  have e : T *m x = (X *m B *m invmx A *m X *m A - B) *m a + X *m (A - B *m invmx A *m B) *m b.
    rewrite /T mulmxBl ex ey' !(mulmxDr, mulmxBr, mulmxDl, mulmxBl, mulmxN, mulNmx, mulmxA); mxab.
  by rewrite -(mulKmx uT x) e mulmxDr !mulmxA.
split=> [[e1 e2]|[e1 e2]]; last first.
  split; first exact: (elim _ _ _ _ e1 e2).
  rewrite [LHS](elim u' v v' u) //; first by rewrite addrC.
  - by rewrite e2; congr (_ *m _ - _); rewrite addrC.
  - by rewrite e1; congr (_ *m _ - _); rewrite addrC.
have back : forall x y a b : 'cV[C]_n,
    x = invmx T *m (X *m B *m invmx A *m X *m A - B) *m a + invmx T *m X *m (A - B *m invmx A *m B) *m b ->
    y = invmx T *m X *m (A - B *m invmx A *m B) *m a + invmx T *m (X *m B *m invmx A *m X *m A - B) *m b ->
    A *m x = X *m (B *m y + A *m b) - B *m a.
  move=> x y a b ex ey.
  (* candidate for y from x *)
  pose z := invmx A *m (X *m (A *m a + B *m x) - B *m b).
  have ez : A *m z = X *m (A *m a + B *m x) - B *m b by rewrite mulKVmx.
  have eT : T *m x = (X *m B *m invmx A *m X *m A - B) *m a + X *m (A - B *m invmx A *m B) *m b.
    by rewrite ex mulmxDr -!mulmxA !(mulKVmx uT).
  have exz : A *m x = X *m (B *m z + A *m b) - B *m a.
    have -> : A *m x = T *m x + X *m B *m invmx A *m X *m B *m x by rewrite /T mulmxBl subrK.
    rewrite eT /z !(mulmxDr, mulmxBr, mulmxDl, mulmxBl, mulmxN, mulNmx, mulmxA); mxab.
  suff <- : z = y by [].
  rewrite ey (elim z x b a) //; first by rewrite addrC.
  - by rewrite ez; congr (_ *m _ - _); rewrite addrC.
  - by rewrite exz; congr (_ *m _ - _); rewrite addrC.
split; first exact: (back _ _ _ _ e1 e2).
have -> : A *m u + B *m v = B *m v + A *m u by rewrite addrC.
by apply: back; rewrite addrC.
Qed.
End Fields.

Section Half.
Variable n : nat.
Lemma half_tangentialP (V Vg A B : 'M[C]_n) : ab_half V Vg = Some (A, B) -> forall u v u' v',
  same_tangential 1%:M V 1%:M Vg u v u' v' <-> (A *m u + B *m v = u' + u' /\ B *m u + A *m v = v' + v').
Proof.
rewrite /ab_half; case EV: np_inv => [Vi|] // [<- <-] u v u' v'.
have [uV ->] := np_invP EV; rewrite /same_tangential !mul1mx.
have eV : V *m (u - v) = Vg *m (u' - v') <-> invmx Vg *m V *m (u - v) = u' - v'.
  by rewrite -mulmxA; split=> [->|<-]; rewrite ?mulKmx ?mulKVmx.
set Q := invmx Vg *m V in eV *.
have s1 : (1%:M + Q) *m u + (1%:M - Q) *m v = (u + v) + Q *m (u - v).
  rewrite !mulmxDl !mulmxDr mulNmx mulmxN !mul1mx; mxab.
have s2 : (1%:M - Q) *m u + (1%:M + Q) *m v = (u + v) - Q *m (u - v).
  rewrite !mulmxDl !mulmxDr mulNmx mulmxN !mul1mx; mxab.
rewrite s1 s2; split=> [[-> /eV ->]|[e1 e2]]; first by split; mxab.
split; [|apply/eV]; apply: half_double.
- have -> : (u + v) + (u + v) = ((u + v) + Q *m (u - v)) + ((u + v) - Q *m (u - v)) by mxab.
  rewrite e1 e2; mxab.
- have -> : Q *m (u - v) + Q *m (u - v) = ((u + v) + Q *m (u - v)) - ((u + v) - Q *m (u - v)) by mxab.
  rewrite e1 e2; mxab.
Qed.

Lemma rt_solve (A B : 'M[C]_n) (a b x y : 'cV[C]_n) : A \in unitmx ->
  (A *m a + B *m x = y + y /\ B *m a + A *m x = b + b) <->
  (x = - invmx A *m B *m a + RtoC 2 *: invmx A *m b /\
   y = RtoC (/ 2)%coqR *: (A - B *m invmx A *m B) *m a + B *m invmx A *m b).
Proof.
move=> uA.
have two (z : 'cV[C]_n) : RtoC 2 *: z = z + z.
  have -> : RtoC 2 = 1 + 1 :> C by cext; rewrite /=; lra.
  by rewrite scalerDl scale1r.
have half (z : 'cV[C]_n) : RtoC (/ 2)%coqR *: (z + z) = z.
  by rewrite -two scalerA (_ : _ * _ = 1) ?scale1r //; cext; rewrite /=; field.
have ex : B *m a + A *m x = b + b <-> x = - invmx A *m B *m a + RtoC 2 *: invmx A *m b.
  have -> : - invmx A *m B *m a + RtoC 2 *: invmx A *m b = invmx A *m ((b + b) - B *m a).
    by rewrite -scalemxAl two !mulNmx mulmxBr mulmxDr !mulmxA addrC.
  rewrite -(inv_eqP _ _ uA); split=> [<-|->]; first by rewrite addrC addKr.
  by rewrite addrC subrK.
split=> -[e1 e2].
- have ex' := ex.1 e2; split=> //.
  rewrite -[LHS]half -e1 ex' -!scalemxAl scalerDr.
  have -> : B *m (- invmx A *m B *m a + RtoC 2 *: (invmx A *m b)) = - (B *m invmx A *m B *m a) + (B *m invmx A *m b + B *m invmx A *m b).
    by rewrite two mulmxDr mulmxDr !mulNmx mulmxN !mulmxA.
  by rewrite scalerDr half mulmxBl scalerBr scalerN addrA.
- split; last exact/ex.
  rewrite e2 e1 -!scalemxAl.
  have -> : B *m (- invmx A *m B *m a + RtoC 2 *: (invmx A *m b)) = - (B *m invmx A *m B *m a) + (B *m invmx A *m b + B *m invmx A *m b).
    by rewrite two mulmxDr mulmxDr !mulNmx mulmxN !mulmxA.
  set h := RtoC (/ 2)%coqR *: _.
  have -> : A *m a = (h + h) + B *m invmx A *m B *m a.
    rewrite /h -two scalerA (_ : RtoC 2 * _ = 1) ?scale1r ?mulmxBl ?subrK //; cext; rewrite /=; field.
  mxab.
Qed.

Lemma top_scatters (V Vg A B : 'M[C]_n) S : ab_half V Vg = Some (A, B) -> s_rt A B true = Some S ->
  forall u v u' v', scatters S u v u' v' <-> interface_rel 1%:M V 1%:M Vg u v u' v'.
Proof.
move=> eab; rewrite /s_rt; case EA: np_inv => [Ai|] //; have [uA ->] := np_invP EA => -[<-] u v u' v'.
by rewrite /interface_rel (half_tangentialP eab) (rt_solve _ _ _ _ _ uA).
Qed.
Lemma bottom_scatters (V Vg A B : 'M[C]_n) S : ab_half V Vg = Some (A, B) -> s_rt A B false = Some S ->
  forall u v u' v', scatters S u v u' v' <-> interface_rel 1%:M Vg 1%:M V u v u' v'.
Proof.
move=> eab; rewrite /s_rt; case EA: np_inv => [Ai|] //; have [uA ->] := np_invP EA => -[<-] u v u' v'.
rewrite /interface_rel same_tangential_sym (half_tangentialP eab).
have := rt_solve B v' u u' v uA; rewrite /scatters /= => h.
have -> : (A *m u' + B *m v' = u + u /\ B *m u' + A *m v' = v + v) <->
          (A *m v' + B *m u' = v + v /\ B *m v' + A *m u' = u + u).
  by split=> -[e1 e2]; split; rewrite addrC.
rewrite h; split=> -[e1 e2]; split; by rewrite addrC.
Qed.

Lemma stacked_ext (P P' Q Q' : component_rel n) : (forall u v u' v', P u v u' v' <-> P' u v u' v') ->
  (forall u v u' v', Q u v u' v' <-> Q' u v u' v') -> forall u v u' v', stacked P Q u v u' v' <-> stacked P' Q' u v u' v'.
Proof. by move=> hP hQ u v u' v'; split=> -[g [h [/hP ? /hQ ?]]]; exists g, h. Qed.

Lemma layers_scatter k0 (Wg Vg : 'M[C]_n) ls : forall S S' (P : component_rel n),
  (forall u v u' v', scatters S u v u' v' <-> P u v u' v') ->
  foldl (add_layer k0 Wg Vg) (Some S) ls = Some S' ->
  forall u v u' v', scatters S' u v u' v' <-> layers_rel k0 Wg Vg ls P u v u' v'.
Proof.
have none ls' : foldl (add_layer k0 Wg Vg) None ls' = None by elim: ls' => [|[[[? ?] ?] ?] l IH].
elim: ls => [|[[[W V] m] d] l IH] S S' P hP /=; first by case=> <-.
case E: ab => [[A B]|]; last by rewrite none.
case E2: s_layer => [Sl|]; last by rewrite none.
case E3: (star S Sl) => [S1|]; last by rewrite none.
move=> e; apply: (IH S1 S' _ _ e) => u v u' v'.
rewrite (star_rel E3); apply: stacked_ext => // ? ? ? ?; exact: (layer_scatters E E2).
Qed.

Lemma device_scatters k0 (Wg Vg Vr Vt : 'M[C]_n) ls S : device k0 Wg Vg Vr Vt ls = Some S ->
  forall u v u' v', scatters S u v u' v' <-> device_rel k0 Wg Vg Vr Vt ls u v u' v'.
Proof.
rewrite /device; case E: ab_half => [[Ar Br]|] //; case E0: s_rt => [S0|]; last first.
  have none ls' : foldl (add_layer k0 Wg Vg) None ls' = None by elim: ls' => [|[[[? ?] ?] ?] l IH].
  by rewrite none.
case E1: (foldl _ _ _) => [Sg|] //; case E2: ab_half => [[At Bt]|] //; case E3: s_rt => [St|] // e u v u' v'.
rewrite (star_rel e); apply: stacked_ext.
- apply: (layers_scatter _ E1); exact: (top_scatters E E0).
- exact: (bottom_scatters E2 E3).
Qed.
End Half.
