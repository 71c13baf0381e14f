(** Lemmas on the convolution matrices. *)
From Coq Require Import Reals Lra FunctionalExtensionality.
From mathcomp Require Import all_ssreflect ssralg ssrint matrix.
From Coquelicot Require Import Complex.
From Verif Require Import Cplx Mx Spec SpecFourier ModelTM ModelFourier ProofFourier.

Set Implicit Arguments.
Unset Strict Implicit.
Unset Printing Implicit Defensive.
Local Open Scope ring_scope.
Import GRing.Theory.

(** The coefficient at row r, column c. *)
Definition ocoef (t : transform) (v : nat -> C) (r c : nat) : C :=
  t_coef t v (odflt 0%N (pyidx (t_len t) (circulant r c + t_shift t))).

(** No index falls outside the coefficient array. *)
Definition in_range (t : transform) (n : nat) : Prop :=
  forall r c, (r < n)%N -> (c < n)%N -> isSome (pyidx (t_len t) (circulant r c + t_shift t)).

(** Coefficients depend on the first [n] entries of the row only. *)
Definition reads (t : transform) (n : nat) : Prop :=
  forall u v : nat -> C, (forall a, (a < n)%N -> u a = v a) -> forall k, t_coef t u k = t_coef t v k.

Lemma reads_ocoef t n u v r c : reads t n -> (forall a, (a < n)%N -> u a = v a) -> ocoef t u r c = ocoef t v r c.
Proof. by move=> h e; rewrite /ocoef (h _ _ e). Qed.

Lemma fancyE n t v : in_range t n ->
  fancy n (t_len t) (t_coef t v) (fun r c => circulant r c + t_shift t) = Some (ocoef t v).
Proof.
move=> h; rewrite /fancy ifT //; apply/allP => r; rewrite mem_iota /= => hr.
by apply/allP => c; rewrite mem_iota /= => hc; apply: h.
Qed.

Lemma batch_all T (d : T) m f g : (forall a, f a = Some (g a)) -> batch d m f = Some (fun a => odflt d (f a)).
Proof. by move=> h; rewrite /batch ifT //; apply/allP => a _; rewrite h. Qed.

Lemma entE n (A : 'M[C]_n) (i j : 'I_n) : ent A i j = A i j.
Proof. by rewrite /ent !valK. Qed.
Lemma ent_lt n (A : 'M[C]_n) i j (hi : (i < n)%N) (hj : (j < n)%N) : ent A i j = A (Ordinal hi) (Ordinal hj).
Proof. by rewrite -entE. Qed.
Lemma ent_mat n f i j : (i < n)%N -> (j < n)%N -> ent (mat n f) i j = f i j.
Proof. by move=> hi hj; rewrite ent_lt mxE. Qed.
Lemma mat_ext n f g : (forall i j, (i < n)%N -> (j < n)%N -> f i j = g i j) -> mat n f = mat n g.
Proof. by move=> h; apply/matrixP => i j; rewrite !mxE; apply: h. Qed.

Lemma flat_div fx fy i : (i < fy * fx)%N -> (i %/ fx < fy)%N.
Proof. by move=> h; rewrite ltn_divLR //; case: fx h => //; rewrite muln0. Qed.

Section Four.
Variables (tx ty : transform) (nx ny : nat) (cell : nat -> nat -> C) (conti_x conti_y : bool) (fto_x fto_y : nat).
Let ff_x := fto_x.*2.+1.
Let ff_y := fto_y.*2.+1.

(** The Toeplitz matrix along y of column [a], of the permittivity or of its inverse. *)
Definition toep_y (a : nat) : 'M[C]_ff_y :=
  mat ff_y (ocoef ty (fun b => if conti_y then cell b a else (cell b a)^-1)).
Definition fact_y (a : nat) : 'M[C]_ff_y := if conti_x (+) conti_y then invmx (toep_y a) else toep_y a.
Definition toep_xy : 'M[C]_(ff_y * ff_x) :=
  mat _ (fun i j => ocoef tx (fun a => ent (fact_y a) (i %/ ff_x) (j %/ ff_x)) (i %% ff_x) (j %% ff_x)).

Lemma four2dE : in_range tx ff_x -> in_range ty ff_y -> reads tx nx ->
  four2d tx ty nx ny cell conti_x conti_y fto_x fto_y
  = if ~~ conti_y && has (fun a => has (fun b => cell b a == 0) (iota 0 ny)) (iota 0 nx) then None
    else if (conti_x (+) conti_y) && ~~ all (fun a => toep_y a \in unitmx) (iota 0 nx) then None
    else if conti_x then Some toep_xy else np_inv toep_xy.
Proof.
move=> hx hy hr; rewrite /four2d; case: ifP => // _.
rewrite (@batch_all _ _ _ _ (fun a => ocoef ty (fun b => if conti_y then cell b a else (cell b a)^-1))); last first.
  by move=> a; rewrite fancyE.
set conv1 := (fun a => odflt _ _).
have c1E a : conv1 a = ocoef ty (fun b => if conti_y then cell b a else (cell b a)^-1) by rewrite /conv1 fancyE.
have fin (conv : nat -> nat -> nat -> C) :
  (forall a i j, (a < nx)%N -> (i < ff_y)%N -> (j < ff_y)%N -> conv a i j = ent (fact_y a) i j) ->
  (if batch (fun _ _ => 0) (ff_y * ff_y) (fun p => fancy ff_x (t_len tx)
      (t_coef tx (fun a => conv a (p %/ ff_y)%N (p %% ff_y)%N)) (fun r c => circulant r c + t_shift tx)) is Some conv2d
   then
     let out := mat (ff_y * ff_x) (fun i j =>
       conv2d (i %/ ff_x * ff_y + j %/ ff_x)%N (i %% ff_x)%N (j %% ff_x)%N) in
     if conti_x then Some out else np_inv out
   else None) = (if conti_x then Some toep_xy else np_inv toep_xy).
  move=> hc.
  rewrite (@batch_all _ _ _ _ (fun p => ocoef tx (fun a => conv a (p %/ ff_y)%N (p %% ff_y)%N))); last first.
    by move=> p; rewrite fancyE.
  set out := mat _ _.
  suff -> : out = toep_xy by [].
  apply: mat_ext => i j hi hj; rewrite fancyE //=.
  have hdi := flat_div hi; have hdj := flat_div hj.
  apply: reads_ocoef hr _ => a ha.
  by rewrite divnMDl // [(j %/ ff_x %/ _)%N]divn_small // addn0 modnMDl [(j %/ ff_x %% _)%N]modn_small // hc.
case hxor: (conti_x (+) conti_y); last first.
  rewrite /=; apply: (fin conv1) => a i j ha hi hj.
  by rewrite c1E /fact_y hxor ent_mat.
rewrite /= {1}/batch.
have e1 : all (fun a => isSome (arr_inv ff_y (conv1 a))) (iota 0 nx) = all (fun a => toep_y a \in unitmx) (iota 0 nx).
  by apply: eq_all => a; rewrite /arr_inv /np_inv c1E -/(toep_y a); case: (toep_y a \in unitmx).
rewrite e1; case: ifP => //= hu.
apply: (fin (fun a => odflt (fun _ _ => 0) (arr_inv ff_y (conv1 a)))) => a i j ha hi hj.
have ua : toep_y a \in unitmx by move/allP: hu; apply; rewrite mem_iota.
by rewrite /arr_inv /np_inv c1E -/(toep_y a) ua /= /fact_y hxor.
Qed.
End Four.

(** ** The two transforms *)

Lemma cfs_pyidx fto r c : (r < fto.*2.+1)%N -> (c < fto.*2.+1)%N ->
  pyidx fto.*2.*2.+1 (circulant r c + fto.*2%:Z) = Some (c + fto.*2 - r)%N.
Proof.
rewrite !ltnS => hr hc.
have -> : circulant r c + fto.*2%:Z = Posz (c + fto.*2 - r)%N.
  by rewrite /circulant -subzn ?(leq_trans hr (leq_addl _ _)) // PoszD -addrA addrC.
rewrite /pyidx ifT // ltnS leq_subLR -[fto.*2.*2]addnn addnA leq_add2r.
exact: leq_trans hc (leq_addl _ _).
Qed.

Lemma cfs_in_range x fto : in_range (cfs_transform x fto) fto.*2.+1.
Proof. by move=> r c hr hc; rewrite /= cfs_pyidx. Qed.

Lemma cfs_reads x fto : reads (cfs_transform x fto) (size x).
Proof.
move=> u v e k /=; rewrite /cfs; case: eqP => _; congr (_ / _); apply: eq_bigr => j _; rewrite !e //.
by rewrite ltn_mod; case: (size x) j => [[]|].
Qed.

Lemma cfs_ocoef x fto v r c : (r < fto.*2.+1)%N -> (c < fto.*2.+1)%N ->
  ocoef (cfs_transform x fto) v r c = cfs x (last 0%coqR x) fto v (c + fto.*2 - r).
Proof. by move=> hr hc; rewrite /ocoef /= cfs_pyidx. Qed.

Lemma fft_pyidx n r c : (r < n)%N -> (c < n)%N ->
  pyidx n (circulant r c + 0) = Some (if (r <= c)%N then (c - r)%N else (n - (r - c))%N).
Proof.
move=> hr hc; rewrite addr0 /circulant; case: leqP => h.
  have -> : - r%:Z + c%:Z = Posz (c - r)%N by rewrite -subzn // addrC.
  by rewrite /pyidx ifT //; apply: leq_ltn_trans hc; apply: leq_subr.
have -> : - r%:Z + c%:Z = Negz (r - c).-1.
  by rewrite NegzE prednK ?subn_gt0 // -subzn ?opprB 1?addrC // ltnW.
rewrite /pyidx prednK ?subn_gt0 // ifT //.
by apply: leq_trans (leq_subr _ _) (ltnW hr).
Qed.

Lemma fft_in_range n m : (m <= n)%N -> in_range (fft_transform n) m.
Proof. by move=> h r c hr hc; rewrite /= fft_pyidx // (leq_trans _ h). Qed.

Lemma fft_reads n : reads (fft_transform n) n.
Proof. by move=> u v e k /=; rewrite /fft; apply: eq_bigr => j _; rewrite e. Qed.

Lemma cexp_int (m : R) (j : nat) : intr m -> intr (m * INR j)%coqR.
Proof. by case=> a [b ->]; exists (a * j)%N, (b * j)%N; rewrite -!multE !mult_INR; ring. Qed.

Lemma fft_ocoef n v r c : (r < n)%N -> (c < n)%N ->
  ocoef (fft_transform n) v r c = dft n v (INR c - INR r).
Proof.
move=> hr hc; rewrite /ocoef /= fft_pyidx //= /fft /dft mulr_suml.
have n0 : INR n <> 0%coqR by apply: not_0_INR; case: n hr {hc}.
have nC : RtoC (INR n) != 0 by apply: RtoC_neq0.
apply: eq_bigr => j _; rewrite [RHS]mulrAC; congr (_ * _).
case: (leqP r c) => h.
  rewrite -minusE minus_INR; last exact/leP.
  by congr (cexp (_ * RtoC _)); field.
rewrite -minusE minus_INR; last by apply/leP; apply: leq_trans (leq_subr _ _) (ltnW hr).
rewrite minus_INR; last by apply/leP/ltnW.
have -> : (2 * PI * INR j * (INR n - (INR r - INR c)) / INR n = 2 * PI * (INR c - INR r) * INR j / INR n + 2 * PI * INR j)%coqR.
  by field.
rewrite RtoC_add mulrDr cexpD cexp_2pi ?mulr1 //.
by exists j, 0%N; rewrite /= Rminus_0_r.
Qed.

(** Conjugation symmetry: the transform of the conjugate row, at the mirrored place. *)
Definition conj_sym (t : transform) (n : nat) : Prop :=
  forall v r c, (r < n)%N -> (c < n)%N -> conj (ocoef t v r c) = ocoef t (fun a => conj (v a)) c r.

Lemma conj_sum n (f : 'I_n -> C) : conj (\sum_(j < n) f j) = \sum_(j < n) conj (f j).
Proof. exact: rmorph_sum. Qed.

Lemma fft_conj n : conj_sym (fft_transform n) n.
Proof.
move=> v r c hr hc; rewrite !fft_ocoef // /dft !(conjM, conjV, conjR, conj_sum); congr (_ / _).
apply: eq_bigr => j _; rewrite conjM -cexp_conj; congr (_ * cexp _).
rewrite conjM conjN conjI conjR.
rewrite opprK mulNr -mulrN -RtoC_opp; congr (_ * RtoC _); rewrite /Rdiv; ring.
Qed.

Lemma mode_swap fto r c : (r < fto.*2.+1)%N -> (c < fto.*2.+1)%N ->
  mode fto (c + fto.*2 - r) = (INR c - INR r)%coqR.
Proof.
rewrite ltnS => hr hc; rewrite /mode -minusE minus_INR; last by apply/leP; apply: leq_trans hr (leq_addl _ _).
by rewrite -plusE plus_INR; ring.
Qed.

Lemma cfs_conj x fto : conj_sym (cfs_transform x fto) fto.*2.+1.
Proof.
move=> v r c hr hc; rewrite !cfs_ocoef // /cfs.
have -> : (c + fto.*2 - r == fto.*2)%N = (r + fto.*2 - c == fto.*2)%N.
  rewrite !ltnS in hr hc.
  rewrite -(eqn_add2r r) subnK; last exact: leq_trans hr (leq_addl _ _).
  rewrite -[RHS](eqn_add2r c) subnK; last exact: leq_trans hc (leq_addl _ _).
  by rewrite [(c + _)%N]addnC [(r + _)%N]addnC !eqn_add2l eq_sym.
rewrite !mode_swap //; case: eqP => h.
  rewrite conjM conjV conjR conj_sum; congr (_ / _).
  by apply: eq_bigr => j _; rewrite conjM conjR.
rewrite conjM conjV conj_sum conjM conjI conjR; congr (_ / _); last first.
  by rewrite mulNr -mulrN -RtoC_opp; congr (_ * RtoC _); ring.
apply: eq_bigr => j _; rewrite conjM conjB -cexp_conj; congr (_ * cexp _).
rewrite conjM conjN conjI conjR opprK mulNr -mulrN -RtoC_opp; congr (_ * RtoC _); rewrite /Rdiv; ring.
Qed.

(** ** C17: real patterns give Hermitian matrices *)

Lemma hermP n (A : 'M[C]_n) : hermitian A <-> map_mx conj A^T = A.
Proof.
split=> h; first by apply/matrixP => i j; rewrite !mxE -h.
by move=> i j; rewrite -{1}h !mxE.
Qed.

Lemma herm_inv n (A : 'M[C]_n) : hermitian A -> hermitian (invmx A).
Proof. by move/hermP => h; apply/hermP; rewrite trmx_inv map_invmx h. Qed.

Lemma ent_herm n (A : 'M[C]_n) i j : hermitian A -> conj (ent A i j) = ent A j i.
Proof.
move=> h; rewrite /ent; case: insubP => [i' _ _|_]; case: insubP => [j' _ _|_]; rewrite ?conj0 //.
Qed.

(** All entries of the first [ny] rows and [nx] columns are real. *)
Definition real_cell (ny nx : nat) (cell : nat -> nat -> C) : Prop :=
  forall b a, (b < ny)%N -> (a < nx)%N -> conj (cell b a) = cell b a.

Lemma toep_y_herm ty ny nx cell cy fto_y a : conj_sym ty fto_y.*2.+1 -> reads ty ny ->
  real_cell ny nx cell -> (a < nx)%N -> hermitian (toep_y ty cell cy fto_y a).
Proof.
move=> hc hr hcell ha i j; rewrite /toep_y /mat !mxE hc //.
by apply: reads_ocoef hr _ => b hb; case: cy; rewrite ?conjV hcell.
Qed.

Lemma fact_y_herm ty ny nx cell cx cy fto_y a : conj_sym ty fto_y.*2.+1 -> reads ty ny ->
  real_cell ny nx cell -> (a < nx)%N -> hermitian (fact_y ty cell cx cy fto_y a).
Proof.
move=> hc hr hcell ha; have := toep_y_herm cy hc hr hcell ha.
by rewrite /fact_y; case: (_ (+) _) => //; exact: herm_inv.
Qed.

Lemma toep_xy_herm tx ty ny nx cell cx cy fto_x fto_y : conj_sym tx fto_x.*2.+1 -> conj_sym ty fto_y.*2.+1 ->
  reads tx nx -> reads ty ny -> real_cell ny nx cell -> hermitian (toep_xy tx ty cell cx cy fto_x fto_y).
Proof.
move=> hx hy rx ry hr i j; rewrite /toep_xy /mat !mxE hx ?ltn_mod //.
apply: reads_ocoef rx _ => a ha; rewrite ent_herm //.
exact: fact_y_herm hy ry hr ha.
Qed.

Lemma four2d_herm tx ty ny nx cell cx cy fto_x fto_y M :
  in_range tx fto_x.*2.+1 -> in_range ty fto_y.*2.+1 ->
  conj_sym tx fto_x.*2.+1 -> conj_sym ty fto_y.*2.+1 ->
  reads tx nx -> reads ty ny -> real_cell ny nx cell ->
  four2d tx ty nx ny cell cx cy fto_x fto_y = Some M -> hermitian M.
Proof.
move=> ix iy hx hy rx ry hr; rewrite four2dE //; case: ifP => // _; case: ifP => // _.
have h := toep_xy_herm cx cy hx hy rx ry hr.
case: cx h => h; first by case=> <-.
by rewrite /np_inv; case: ifP => // _ [<-]; apply: herm_inv.
Qed.

(** ** C18: a uniform layer *)

Definition unital (t : transform) (n : nat) : Prop :=
  forall e r c, (r < n)%N -> (c < n)%N -> ocoef t (fun _ => e) r c = if r == c then e else 0.

Lemma four2d_uniform tx ty ny nx cell cx cy fto_x fto_y e :
  in_range tx fto_x.*2.+1 -> in_range ty fto_y.*2.+1 ->
  unital tx fto_x.*2.+1 -> unital ty fto_y.*2.+1 ->
  reads tx nx -> reads ty ny -> e != 0 -> cx || cy ->
  (forall b a, (b < ny)%N -> (a < nx)%N -> cell b a = e) ->
  four2d tx ty nx ny cell cx cy fto_x fto_y = Some (e%:M).
Proof.
move=> ix iy ux uy rx ry he hcc hcell; rewrite four2dE //.
set bad := ~~ cy && _.
have -> : bad = false.
  rewrite /bad; case: cy {bad hcc} => //=; apply/negbTE/hasPn => a; rewrite mem_iota /= => ha.
  by apply/hasPn => b; rewrite mem_iota /= => hb; rewrite hcell.
have ty_a a : (a < nx)%N -> toep_y ty cell cy fto_y a = (if cy then e else e^-1)%:M.
  move=> ha; apply/matrixP => i j; rewrite !mxE.
  have -> : ocoef ty (fun b => if cy then cell b a else (cell b a)^-1) i j = ocoef ty (fun _ => if cy then e else e^-1) i j.
    by apply: reads_ocoef ry _ => b hb; rewrite hcell.
  rewrite uy // -[(i == j) in RHS]/(val i == val j).
  by case: (val i == val j); rewrite ?mulr1n ?mulr0n.
have un (x : C) m : x != 0 -> (x%:M : 'M[C]_m) \in unitmx by move=> hx; rewrite -scalemx1 unitmxZ ?unitmx1 // unitfE.
rewrite (_ : (cx (+) cy) && _ = false); last first.
  case: (_ (+) _) => //=; apply/negbTE; rewrite negbK; apply/allP => a; rewrite mem_iota /= => ha.
  by rewrite ty_a // un //; case: (cy); rewrite ?invr_eq0.
have fy a : (a < nx)%N -> fact_y ty cell cx cy fto_y a = (if cx then e else e^-1)%:M.
  move=> ha; rewrite /fact_y ty_a //.
  case: cx {bad ty_a} hcc => /=; case: cy => //= _; rewrite invmx_scalar ?invrK //.
have -> : toep_xy tx ty cell cx cy fto_x fto_y = (if cx then e else e^-1)%:M.
  apply/matrixP => i j; rewrite !mxE.
  have hi := flat_div (ltn_ord i); have hj := flat_div (ltn_ord j).
  have -> : ocoef tx (fun a => ent (fact_y ty cell cx cy fto_y a) (i %/ fto_x.*2.+1) (j %/ fto_x.*2.+1))
      (i %% fto_x.*2.+1) (j %% fto_x.*2.+1)
    = ocoef tx (fun _ => if (i %/ fto_x.*2.+1 == j %/ fto_x.*2.+1)%N then (if cx then e else e^-1) else 0)
      (i %% fto_x.*2.+1) (j %% fto_x.*2.+1).
    apply: reads_ocoef rx _ => a ha; rewrite fy // ent_lt mxE -val_eqE /=.
    by case: eqP; rewrite ?mulr1n ?mulr0n.
  rewrite ux ?ltn_mod //.
  have -> : (i == j) = (i %/ fto_x.*2.+1 == j %/ fto_x.*2.+1)%N && (i %% fto_x.*2.+1 == j %% fto_x.*2.+1)%N.
    apply/eqP/andP => [-> //|[/eqP h1 /eqP h2]]; apply: val_inj => /=.
    by rewrite (divn_eq i fto_x.*2.+1) h1 h2 -divn_eq.
  by do 2 case: (_ == _)%N; rewrite /= ?mulr1n ?mulr0n.
case: cx {fy hcc} => //; rewrite /np_inv un ?invr_eq0 // invmx_scalar invrK //.
Qed.

Lemma sum_pieces x : x <> [::] -> \sum_(j < size x) RtoC (piece x j) = RtoC (last 0%coqR x).
Proof.
case/lastP: x => // x e _; elim/last_ind: x e => [|x y IH] e.
  by rewrite big_ord_recl big_ord0 addr0.
rewrite size_rcons big_ord_recr /=.
have -> : \sum_(i < size (rcons x y)) RtoC (piece (rcons (rcons x y) e) i)
  = \sum_(i < size (rcons x y)) RtoC (piece (rcons x y) i).
  apply: eq_bigr => -[[|i] hi] _ /=; congr RtoC.
    by rewrite !nth_rcons hi; case: x hi {IH}.
  by rewrite !nth_rcons size_rcons; move: hi; rewrite size_rcons => hi; rewrite hi (ltnW hi).
rewrite IH last_rcons last_rcons -RtoC_add; congr RtoC.
rewrite size_rcons /= !nth_rcons !size_rcons ltnn eqxx ltnSn ltnn eqxx; ring.
Qed.

Lemma cfs_unital x fto : last 0%coqR x <> 0%coqR -> unital (cfs_transform x fto) fto.*2.+1.
Proof.
move=> hl e r c hr hc; rewrite cfs_ocoef // /cfs.
have hx : x <> [::] by move=> h; rewrite h in hl.
have -> : (c + fto.*2 - r == fto.*2)%N = (r == c).
  rewrite -(eqn_add2r r) subnK; last by apply: leq_trans (leq_addl _ _); rewrite -ltnS.
  by rewrite addnC eqn_add2l eq_sym.
case: eqP => _.
  by rewrite -mulr_sumr sum_pieces // mulfK // RtoC_neq0.
by rewrite big1 ?mul0r // => j _; rewrite subrr mul0r.
Qed.

Lemma sin_half_neq0 x : (0 < Rabs x < 2 * PI)%coqR -> cos x <> 1%coqR.
Proof.
move=> hx hc.
have hP := PI_RGT_0.
have : (sin (x / 2) = 0)%coqR.
  have := cos_2a_sin (x / 2); rewrite (_ : 2 * (x / 2) = x)%coqR; last by field.
  by rewrite hc; nra.
have : (0 < sin (Rabs x / 2))%coqR by apply: sin_gt_0; lra.
rewrite /Rabs; case: Rcase_abs => h; last lra.
by rewrite /Rdiv -Ropp_mult_distr_l sin_neg -/(x / 2)%coqR; lra.
Qed.

Lemma cexpX (z : C) (j : nat) : cexp (z * RtoC (INR j)) = cexp z ^+ j.
Proof.
elim: j => [|j IH]; first by rewrite /= (_ : RtoC 0 = 0) // mulr0 cexp0.
by rewrite S_INR RtoC_add mulrDr cexpD IH (_ : RtoC 1 = 1) // mulr1 exprSr.
Qed.

Lemma dft_const n e m : intr m -> (Rabs m < INR n)%coqR ->
  dft n (fun _ => e) m = if Req_EM_T m 0 then e else 0.
Proof.
move=> hi hm; have n0 : (0 < INR n)%coqR by have := Rabs_pos m; lra.
rewrite /dft; case: Req_EM_T => [m00|m0] /=; first rewrite {}m00.
  rewrite (eq_bigr (fun _ => e)); last first.
    move=> j _; rewrite (_ : 2 * PI * 0 * INR j / INR n = 0)%coqR; last by field; lra.
    by rewrite (_ : RtoC 0 = 0) // mulr0 cexp0 mulr1.
  rewrite sumr_const card_ord -mulr_natr (_ : n%:R = RtoC (INR n)) ?mulfK //; first by apply: RtoC_neq0; lra.
  by elim: {hm n0}n => // n IH; rewrite mulrSr S_INR RtoC_add IH.
pose w := cexp (- ci * RtoC (2 * PI * m / INR n)).
have hP := PI_RGT_0.
have w1 : w != 1.
  apply/eqP => hw; have : Re w = 1%coqR by rewrite hw.
  rewrite /w (_ : - ci * RtoC (2 * PI * m / INR n) = (0, - (2 * PI * m / INR n))%coqR); last first.
    by apply: Cext; rewrite /ci /Ci /Re /Im; cbn; ring.
  rewrite /cexp /Re /Im /= exp_0 cos_neg Rmult_1_l; apply: sin_half_neq0.
  pose q := (2 * PI / INR n)%coqR.
  have hq : (0 < q)%coqR by apply: Rmult_lt_0_compat; [lra | apply: Rinv_0_lt_compat].
  have hqn : (q * INR n = 2 * PI)%coqR by rewrite /q; field; lra.
  rewrite (_ : 2 * PI * m / INR n = m * q)%coqR; last by rewrite /q; field; lra.
  rewrite Rabs_mult (Rabs_right q); last lra.
  have ma := Rabs_pos_lt _ m0.
  by split; nra.
rewrite (eq_bigr (fun j : 'I_n => e * w ^+ j)); last first.
  by move=> j _; rewrite -cexpX -mulrA -RtoC_mul; congr (_ * cexp (_ * RtoC _)); field; lra.
rewrite -mulr_sumr.
have gs : (w - 1) * (\sum_(j < n) w ^+ j) = 0.
  rewrite -subrX1 /w -cexpX -mulrA -RtoC_mul.
  rewrite (_ : 2 * PI * m / INR n * INR n = 2 * PI * m)%coqR; last by field; lra.
  by rewrite cexp_2pi // subrr.
by move/eqP: gs; rewrite mulf_eq0 subr_eq0 (negbTE w1) /= => /eqP ->; rewrite mulr0 mul0r.
Qed.

Lemma fft_unital n m : (m <= n)%N -> unital (fft_transform n) m.
Proof.
move=> h e r c hr hc.
have hr' := leq_trans hr h; have hc' := leq_trans hc h.
rewrite fft_ocoef // dft_const; last first.
- have := lt_INR _ _ (elimT leP hr'); have := lt_INR _ _ (elimT leP hc').
  have := pos_INR r; have := pos_INR c; rewrite /Rabs; case: Rcase_abs => ?; lra.
- by exists c, r.
case: Req_EM_T => e1; case: eqP => // e2; first by case: e2; apply: INR_eq; lra.
by case: e1; rewrite e2; ring.
Qed.
