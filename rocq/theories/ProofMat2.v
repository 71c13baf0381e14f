(** Lemmas about material lookup: signs and dispersion formulas. *)
From Coq Require Import Reals ZArith Lra Lia.
From Coquelicot Require Import Coquelicot.
From mathcomp Require Import all_ssreflect ssralg.
From Verif Require Import Cplx ModelVec ModelMat SpecMat ProofMat.

Set Implicit Arguments.
Unset Strict Implicit.
Unset Printing Implicit Defensive.
Local Open Scope ring_scope.
Import GRing.Theory.

(** ** The interpolated value lies between two tabulated ones, sorted table or not *)
Lemma interp_go_conv x p ps : (p.1 <= x)%coqR -> exists q q', [/\ List.In q (p :: ps), List.In q' (p :: ps)
  & within q.2 q'.2 (interp_go x p ps)].
Proof.
elim: ps p => [|q ps ih] p hp.
  by exists p, p; split; [left|left|rewrite /within Rmin_left ?Rmax_left /=; lra].
rewrite /interp_go -/interp_go; case: rlebP => hq.
  by have [a [b [h1 h2 h3]]] := ih q hq; exists a, b; split; [right|right|].
case: Req_EM_T => e; exists p, q; split; [by left|by right; left| |by left|by right; left|].
  by rewrite /within; split; [apply: Rmin_l|apply: Rmax_l].
apply: (@on_line_within p.1 p.2 q.1 q.2 x); first lra.
by rewrite /on_line; field; lra.
Qed.

Lemma interp_conv x ps y : interp x ps = Some y -> exists q q', [/\ List.In q ps, List.In q' ps & within q.2 q'.2 y].
Proof.
case: ps => [|p ps] // [<-].
case: rltbP => h.
  have hl : List.In (last p ps) (p :: ps).
    by elim: ps p {h} => [|q ps ih] p /=; [left|right; apply: ih].
  by exists (last p ps), (last p ps); split=> //; rewrite /within Rmin_left ?Rmax_left; lra.
case: rltbP => h2; last by apply: interp_go_conv; lra.
by exists p, p; split; [left|left|rewrite /within Rmin_left ?Rmax_left; lra].
Qed.

Lemma In_col (f : row -> R) rs q : List.In q [seq (r_wl r, f r) | r <- rs] -> exists2 r, List.In r rs & q.2 = f r.
Proof.
elim: rs => [|r rs ih] //= [<-|/ih[q' h e]]; first by exists r => //; left.
by exists q' => //; right.
Qed.

Lemma interp_ge0 (f : row -> R) rs x y : (forall r, List.In r rs -> 0 <= f r)%coqR ->
  interp x [seq (r_wl r, f r) | r <- rs] = Some y -> (0 <= y)%coqR.
Proof.
move=> h /interp_conv[q [q' [/In_col[r hr e] /In_col[r' hr' e'] [hw _]]]].
apply: Rle_trans hw; rewrite e e'; apply: Rmin_glb; exact: h.
Qed.

Lemma csqrt_up z : (0 <= Im z)%coqR -> (0 <= Im (csqrt z))%coqR.
Proof.
move=> hz; rewrite /csqrt; case: Rlt_dec => h; first by case: (Rlt_not_le _ _ h hz).
by rewrite /Im /=; apply: sqrt_pos.
Qed.
Lemma csqrt_up_strict z : (0 < Im z)%coqR -> (0 < Im (csqrt z))%coqR /\ (0 < Re (csqrt z))%coqR.
Proof.
move=> hz; have h1 := csqrt_Re_ge0 z; have h2 := csqrt_up (Rlt_le _ _ hz); have := csqrt_sqr z.
move=> e; have : (Im z = 2 * Re (csqrt z) * Im (csqrt z))%coqR by rewrite -{1}e ImM; ring.
move: h1 h2; set a := Re _; set b := Im (csqrt z) => ha hb hi.
have ha' : a <> 0%coqR by move=> e0; rewrite e0 in hi; lra.
have hb' : b <> 0%coqR by move=> e0; rewrite e0 in hi; lra.
by split; lra.
Qed.

Section Sign.
Variables (wofz : C -> C) (quad : (R -> R) -> R -> R -> R -> R).
Notation find := (find_nk_index wofz quad).

Lemma sign_table m table wl rs b w z : resolve m table = Some (Rows rs, b) ->
  (forall r, List.In r rs -> 0 <= r_k r)%coqR ->
  find m table wl = Some (w, z) -> (Im z <= 0)%coqR.
Proof.
move=> e hk; case: rs e hk => [|r rs] e hk; first by rewrite /find_nk_index e.
have hne : r :: rs <> [::] by [].
have [n [k [w' [en ek ew ef]]]] := find_rows wofz quad wl e hne; rewrite ef => -[_ <-].
have := interp_ge0 hk ek; case: (b) => h; first by rewrite Im_RtoC; lra.
by rewrite Im_nk; lra.
Qed.

(** The [__real] variant is the real part of the plain one. *)
Lemma real_variant s table wl w z : last_n 6 s != real_suffix ->
  find (ByName s) table wl = Some (w, z) -> find (ByName (s ++ real_suffix)) table wl = Some (w, RtoC (Re z)).
Proof.
move=> h; rewrite /find_nk_index /resolve (negbTE h).
have -> : last_n 6 (s ++ real_suffix) = real_suffix.
  by rewrite /last_n size_cat addnK drop_size_cat.
have -> : but_last 6 (s ++ real_suffix) = s.
  by rewrite /but_last size_cat addnK take_size_cat.
rewrite eqxx; case: (lookup _ _) => [d|] //; case: (warns d wl) => [w'|] //.
rewrite /index_of; case: d => [rs| |sp] //.
  case: (interp wl [seq (r_wl r, r_n r) | r <- rs]) => [n|] //; case: (interp _ _) => [k|] // [<- <-].
  by rewrite Re_nk.
by case: (evaluate _ _ _ _) => [z'|] // [<- <-]; rewrite Re_conj.
Qed.
End Sign.

(** ** Sellmeier fits *)
Lemma sellmeierE pole wl2 n2 cs n : sellmeier pole wl2 n2 cs = Some n ->
  n = (n2 + foldr (fun i acc => nth 0%coqR cs i.*2 * wl2 / (wl2 - pole (nth 0%coqR cs i.*2.+1)) + acc)%coqR 0%coqR
        (seq.iota 0 (size cs)./2))%coqR.
Proof.
have [k] := ubnP (size cs); elim: k cs n2 => [|k ih] [|a [|b cs]] n2 //= hk; first by move=> [->]; ring.
case: Req_EM_T => h //= e.
rewrite (ih cs _ _ e); last by exact: ltnW hk.
rewrite -(addn0 1%N) iotaDl.
have -> : forall (f : nat -> R -> R) s, foldr f 0%coqR (map (addn 1%N) s) = foldr (fun i => f i.+1) 0%coqR s.
  by move=> f; elim=> [|x s IH] //=; rewrite IH.
by rewrite /= Rplus_assoc.
Qed.

Lemma sellmeier_eq pole cs wl z : formula_sellmeier pole cs wl = Some z ->
  Im z = 0%coqR /\ (0 <= Re z)%coqR /\
  (Re z * Re z - 1 = nth 0 cs 0 + sellmeier_sum pole (behead cs) wl)%coqR.
Proof.
case: cs => [|c0 cs] //=; case e: (sellmeier _ _ _ _) => [n2|] //.
rewrite /real_sqrt; case: rltbP => // h [<-]; split=> //; split; first exact: sqrt_pos.
have -> : Re (RtoC (sqrt n2)) = sqrt n2 by [].
rewrite sqrt_sqrt; last by lra.
by rewrite (sellmeierE e) /sellmeier_sum; ring.
Qed.

(** Normal dispersion: with non-negative strengths and no pole in between the index falls with the wavelength. *)
Fixpoint sell_ok (pole : R -> R) (L2 : R) (cs : seq R) : Prop :=
  match cs with a :: b :: cs' => [/\ (0 <= a)%coqR, (0 <= pole b)%coqR, (pole b < L2)%coqR & sell_ok pole L2 cs'] | _ => True end.

Fixpoint sell_between (pole : R -> R) (x y : R) (cs : seq R) : Prop :=
  match cs with a :: b :: cs' => [/\ (0 <= a)%coqR, (0 <= pole b)%coqR, (pole b < x \/ y < pole b)%coqR & sell_between pole x y cs']
              | _ => True end.

Lemma sellmeier_mono pole x y nx ny cs n m : (0 <= x <= y)%coqR -> sell_between pole x y cs -> (ny <= nx)%coqR ->
  sellmeier pole x nx cs = Some n -> sellmeier pole y ny cs = Some m -> (m <= n)%coqR.
Proof.
move=> hxy; have [k] := ubnP (size cs); elim: k cs nx ny => [|k ih] [|a [|b cs]] nx ny //= hk; first by move=> _ h [<-] [<-].
move=> [h1 h2 h3 h4] hn; case: Req_EM_T => // hx; case: Req_EM_T => // hy.
apply: ih => //; first by exact: ltnW hk.
have -> : (a * x / (x - pole b) = a + a * pole b / (x - pole b))%coqR by field; lra.
have -> : (a * y / (y - pole b) = a + a * pole b / (y - pole b))%coqR by field; lra.
have : (a * pole b / (y - pole b) <= a * pole b / (x - pole b))%coqR.
  apply: Rmult_le_compat_l; first exact: Rmult_le_pos.
  case: h3 => h3; first by apply: Rinv_le_contravar; lra.
  have -> : (y - pole b = - (pole b - y))%coqR by ring.
  have -> : (x - pole b = - (pole b - x))%coqR by ring.
  rewrite !Rinv_opp; apply: Ropp_le_contravar; apply: Rinv_le_contravar; lra.
by lra.
Qed.

Lemma sellmeier_ge pole x nx cs n : (0 <= x)%coqR -> sell_ok pole x cs -> sellmeier pole x nx cs = Some n -> (nx <= n)%coqR.
Proof.
move=> hx; have [k] := ubnP (size cs); elim: k cs nx => [|k ih] [|a [|b cs]] nx //= hk; first by move=> _ [<-]; lra.
move=> [h1 h2 h3 h4]; case: Req_EM_T => // hq e.
have hk' : (size cs < k)%N by exact: ltnW hk.
have := ih cs _ hk' h4 e.
have : (0 <= a * x / (x - pole b))%coqR.
  by apply: Rmult_le_pos; [exact: Rmult_le_pos|left; apply: Rinv_0_lt_compat; lra].
by lra.
Qed.

Lemma sellmeier_falls pole c0 cs x y zx zy : (0 <= x <= y)%coqR -> sell_between pole (x * x) (y * y) cs ->
  formula_sellmeier pole (c0 :: cs) x = Some zx -> formula_sellmeier pole (c0 :: cs) y = Some zy ->
  (Re zy <= Re zx)%coqR.
Proof.
move=> hxy hs; rewrite /formula_sellmeier.
case ex: (sellmeier pole (x * x) _ _) => [nx|] //; case ey: (sellmeier pole (y * y) _ _) => [ny|] //.
rewrite /real_sqrt; case: rltbP => // h1 [<-]; case: rltbP => // h2 [<-].
apply: sqrt_le_1_alt; apply: (sellmeier_mono _ hs _ ex ey); last lra.
by split; nra.
Qed.

(** It is evaluated at every wavelength above the poles. *)
Lemma sellmeier_defined pole c0 cs x : (0 <= x)%coqR -> (-1 <= c0)%coqR -> sell_ok pole (x * x) cs -> ~~ odd (size cs) ->
  exists z, formula_sellmeier pole (c0 :: cs) x = Some z.
Proof.
move=> hx h0 hs ho; rewrite /formula_sellmeier.
have hd : exists n, sellmeier pole (x * x) (1 + c0) cs = Some n.
  move: (1 + c0)%coqR hs ho; have [k] := ubnP (size cs); elim: k cs => [|k ih] [|a [|b cs]] //= hk n0.
    by exists n0.
  move=> [h1 h2 h3 h4]; rewrite negbK => ho; case: Req_EM_T => hq; first lra.
  by apply: ih => //; exact: ltnW hk.
case: hd => n e; rewrite e /real_sqrt; case: rltbP => h; last by exists (RtoC (sqrt n)).
by have := sellmeier_ge (Rle_0_sqr x) hs e; lra.
Qed.

Lemma above_ok pole cs L : above_poles pole cs L -> sell_ok pole (L * L) cs.
Proof.
have [k] := ubnP (size cs); elim: k cs => [|k ih] [|a [|b cs]] //= hk h.
have [h1 h2] := h 0%N isT; split=> //; [exact: (proj1 h2)|exact: (proj2 h2)|].
apply: ih; first by exact: ltnW hk.
by move=> i hi; exact: (h i.+1 hi).
Qed.

Lemma between_ok pole cs x y : no_pole_between pole cs x y -> sell_between pole (x * x) (y * y) cs.
Proof.
have [k] := ubnP (size cs); elim: k cs => [|k ih] [|a [|b cs]] //= hk h.
have [h1 [h2 h3]] := h 0%N isT; split=> //.
apply: ih; first by exact: ltnW hk.
by move=> i hi; exact: (h i.+1 hi).
Qed.
