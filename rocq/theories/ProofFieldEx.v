(** calculate_field after the settings have changed: what it depends on, and an object on which it goes wrong. *)
From Coq Require Import Reals ZArith Lra Psatz.
From mathcomp Require Import all_ssreflect ssralg matrix.
From Coquelicot Require Import Complex.
From Verif Require Import Cplx Mx Spec SpecSolve SpecFilm SpecLayer SpecField ModelTM ModelFourier ModelVec ModelField ModelState SpecState
  ProofSetup ProofState ProofState2 ProofEnd ProofEnd2 ProofBVP ProofFieldSolve ExampleKit PropertiesFilm PropertiesFourier ProofObjEx.

Set Implicit Arguments.
Unset Strict Implicit.
Unset Printing Implicit Defensive.
Local Open Scope ring_scope.
Import GRing.Theory.

(** ** What the field depends on *)
Section Inputs.
Variable pinv : forall n, 'M[C]_n -> 'M[C]_n.
Variable eig : forall n, 'M[C]_n -> 'rV[C]_n * 'M[C]_n.

Definition keeps (o o' : obj) := o_memo o' = o_memo o /\ o_grating o' = o_grating o.


Ltac frame := rewrite /keeps; repeat match goal with |- context [match ?x with _ => _ end] => destruct x end; by [].

Lemma keeps_trans o o1 o2 : keeps o o1 -> keeps o1 o2 -> keeps o o2.
Proof. by rewrite /keeps => -[-> ->] [-> ->]. Qed.
Lemma keeps_theta v o : keeps o (assign_theta v o).1. Proof. rewrite /assign_theta; frame. Qed.
Lemma keeps_phi v o : keeps o (assign_phi v o).1. Proof. rewrite /assign_phi; frame. Qed.
Lemma keeps_psi v o : keeps o (assign_psi v o).1. Proof. rewrite /assign_psi; frame. Qed.
Lemma keeps_pol v o : keeps o (assign_pol v o).1. Proof. rewrite /assign_pol; frame. Qed.
Lemma keeps_fto v o : keeps o (assign_fto v o).1. Proof. rewrite /assign_fto; frame. Qed.
Lemma keeps_period v o : keeps o (assign_period v o).1. Proof. rewrite /assign_period; frame. Qed.
Lemma keeps_thickness v o : keeps o (assign_thickness v o).1. Proof. rewrite /assign_thickness; frame. Qed.
Lemma keeps_ucell v o : keeps o (assign_ucell v o).1. Proof. rewrite /assign_ucell; frame. Qed.
Lemma keeps_retype b o : keeps o (retype b o).1.
Proof.
rewrite /retype; set o1 := set_single b o.
have h1 : keeps o o1 by [].
have := keeps_theta (val_angle (o_theta o1)) o1; case: (assign_theta _ _) => o2 [] /= h2; first exact: keeps_trans h1 h2.
have := keeps_phi (val_angle (o_phi o2)) o2; case: (assign_phi _ _) => o3 [] /= h3; first by apply: keeps_trans h3; apply: keeps_trans h2.
have h03 : keeps o o3 by apply: keeps_trans h3; apply: keeps_trans h2.
have := keeps_fto (val_fto (o_fto o3)) o3; case: (assign_fto _ _) => o4 [] /= h4; first exact: keeps_trans h03 h4.
by apply: keeps_trans (keeps_thickness _ _); exact: keeps_trans h03 h4.
Qed.
Lemma keeps_type v o : keeps o (assign_type_complex v o).1.
Proof.
rewrite /assign_type_complex.
by repeat match goal with |- context [match ?x with _ => _ end] => destruct x end; by [|exact: keeps_retype].
Qed.

Lemma op_keeps a o : ~~ is_solve a -> keeps o (do_op pinv eig a o).1.
Proof.
case: a => [v|v|v|v|v|v|v|v|v|c|nt nb|w|al up ft en||rx ry rz sel] //= _.
- exact: keeps_theta.
- exact: keeps_phi.
- exact: keeps_psi.
- exact: keeps_pol.
- exact: keeps_fto.
- exact: keeps_period.
- exact: keeps_thickness.
- exact: keeps_type.
- exact: keeps_ucell.
Qed.

Lemma after_keeps h o : all (fun a => ~~ is_solve a) h -> keeps o (after pinv eig h o).
Proof.
elim: h o => [|a h IH] o //= /andP[ha hh]; apply: keeps_trans (op_keeps o ha) _.
exact: (IH _ hh).
Qed.

End Inputs.

Lemma field_inputs o1 o2 rx ry rz sel : same_field_settings o1 o2 -> keeps o1 o2 ->
  calculate_field o2 rx ry rz sel = calculate_field o1 rx ry rz sel.
Proof.
move=> [[h1 h2 h3 h4] [h5 h6 h7]] [h8 h9].
have hp : pol_flag (o_pol o1) = pol_flag (o_pol o2).
  rewrite /pol_flag; case: eqP => [/h7 ->|n1]; first by rewrite eqxx.
  by case: eqP => // /h7.
have e1 : fto_of o2 = fto_of o1 by rewrite /fto_of h1.
have e2 : period_of o2 = period_of o1 by rewrite /period_of h4.
rewrite /calculate_field e1 e2 -h2 -h5 -hp h8 h9.
case: (fto_of o1) => [[fx fy]|]; last by [].
case: (o_theta o1) => [th|]; last by [].
case: (period_of o1) => [[px py]|]; last by [].
case: (reqb _ _); first by [].
have ex : kx_vector (setup_of o2 fx fy th (px, py) [::]) = kx_vector (setup_of o1 fx fy th (px, py) [::]).
  by rewrite /kx_vector /sin_theta /phi_val /= h3 h6.
have ey : ky_vector (setup_of o2 fx fy th (px, py) [::]) = ky_vector (setup_of o1 fx fy th (px, py) [::]).
  by rewrite /ky_vector /sin_theta /phi_val /= h3 h6.
rewrite /kx_tiled /ky_tiled ex ey; reflexivity.
Qed.

(** ** Solve with pol = 0, then set pol = 1: the sign of the tangential H component flips *)

(** Index 2 everywhere. *)
Definition obj2 (ts : seq R) : obj := set_indices (RtoC 2) (RtoC 2) (obj_ex 0 ts).

Definition s2 (ts : seq R) : setup := Setup (RtoC 2) (RtoC 2) (RtoC th_ex) None (psi_of (RtoC 0)) 0 1 0 2 2 ts.

Lemma obj2_solves pv ts : exists o' r T1 infos,
  [/\ conv_solve pv eig_ex (obj2 ts) = (o', Solved (Report (Some r) None None)),
      o' = set_memo (Some 0%N) (@M1d 3 T1 infos) (obj2 ts) &
      solve_1d pv eig_ex false (s2 ts) 1 (map (fun ed => uniform_convs 3 ed.1) (films_ex ts)) = Some (r, T1, infos)].
Proof.
set s := s2 ts; have b2 : (0 < 2)%coqR by lra.
have hp : (0 = 0 \/ 0 = 1)%coqR by left.
have hord : (forall i : 'I_(ff_x s), let x := order_kx 2 th_ex (fto_x s) i 1 (period_x s) in
     (x * x < 2 * 2)%coqR /\ (x * x < 2 * 2)%coqR).
  rewrite /order_kx /s /= sin_th_ex; by case=> -[|[|[|//]]] /= _; split; lra.
have [r [T1 [infos e]]] := sub_films_return pv (s := s) (w := 1) erefl b2 erefl th_ex_bound erefl erefl b2 hp (films_ex_d ts) (@films_ex_in ts) hord.
have ep : period_of (obj2 ts) = Some (2, 2)%coqR by rewrite /period_of /= /reqb; case: Req_EM_T => //= h; lra.
have ew : o_wavelength (obj2 ts) <> 0%coqR by rewrite /=; lra.
have ec : convs_of pv (obj2 ts) 1 0 = Some (nseq (size ts) (uniform_convs _ (RtoC 2 ^+ 2))) := convs_ex pv 0 ts.
rewrite (conv_solve_run (o := obj2 ts) (fx := 1) (fy := 0) (th := RtoC th_ex) eig_ex erefl ec erefl ep ew).
have -> : grating_of (obj2 ts) 0 = Some 0%N.
  by rewrite /grating_of /=; have -> // : (RtoC 0 == 0) || (RtoC 0 == 1) by rewrite eqxx.
rewrite /solve_with /=.
have -> : [seq crop3 (1.*2.+1) c | c <- nseq (size ts) (uniform_convs (0.*2.+1 * 1.*2.+1) (RtoC 2 ^+ 2))] =
   map (fun ed => uniform_convs 3 ed.1) (films_ex ts).
  rewrite map_nseq (_ : crop3 _ _ = uniform_convs 3 (RtoC (2 * 2))); last first.
    by rewrite /crop3 /uniform_convs !(@crop_scalar _ 3) // expr2 RtoC_mul.
  rewrite /films_ex -map_comp.
  by elim: ts {s hord r T1 infos e ep ew ec} => //= t ts ->.
have e' : solve_1d pv eig_ex false (setup_of (obj2 ts) 1 0 (RtoC th_ex) (2, 2)%coqR ts) 1
   (map (fun ed => uniform_convs 3 ed.1) (films_ex ts)) = Some (r, T1, infos) := e.
by rewrite e'; do 4 eexists; split; reflexivity.
Qed.

Lemma synth0 n (ph : nat -> C) (M : 'cV[C]_n) : (forall j, ph j = 0) -> synth ph M = \sum_(j < n) M j ord0.
Proof. by move=> h; rewrite /synth; apply: eq_bigr => j _; rewrite h cexp0 mul1r. Qed.

Definition hx_at (f : outcome) : C := if f is FieldOf (Field1d (g :: _)) then (g 0%N 0%N).1.2 else 0.

Lemma obj2_hx ts t r T1 infos pv p : 
  solve_1d pv eig_ex false (s2 (t :: ts)) 1 (map (fun ed => uniform_convs 3 ed.1) (films_ex (t :: ts))) = Some (r, T1, infos) ->
  hx_at (FieldOf (Field1d (field_1d 1 (kx_vector (s2 (t :: ts)) 1) T1 infos 2 p 1 1))) =
  (if reqb p 0 then ci else - ci) * (- ci * RtoC (2 * cos th_ex)).
Proof.
move=> e; have b2 : (0 < 2)%coqR by lra.
have hR := C11_matched eig_ex_ok (s := s2 (t :: ts)) erefl b2 erefl th_ex_bound erefl erefl (@films_ex_in _) (films_ex_d _) e.
have := flow_solve_1d e; rewrite -[pol (s2 _)]/(0%coqR) is_tm0 in hR *.
rewrite /field_profiles_1d /field_1d; move: (kx_vector _ _) => kx.
case: (descend _ _ _) => [|x xs]; first by [].
rewrite !map_cons; case=> hx _; rewrite /hx_at z_point_first /linspace.
have {hx} : (modes_1d 0 (k0_of 1) kx x.1 x.2 0).1.2 = \col_i (- ci * (RtoC 2 * ccos (RtoC th_ex)) * (if i == (3 %/ 2)%N :> nat then 1 else 0)).
  rewrite [LHS](congr1 snd hx); apply/colP => i; rewrite !mxE; have [_ _ -> _] := hR i.
  by rewrite mulr0 addr0.
rewrite (modes_tang 0 p); case: (modes_1d _ _ _ _ _ _) => [[My Mx] Mz] /= ->.
congr (_ * _); rewrite synth0; last by move=> j; rewrite !mul0r mulr0.
rewrite !big_ord_recl big_ord0 !mxE /= !(mulr1, mulr0, addr0, add0r) ccos_real RtoC_mul.
by [].
Qed.

Lemma obj2_field pv ts t : let o := (conv_solve pv eig_ex (obj2 (t :: ts))).1 in
  hx_at (calculate_field o 1 1 1 (true, true, true)) = RtoC (2 * cos th_ex) /\
  hx_at (calculate_field (set_polar (psi_of 1) 1 o) 1 1 1 (true, true, true)) = - RtoC (2 * cos th_ex).
Proof.
have [o' [r [T1 [infos [-> -> e]]]]] := obj2_solves pv (t :: ts); move=> o.
have ep : period_of (obj2 (t :: ts)) = Some (2, 2)%coqR by rewrite /period_of /= /reqb; case: Req_EM_T => //= h; lra.
have ew : reqb 1 0 = false by rewrite /reqb; case: Req_EM_T => // h; lra.
have h0 := obj2_hx 0 e; have h1 := obj2_hx 1 e.
have ek : kx_vector (s2 (t :: ts)) 1 = kx_vector (setup_of o 1 0 (RtoC th_ex) (2, 2)%coqR [::]) 1 by [].
have ek1 : kx_vector (s2 (t :: ts)) 1 = kx_vector (setup_of (set_polar (psi_of 1) 1 o) 1 0 (RtoC th_ex) (2, 2)%coqR [::]) 1 by [].
have ew0 : reqb 0 0 = true by rewrite /reqb; case: Req_EM_T.
have pf0 : pol_flag (o_pol o) = 0%coqR by rewrite /pol_flag [o_pol o]/(RtoC 0) eqxx.
have pf1 : pol_flag 1 = 1%coqR by rewrite /pol_flag oner_eq0.
have em : o_memo o = @M1d 3 T1 infos by [].
rewrite ek ew0 in h0; rewrite ek1 ew in h1.
split.
- rewrite /calculate_field -[fto_of o]/(Some (1, 0))%N -[o_theta o]/(Some (RtoC th_ex)) -[period_of o]/(period_of (obj2 (t :: ts))) ep.
  by rewrite -[o_wavelength o]/(1%coqR) ew em -[_ == ff_x _]/true pf0 h0 mulrA mulrN ci2 opprK mul1r.
rewrite /calculate_field; set o1 := set_polar _ _ _.
rewrite -[fto_of o1]/(Some (1, 0))%N -[o_theta o1]/(Some (RtoC th_ex)) -[period_of o1]/(period_of (obj2 (t :: ts))) ep.
by rewrite -[o_wavelength o1]/(1%coqR) ew -[o_memo o1]/(o_memo o) em -[_ == ff_x _]/true -[o_pol o1]/(1 : C) pf1 h1 mulrA mulrNN ci2 mulN1r.
Qed.
