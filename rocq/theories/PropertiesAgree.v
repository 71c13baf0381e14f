(** Agreement between runs: the eigenvectors LAPACK returns do not matter, and the three solvers agree where they overlap. *)
From Coq Require Import Reals ZArith Lra Psatz.
From mathcomp Require Import all_ssreflect ssralg matrix.
From Coquelicot Require Import Complex.
From Verif Require Import Cplx Mx Spec SpecSolve SpecFilm SpecLayer SpecField SpecAgree ModelTM ModelField ProofSetup ProofEnd
  ProofWell ProofAgree2 ProofAgree3 ExampleKit.

Set Implicit Arguments.
Unset Strict Implicit.
Unset Printing Implicit Defensive.
Local Open Scope ring_scope.
Import GRing.Theory.

(** ** C74: efficiencies, amplitudes and near fields do not depend on the eigenvectors (or on the pseudo-inverse) the linear
    algebra library returns: order, scaling and choice of basis are free. *)
Theorem C74_eigenbasis_1d pinv pinv' eig eig' : eigen_oracle eig -> eigen_oracle eig' ->
  forall s w (convs : seq (conv3 (ff_x s))) r T1 infos r' T1' infos',
  (forall t, List.In t (thickness s) -> (0 <= t)%coqR) ->
  solve_1d pinv eig false s w convs = Some (r, T1, infos) ->
  solve_1d pinv' eig' false s w convs = Some (r', T1', infos') ->
  r = r' /\ forall px p rx rz,
  same_samples rz (field_1d w (kx_vector s w) T1 infos px p rx rz) (field_1d w (kx_vector s w) T1' infos' px p rx rz).
Proof. exact (@same_1d pinv pinv' eig eig'). Qed.
Print Assumptions C74_eigenbasis_1d.

Theorem C74_eigenbasis_2d pinv pinv' eig eig' : eigen_oracle eig -> eigen_oracle eig' ->
  forall s w (convs : seq (conv3 (ff_y s * ff_x s))), physical s -> (forall t, List.In t (thickness s) -> (0 <= t)%coqR) ->
  forall r infos r' infos',
  solve_2d pinv eig false s w convs = Some (r, infos) -> solve_2d pinv' eig' false s w convs = Some (r', infos') ->
  same3 r r' /\
  same_fields r r' (fun px py rx ry rz t => field_2d w (kx_tiled s w) (ky_tiled s w) t infos px py rx ry rz)
    (fun px py rx ry rz t => field_2d w (kx_tiled s w) (ky_tiled s w) t infos' px py rx ry rz).
Proof. exact (@same_2d pinv pinv' eig eig'). Qed.
Print Assumptions C74_eigenbasis_2d.

Theorem C74_eigenbasis_conical pinv pinv' eig eig' : eigen_oracle eig -> eigen_oracle eig' ->
  forall s w (convs : seq (conv3 (ff_y s * ff_x s))), physical s -> (forall t, List.In t (thickness s) -> (0 <= t)%coqR) ->
  (forall c, List.In c (used s convs) -> line_convs c) ->
  forall r infos r' infos',
  solve_1d_conical pinv eig false s w convs = Some (r, infos) ->
  solve_1d_conical pinv' eig' false s w convs = Some (r', infos') ->
  same3 r r' /\
  same_fields r r' (fun px py rx ry rz t => field_conical w (kx_tiled s w) (ky_tiled s w) t infos px py rx ry rz)
    (fun px py rx ry rz t => field_conical w (kx_tiled s w) (ky_tiled s w) t infos' px py rx ry rz).
Proof. exact (@same_conical pinv pinv' eig eig'). Qed.
Print Assumptions C74_eigenbasis_conical.

(** A patterned two-layer grating solved with two different eigenvector normalisations. *)
Example C74_ex (ps pl : R) : pl = 0%coqR \/ pl = 1%coqR ->
  let ts := [:: 1; 2]%coqR in let s := s_ex None (RtoC ps) pl ts in let s0 := s_ex0 (RtoC ps) pl ts in
  exists r T1 infos r' T1' infos' r2 i2 r2' i2' r3 i3 r3' i3',
  [/\ solve_1d pinv_ex eig_ex false s 1 (nseq 2 conv_ex) = Some (r, T1, infos) /\
      solve_1d pinv_ex eig_ex2 false s 1 (nseq 2 conv_ex) = Some (r', T1', infos'),
      solve_2d pinv_ex eig_ex false s0 1 (nseq 2 conv_ex) = Some (r2, i2) /\
      solve_2d pinv_ex eig_ex2 false s0 1 (nseq 2 conv_ex) = Some (r2', i2'),
      solve_1d_conical pinv_ex eig_ex false s0 1 (nseq 2 conv_ex) = Some (r3, i3) /\
      solve_1d_conical pinv_ex eig_ex2 false s0 1 (nseq 2 conv_ex) = Some (r3', i3')
    & [/\ r = r', same3 r2 r2' & same3 r3 r3']].
Proof.
move=> hpl ts s s0.
have [r [T1 [infos e]]] := solve_1d_ex pinv_ex (RtoC ps) ts hpl.
have [r' [T1' [infos' e']]] := solve_1d_ex_by eig_ex2_ok eig_ex2_prop pinv_ex (RtoC ps) ts hpl.
have [r2 [i2 e2]] := solve_2d_ex pinv_ex (RtoC ps) pl ts.
have [r2' [i2' e2']] := solve_2d_ex_by eig_ex2_ok eig_ex2_prop pinv_ex (RtoC ps) pl ts.
have [r3 [i3 e3]] := solve_conical_ex pinv_ex (RtoC ps) pl ts.
have [r3' [i3' e3']] := solve_conical_ex_by eig_ex2_ok eig_ex2_prop pinv_ex (RtoC ps) pl ts.
exists r, T1, infos, r', T1', infos', r2, i2, r2', i2', r3, i3, r3', i3'.
have hd : forall t, List.In t (thickness s) -> (0 <= t)%coqR by move=> t /= [<-|[<-|[]]]; lra.
have hp : physical s0 by exact: physical_ex0.
have hl c : List.In c (used s0 (nseq 2 conv_ex)) -> line_convs c by move=> /used_ex ->; exact: conv_ex_line.
split; [by split; [exact e|exact e']|by split; [exact e2|exact e2']|by split; [exact e3|exact e3']|split].
- by have [] := C74_eigenbasis_1d eig_ex_ok eig_ex2_ok hd e e'.
- by have [] := C74_eigenbasis_2d eig_ex_ok eig_ex2_ok hp hd e2 e2'.
- by have [] := C74_eigenbasis_conical eig_ex_ok eig_ex2_ok hp hd hl e3 e3'.
Qed.

(** ** C75: on line gratings the conical solver and the 2D solver return the same results and near fields. *)
Theorem C75_conical_is_2d pinv pinv' eig eig' : eigen_oracle eig -> eigen_oracle eig' ->
  forall s w (convs : seq (conv3 (ff_y s * ff_x s))), physical s -> (forall t, List.In t (thickness s) -> (0 <= t)%coqR) ->
  (forall c, List.In c (used s convs) -> line_convs c) ->
  forall r infos r' infos',
  solve_1d_conical pinv eig false s w convs = Some (r, infos) -> solve_2d pinv' eig' false s w convs = Some (r', infos') ->
  same3 r r' /\
  same_fields r r' (fun px py rx ry rz t => field_conical w (kx_tiled s w) (ky_tiled s w) t infos px py rx ry rz)
    (fun px py rx ry rz t => field_2d w (kx_tiled s w) (ky_tiled s w) t infos' px py rx ry rz).
Proof. exact (@same_conical_2d pinv pinv' eig eig'). Qed.
Print Assumptions C75_conical_is_2d.

Example C75_ex (ps pl : R) : let ts := [:: 1; 2]%coqR in let s := s_ex0 (RtoC ps) pl ts in
  exists r infos r' infos',
  [/\ solve_1d_conical pinv_ex eig_ex false s 1 (nseq 2 conv_ex) = Some (r, infos),
      solve_2d pinv_ex eig_ex false s 1 (nseq 2 conv_ex) = Some (r', infos') & same3 r r'].
Proof.
move=> ts s.
have [r [infos e]] := solve_conical_ex pinv_ex (RtoC ps) pl ts.
have [r' [infos' e']] := solve_2d_ex pinv_ex (RtoC ps) pl ts.
exists r, infos, r', infos'; split; [exact e|exact e'|].
have hd : forall t, List.In t (thickness s) -> (0 <= t)%coqR by move=> t /= [<-|[<-|[]]]; lra.
have hp : physical s by exact: physical_ex0.
have hl c : List.In c (used s (nseq 2 conv_ex)) -> line_convs c by move=> /used_ex ->; exact: conv_ex_line.
by have [] := C75_conical_is_2d eig_ex_ok eig_ex_ok hp hd hl e e'.
Qed.

(** ** C76: at azimuth 0 the classical-mount solver, the conical solver and the 2D solver agree order by order; the conical
    and 2D solvers do not couple the polarisations, so mixed incidence gives the mixture of the efficiencies. *)
Theorem C76_classical_is_conical pinv pinv' eig eig' : eigen_oracle eig -> eigen_oracle eig' ->
  forall s w (convs : seq (conv3 (ff_x s))) (e : ff_x s = (ff_y s * ff_x s)%N), physical s ->
  (forall t, List.In t (thickness s) -> (0 <= t)%coqR) -> phi_val s = 0 -> fto_y s = 0%N ->
  (forall c, List.In c (used s convs) -> line_convs c) ->
  forall r1 T1 infos1 r infos,
  solve_1d pinv eig false s w convs = Some (r1, T1, infos1) ->
  solve_1d_conical pinv' eig' false s w (map (cast_conv e) convs) = Some (r, infos) ->
  same_orders (tm_of s) (scale_of s) r1 (pure s r).
Proof. exact (@orders_conical pinv pinv' eig eig'). Qed.
Print Assumptions C76_classical_is_conical.

Theorem C76_classical_is_2d pinv pinv' eig eig' : eigen_oracle eig -> eigen_oracle eig' ->
  forall s w (convs : seq (conv3 (ff_x s))) (e : ff_x s = (ff_y s * ff_x s)%N), physical s ->
  (forall t, List.In t (thickness s) -> (0 <= t)%coqR) -> phi_val s = 0 -> fto_y s = 0%N ->
  forall r1 T1 infos1 r infos,
  solve_1d pinv eig false s w convs = Some (r1, T1, infos1) ->
  solve_2d pinv' eig' false s w (map (cast_conv e) convs) = Some (r, infos) ->
  same_orders (tm_of s) (scale_of s) r1 (pure s r).
Proof. exact (@orders_2d pinv pinv' eig eig'). Qed.
Print Assumptions C76_classical_is_2d.

Theorem C76_mixture_conical pinv eig : eigen_oracle eig -> forall s w (convs : seq (conv3 (ff_y s * ff_x s))), physical s ->
  (forall t, List.In t (thickness s) -> (0 <= t)%coqR) -> phi_val s = 0 -> fto_y s = 0%N ->
  (forall c, List.In c (used s convs) -> line_convs c) ->
  forall r infos (f : R), psi s = RtoC f -> solve_1d_conical pinv eig false s w convs = Some (r, infos) ->
  mixture (sin f ^ 2)%coqR (cos f ^ 2)%coqR (res r) (res_te_inc r) (res_tm_inc r).
Proof. move=> he s w convs hp hd h0 hy hl r infos f hf; exact (mix_conical he hp hd h0 hy hf hl). Qed.
Print Assumptions C76_mixture_conical.

Theorem C76_mixture_2d pinv eig : eigen_oracle eig -> forall s w (convs : seq (conv3 (ff_y s * ff_x s))), physical s ->
  (forall t, List.In t (thickness s) -> (0 <= t)%coqR) -> phi_val s = 0 -> fto_y s = 0%N ->
  forall r infos (f : R), psi s = RtoC f -> solve_2d pinv eig false s w convs = Some (r, infos) ->
  mixture (sin f ^ 2)%coqR (cos f ^ 2)%coqR (res r) (res_te_inc r) (res_tm_inc r).
Proof. move=> he s w convs hp hd h0 hy r infos f hf; exact (mix_2d he hp hd h0 hy hf). Qed.
Print Assumptions C76_mixture_2d.

(** A patterned grating, TE or TM, all three solvers. *)
Example C76_ex (ps pl : R) : pl = 0%coqR \/ pl = 1%coqR ->
  let ts := [:: 1; 2]%coqR in let s := s_ex0 (RtoC ps) pl ts in
  exists r1 T1 infos1 r infos r' infos',
  [/\ solve_1d pinv_ex eig_ex false s 1 (nseq 2 conv_ex) = Some (r1, T1, infos1),
      solve_1d_conical pinv_ex eig_ex false s 1 (nseq 2 conv_ex) = Some (r, infos),
      solve_2d pinv_ex eig_ex false s 1 (nseq 2 conv_ex) = Some (r', infos'),
      same_orders (tm_of s) (scale_of s) r1 (pure s r) /\ same_orders (tm_of s) (scale_of s) r1 (pure s r')
    & mixture (sin ps ^ 2)%coqR (cos ps ^ 2)%coqR (res r) (res_te_inc r) (res_tm_inc r)].
Proof.
move=> hpl ts s.
have [r1 [T1 [i1 e1]]] := solve_1d_ex pinv_ex (RtoC ps) ts hpl.
have [r [i e]] := solve_conical_ex pinv_ex (RtoC ps) pl ts.
have [r' [i' e']] := solve_2d_ex pinv_ex (RtoC ps) pl ts.
exists r1, T1, i1, r, i, r', i'.
have hd : forall t, List.In t (thickness s) -> (0 <= t)%coqR by move=> t /= [<-|[<-|[]]]; lra.
have hp : physical s by exact: physical_ex0.
have hl c : List.In c (used s (nseq 2 conv_ex)) -> line_convs c by move=> /used_ex ->; exact: conv_ex_line.
have e1' : solve_1d pinv_ex eig_ex false s 1 (nseq 2 conv_ex) = Some (r1, T1, i1) by rewrite -e1.
have ec : map (cast_conv (erefl : ff_x s = (ff_y s * ff_x s)%N)) (nseq 2 conv_ex) = nseq 2 conv_ex.
  by rewrite /= /cast_conv /conv_ex !castmx_id.
split; [exact e1'|exact e|exact e'|split|].
- apply: (C76_classical_is_conical eig_ex_ok eig_ex_ok hp hd _ _ hl e1'); [by []|by []|rewrite ec; exact e].
- apply: (C76_classical_is_2d eig_ex_ok eig_ex_ok hp hd _ _ e1'); [by []|by []|rewrite ec; exact e'].
- exact: (C76_mixture_conical eig_ex_ok hp hd erefl erefl hl (f := ps) erefl e).
Qed.
