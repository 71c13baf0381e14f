(** C124: each component of an anisotropic layer enters the matrix of its own direction (PyTorch). *)
From Coq Require Import Reals Lra.
From Coquelicot Require Import Complex.
From mathcomp Require Import all_ssreflect ssralg ssrint matrix.
From Verif Require Import Cplx Spec SpecFourier ModelTM SpecSolve ModelFourier SpecLayer ProofFourier ProofConv ProofCell
  ProofLayer ProofRules ProofInvert ProofDFS ModelTorch ModelTorchObj ProofTorchObj2 PropertiesFourier.

Set Implicit Arguments.
Unset Strict Implicit.
Unset Printing Implicit Defensive.
Local Open Scope ring_scope.
Import GRing.Theory.

Lemma t_three_inv pinv n (epz epy epx : option 'M[C]_n) ex ey ezi : t_three_convs pinv false epz epy epx = Some (ex, ey, ezi) ->
  exists2 Z, [/\ epz = Some Z, epy = Some ey & epx = Some ex] & Z \in unitmx -> ezi = invmx Z.
Proof. by rewrite /t_three_convs; case: epz epy epx => [Z|] // [Y|] // [X|] // [<- <- <-]; exists Z => // hz; rewrite /t_inv hz. Qed.

Lemma t_cfs_uncompressed cx cy fx fy l : (0 < rows l)%N -> (0 < cols l)%N ->
  t_cfs cx cy fx fy l = cfs2d (eps_of (flipud l)) (pixels (cols l)) (pixels (rows l)) cx cy fx fy.
Proof.
move=> h1 h2; rewrite /t_cfs.
move: (compression_ok h1 h2) (fun tx ty => compression_tiles (tx := tx) (ty := ty) h1 h2).
case: (cell_compression l) => [[c x] y] [ox oy sx sy] T.
have [h3 h4] := full_ok h1; have [h5 h6] := full_ok h2.
by apply: (tiles_cfs2d (px' := 1%coqR) (py' := 1%coqR)) => //; rewrite ?pixelsE // => tx ty htx hty; rewrite T.
Qed.

(** The x component is factorised along x, the y component along y, the z component in neither direction; each is the picture
    of its own raster. *)
Theorem C124_continuous pinv fto_x fto_y lx ly lz ex ey ezi :
  [/\ (0 < rows lx)%N, (0 < rows ly)%N & (0 < rows lz)%N] -> [/\ (0 < cols lx)%N, (0 < cols ly)%N & (0 < cols lz)%N] ->
  t_conv_continuous pinv false fto_x fto_y (TAni lx ly lz) = Some (ex, ey, ezi) ->
  let f l := picture (rows l) (cols l) (eps_of l) in
  [/\ exists2 Z, z_rule (f lz) Z & (Z \in unitmx -> ezi = invmx Z), y_rule (f ly) ey & x_rule (f lx) ex].
Proof.
move=> [rx ry rz] [kx ky kz] /t_three_inv [Z [ez ey' ex'] hz] f.
move: ez ey' ex'; rewrite !t_cfs_uncompressed // => ez ey' ex'.
have co n : (0 < n)%N -> covers (pixels n) 1 by move=> hn; rewrite pixelsE //; case: (full_ok hn).
split.
- exists Z => // i j; have [Z' e H] := cfs2d_z (eps_of (flipud lz)) fto_x fto_y (co _ kz) (co _ rz).
  by move: e; rewrite ez => -[->]; exact: H.
- have [Y h1 h2] := cfs2d_epy (co _ ky) (co _ ry) ey'; exists Y => // tx ht; exact: h1.
have [Y h1 [h2 h3]] := cfs2d_epx (co _ kx) (co _ rx) ex'; split=> //; exists Y => // tx ht; exact: h1.
Qed.
Print Assumptions C124_continuous.

Theorem C124_discrete pinv e fto_x fto_y lx ly lz ex ey ezi :
  [/\ (0 < rows lx)%N, (0 < rows ly)%N & (0 < rows lz)%N] -> [/\ (0 < cols lx)%N, (0 < cols ly)%N & (0 < cols lz)%N] ->
  t_conv_discrete pinv false e fto_x fto_y (TAni lx ly lz) = Some (ex, ey, ezi) ->
  let big l := enlarge e fto_x fto_y l in let f l a b := eps_of (big l) b a in
  [/\ exists2 Z, z_rule_d (cols (big lz)) (rows (big lz)) (f lz) Z & (Z \in unitmx -> ezi = invmx Z),
      y_rule_d (cols (big ly)) (rows (big ly)) (f ly) ey & x_rule_d (cols (big lx)) (rows (big lx)) (f lx) ex].
Proof.
move=> [rx ry rz] [kx ky kz] /t_three_inv [Z [ez ey' ex'] hz] big f.
have hx l : (0 < rows l)%N -> (0 < cols l)%N -> (fto_x.*2 < cols (big l))%N.
  by move=> h1 h2; have [k1 k2] := enlarge_size e fto_x fto_y h1 h2; apply: dbl_lt.
have hy l : (0 < rows l)%N -> (0 < cols l)%N -> (fto_y.*2 < rows (big l))%N.
  by move=> h1 h2; have [k1 k2] := enlarge_size e fto_x fto_y h1 h2; apply: dbl_lt.
split.
- exists Z => // i j; move: ez; rewrite /t_dfs dfs2d_z //; [by move=> -[<-]; rewrite mxE|exact: hx|exact: hy].
- have [Y k1 k2] := dfs2d_epy (hx _ ry ky) (hy _ ry ky) ey'; exists Y => // a ha; exact: k1.
have [Y k1 [k2 k3]] := dfs2d_epx (hx _ rx kx) (hy _ rx kx) ex'; split=> //; exists Y => // a ha; exact: k1.
Qed.
Print Assumptions C124_discrete.

(** Vector layers: the components share the grid lines. *)
Theorem C124_vector pinv fto_x fto_y lx ly lz x y ex ey ezi : covers x 1 -> covers y 1 ->
  t_conv_vector pinv false fto_x fto_y (TAni lx ly lz, x, y) = Some (ex, ey, ezi) ->
  let f l := tiles x y (eps_of l) in
  [/\ exists2 Z, z_rule (f lz) Z & (Z \in unitmx -> ezi = invmx Z), y_rule (f ly) ey & x_rule (f lx) ex].
Proof.
move=> cx cy /t_three_inv [Z [ez ey' ex'] hz] f; split.
- exists Z => // i j; have [Z' e H] := cfs2d_z (eps_of lz) fto_x fto_y cx cy.
  by move: e; rewrite ez => -[->]; exact: H.
- have [Y h1 h2] := cfs2d_epy cx cy ey'; exists Y => // tx ht; exact: h1.
have [Y h1 [h2 h3]] := cfs2d_epx cx cy ex'; split=> //; exists Y => // tx ht; exact: h1.
Qed.
Print Assumptions C124_vector.

(** Three different components: the lossy pattern for x, the real one for y, a uniform 3 x 2 raster for z. *)
Definition flat_z : raster := Raster 3 2 (fun _ _ => RtoC 2).
Lemma flat_z_ok : all_px (fun n => 0 < Re (1 * n ^+ 2)%R)%coqR flat_z.
Proof. by move=> i j _ _; rewrite re_sq /= /Re /Im /=; lra. Qed.

Example C124_ex pinv fto_x fto_y e : exists c d,
  t_conv_continuous pinv false fto_x fto_y (TAni lossy glass flat_z) = Some c /\
  t_conv_discrete pinv false e fto_x fto_y (TAni lossy glass flat_z) = Some d.
Proof.
rewrite /t_conv_continuous /t_conv_discrete /=.
have [Z -> _] := @cfs_def fto_x fto_y flat_z 1 true true isT isT unit1 flat_z_ok isT.
have [Y -> _] := @cfs_def fto_x fto_y glass 1 true false isT isT unit1 glass_ok isT.
have [X -> _] := @cfs_def fto_x fto_y lossy 1 false true isT isT unit1 lossy_ok isT.
have [Z' -> _] := @dfs_def e fto_x fto_y flat_z 1 true true isT isT unit1 flat_z_ok isT.
have [Y' -> _] := @dfs_def e fto_x fto_y glass 1 true false isT isT unit1 glass_ok isT.
have [X' -> _] := @dfs_def e fto_x fto_y lossy 1 false true isT isT unit1 lossy_ok isT.
by do 2!eexists.
Qed.

Example C124_vector_ex pinv fto_x fto_y : let x := [:: 1 / 4; 1]%coqR in let y := [:: 1 / 4; 1 / 2; 1]%coqR in
  [/\ covers x 1, covers y 1 & exists c, t_conv_vector pinv false fto_x fto_y (TAni lossy glass flat_z, x, y) = Some c].
Proof.
move=> x y; have cx : covers x 1 by split=> //=; lra.
have cy : covers y 1 by split=> //=; lra.
split=> //; rewrite /t_conv_vector /=.
have [? [? [? [/three_inv [Z [-> _ _] _] _ _ _]]]] := @vector_defined pinv fto_x fto_y flat_z x y 1 1 1 cx cy erefl erefl unit1 flat_z_ok.
have [? [Y [? [/three_inv [? [_ -> _] _] _ _ _]]]] := @vector_defined pinv fto_x fto_y glass x y 1 1 1 cx cy erefl erefl unit1 glass_ok.
have [X [? [? [/three_inv [? [_ _ ->] _] _ _ _]]]] := @vector_defined pinv fto_x fto_y lossy x y 1 1 1 cx cy erefl erefl unit1 lossy_ok.
by eexists.
Qed.
