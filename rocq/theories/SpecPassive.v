(** Vocabulary about absorption: where the power that is neither reflected nor transmitted goes. *)
From Coq Require Import Reals.
From mathcomp Require Import all_ssreflect ssralg matrix.
From Coquelicot Require Import Complex Hierarchy RInt.
From Verif Require Import Cplx Spec SpecSolve SpecField SpecVec ModelTM ModelVec ModelState.

Set Implicit Arguments.
Unset Strict Implicit.
Unset Printing Implicit Defensive.
Local Open Scope ring_scope.

(** v^H A v. *)
Definition quad n (A : 'M[C]_n) (v : 'cV[C]_n) : C := \sum_i \sum_j conj (v i ord0) * A i j * v j ord0.

(** Convolution matrices of a layer without gain (time dependence exp(+i w t): the imaginary part of a permittivity is
    negative); the third matrix is an inverse permittivity. *)
Definition passive_convs n (c : conv3 n) : Prop :=
  let '(ex, ey, ez) := c in
  forall v, [/\ (Im (quad ex v) <= 0)%coqR, (Im (quad ey v) <= 0)%coqR & (0 <= Im (quad ez v))%coqR].

(** No more power comes out than went in. *)
Definition power_bounded n (r : diffraction n) : Prop := (total (de_ri r) + total (de_ti r) <= 1)%coqR.
Definition power_bounded3 n (r : sp_result n) : Prop :=
  [/\ power_bounded (res r), power_bounded (res_te_inc r) & power_bounded (res_tm_inc r)].

(** Every index of the unit cell has a permittivity with non-positive imaginary part; drawn objects lie in the period and no
    two of their edges coincide. *)
Definition passive_index (n : C) : Prop := (Im (n ^+ 2)%R <= 0)%coqR.
Definition passive_cell_of (o : obj) : Prop :=
  match o_cell o with
  | CRaster ny nx layers => forall f, List.In f layers -> forall i j, (i < ny)%N -> (j < nx)%N -> passive_index (f i j)
  | CVector ins => forall b objs, List.In (b, objs) ins ->
      [/\ passive_index b, forall ob r, List.In ob objs -> List.In r (draw_object ob) -> passive_index (r_index r)
        & forall p, period_of o = Some p -> general_position p.1 p.2 (flatten (map draw_object objs))]
  | _ => True
  end.
Definition thick_obj (o : obj) : Prop := forall ts t, o_thickness o = A1 ts -> List.In t ts -> (0 <= t)%coqR.

(** Power dissipated per unit depth at depth z: - E^H Im(eps) E summed over the components of E, the z component being
    written through D_z.  TE has the component Ey = u; TM has Ex = v and D_z = kx u; the general case has (Ex, Ey) = u and
    D_z = kx Hy - ky Hx with (Hx, Hy) = v. *)
Definition joule_1d n (tm : bool) (k0 : R) (kx : nat -> C) (c : conv3 n) (f : profile_of n) (z : R) : R :=
  let '(ex, ey, ez) := c in
  if tm then (k0 * (- Im (quad ex (f.2 z)) + Im (quad ez (\col_i (kx i * f.1 z i ord0)%R))))%coqR
  else (k0 * - Im (quad ey (f.1 z)))%coqR.
Definition joule_sp n (k0 : R) (kx ky : nat -> C) (c : conv3 n) (f : profile_of (n + n)) (z : R) : R :=
  let '(ex, ey, ez) := c in
  let dz : 'cV[C]_n := \col_i (kx i * f.2 z (rshift n i) ord0 - ky i * f.2 z (lshift n i) ord0) in
  (k0 * (- Im (quad ex (usubmx (f.1 z))) - Im (quad ey (dsubmx (f.1 z))) + Im (quad ez dz)))%coqR.

(** The power dissipated in a stack: the sum over the layers of the integral of the density over the thickness. *)
Fixpoint dissipated (L F : Type) (density : L -> F -> R -> R) (ls : seq L) (ds : seq R) (fs : seq F) (a : R) : Prop :=
  match ds, ls, fs with
  | d :: ds', l :: ls', f :: fs' => exists b c : R,
      [/\ is_RInt (density l f) 0%coqR d b, dissipated density ls' ds' fs' c & a = (b + c)%coqR]
  | [::], _, [::] => a = 0%coqR
  | _, _, _ => False
  end.

(** Reflected, transmitted and dissipated power make up the incident power [p]. *)
Definition power_balance n (p : R) (r : diffraction n) (a : R) : Prop :=
  (total (de_ri r) + total (de_ti r) + a / p = 1)%coqR.

(** Power of the incident wave, in the units of the densities: n cos(theta), for TM divided by n^2. *)
Definition incident_power (tm : bool) (nt th : R) : R := if tm then (cos th / nt)%coqR else (nt * cos th)%coqR.

(** The balance for each of the three reported incidences, with the field of each. *)
Definition balance3 n (dens : conv3 n -> profile_of (n + n) -> R -> R) (cs : seq (conv3 n)) ts (p : R) (r : sp_result n)
  (fields : 'cV[C]_(n + n) -> seq (profile_of (n + n))) : Prop :=
  [/\ exists2 a, dissipated dens cs ts (fields (T1_res r)) a & power_balance p (res r) a,
      exists2 a, dissipated dens cs ts (fields (T1_te r)) a & power_balance p (res_te_inc r) a
    & exists2 a, dissipated dens cs ts (fields (T1_tm r)) a & power_balance p (res_tm_inc r) a].
