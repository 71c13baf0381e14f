(** Vocabulary about fields inside the stack: truncated Maxwell equations in each layer, continuity at the interfaces, waves
    outside.  Depth z grows downwards from the top plane of each layer. *)
From Coq Require Import Reals.
From mathcomp Require Import all_ssreflect ssralg matrix.
From Coquelicot Require Import Complex Hierarchy Continuity Derive.
From Verif Require Import Cplx Spec SpecSolve ModelTM ModelField.

Set Implicit Arguments.
Unset Strict Implicit.
Unset Printing Implicit Defensive.
Local Open Scope ring_scope.

(** [l] is the derivative at [z] of a complex function of a real variable; a vector function, entry by entry. *)
Definition cderiv (f : R -> C) (z : R) (l : C) : Prop :=
  is_derive (fun t => Re (f t)) z (Re l) /\ is_derive (fun t => Im (f t)) z (Im l).
Definition ccont (f : R -> C) (z : R) : Prop :=
  continuous (fun t => Re (f t)) z /\ continuous (fun t => Im (f t)) z.
Definition vderiv m (f : R -> 'cV[C]_m) (z : R) (l : 'cV[C]_m) : Prop :=
  forall i, cderiv (fun t => f t i ord0) z (l i ord0).
Definition vcont m (f : R -> 'cV[C]_m) (z : R) : Prop := forall i, ccont (fun t => f t i ord0) z.

(** One layer of a first-order system u' = k0 P v, v' = k0 Q u, of thickness d. *)
Record medium m := Medium { m_P : 'M[C]_m; m_Q : 'M[C]_m; m_d : R }.

(** [u], [v] solve the system of a layer: differentiable inside, continuous up to both faces. *)
Definition solves m (k0 : R) (l : medium m) (u v : R -> 'cV[C]_m) : Prop :=
  (forall z, (0 < z < m_d l)%coqR ->
     vderiv u z (RtoC k0 *: (m_P l *m v z)) /\ vderiv v z (RtoC k0 *: (m_Q l *m u z))) /\
  (forall z, (0 <= z <= m_d l)%coqR -> vcont u z /\ vcont v z).

(** A field through a whole stack: one pair of functions per layer, from the top; the values on the two sides of every
    interface are the same; [top] and [bottom] are the values on the outer faces. *)
Definition profile_of m := ((R -> 'cV[C]_m) * (R -> 'cV[C]_m))%type.
Fixpoint through m (ds : seq R) (top : 'cV[C]_m * 'cV[C]_m) (fs : seq (profile_of m)) (bottom : 'cV[C]_m * 'cV[C]_m)
  : Prop :=
  match ds, fs with
  | [::], [::] => top = bottom
  | d :: ds', (u, v) :: fs' => (u 0%coqR, v 0%coqR) = top /\ through ds' (u d, v d) fs' bottom
  | _, _ => False
  end.
Fixpoint all_solve m (k0 : R) (ls : seq (medium m)) (fs : seq (profile_of m)) : Prop :=
  match ls, fs with
  | [::], [::] => True
  | l :: ls', (u, v) :: fs' => solves k0 l u v /\ all_solve k0 ls' fs'
  | _, _ => False
  end.
Definition boundary_value_problem m (k0 : R) (ls : seq (medium m)) top fs bottom : Prop :=
  through (map (@m_d m) ls) top fs bottom /\ all_solve k0 ls fs.

(** z wave number of a plane wave of tangential wave numbers kx, ky in index nn: the root with non-positive imaginary part. *)
Definition kz_of (nn kx ky : C) : C := conj (csqrt (nn ^+ 2 - kx ^+ 2 - ky ^+ 2)).

(** ** Classical mount *)

(** The 1D layer: TE has u = Ey, v = its z-derivative / k0; TM has u = Hy and u' = k0 eps_x v. *)
Definition medium_1d n (tm : bool) (kx : nat -> C) (c : conv3 n) (d : R) : medium n :=
  let '(ex, _, ez) := c in
  if tm then Medium ex (\matrix_(i, j) (kx i * ez i j * kx j - (if i == j then 1 else 0))) d
  else Medium 1%:M (te_operator kx c) d.
Fixpoint media_1d n (tm : bool) (kx : nat -> C) (cs : seq (conv3 n)) (ds : seq R) : seq (medium n) :=
  match ds, cs with
  | d :: ds', c :: cs' => medium_1d tm kx c d :: media_1d tm kx cs' ds'
  | _, _ => [::]
  end.

(** Weight of a wave number in v: 1 for TE, 1 / n^2 for TM. *)
Definition weigh (tm : bool) (nn x : C) : C := if tm then x / nn ^+ 2 else x.

(** Unit incident wave exp(-i k0 nt cos(th) z) in order [n / 2] plus reflected waves Rv exp(+i k0 kz z), at z = 0. *)
Definition above_1d n (tm : bool) (nt th : C) (kx : nat -> C) (Rv : 'cV[C]_n) : 'cV[C]_n * 'cV[C]_n :=
  let d (i : 'I_n) : C := if i == (n %/ 2)%N :> nat then 1 else 0 in
  (\col_i (d i + Rv i ord0),
   \col_i (- ci * weigh tm nt (nt * ccos th) * d i + ci * weigh tm nt (kz_of nt (kx i) 0) * Rv i ord0)).
(** Transmitted waves Tv exp(-i k0 kz z), at z = 0. *)
Definition below_1d n (tm : bool) (nb : C) (kx : nat -> C) (Tv : 'cV[C]_n) : 'cV[C]_n * 'cV[C]_n :=
  (Tv, \col_i (- ci * weigh tm nb (kz_of nb (kx i) 0) * Tv i ord0)).

(** ** Conical mount and 2D gratings: u = (Ex, Ey), v = (Hx, Hy) in the scaling of the code *)

Definition medium_sp n (kx ky : nat -> C) (c : conv3 n) (d : R) : medium (n + n) :=
  Medium (e_from_h kx ky c) (h_from_e kx ky c) d.
Fixpoint media_sp n (kx ky : nat -> C) (cs : seq (conv3 n)) (ds : seq R) : seq (medium (n + n)) :=
  match ds, cs with
  | d :: ds', c :: cs' => medium_sp kx ky c d :: media_sp kx ky cs' ds'
  | _, _ => [::]
  end.

(** (dc, ds) is the unit vector along (kx, ky), in the half plane dc > 0 (dc = 0 and ds = 1 or -1 by the sign of ky, if kx = 0). *)
Definition directions n (kx ky dc ds : nat -> C) : Prop :=
  forall i : 'I_n,
  [/\ dc i ^+ 2 + ds i ^+ 2 = 1, dc i * ky i = ds i * kx i, is_real (dc i), is_real (ds i)
    & if kx i == 0 then dc i = 0 /\ (if Rlt_dec (Re (ky i)) 0 then ds i = -1 else ds i = 1) else (0 < Re (dc i))%coqR].

(** x and y components from the components along (p) and across (s) the plane of incidence of each order. *)
Definition e_xy n (dc ds : nat -> C) (es ep : 'I_n -> C) : 'cV[C]_(n + n) :=
  col_mx (\col_i (dc i * ep i - ds i * es i)) (\col_i (dc i * es i + ds i * ep i)).
Definition h_xy n (dc ds : nat -> C) (hs hp : 'I_n -> C) : 'cV[C]_(n + n) :=
  col_mx (\col_i (dc i * hs i - ds i * hp i)) (\col_i (ds i * hs i + dc i * hp i)).

(** Incident wave of polarisation angle psi plus reflected waves of amplitudes Rs, Rp. *)
Definition above_sp n (nt th psi : C) (kx ky dc ds : nat -> C) (Rs Rp : 'cV[C]_n) : 'cV[C]_(n + n) * 'cV[C]_(n + n) :=
  let d (i : 'I_n) : C := if i == (n %/ 2)%N :> nat then 1 else 0 in
  let kz i := kz_of nt (kx i) (ky i) in
  (e_xy dc ds (fun i => csin psi * d i + Rs i ord0)
              (fun i => - (ccos psi * ccos th * d i) - ci / nt ^+ 2 * kz i * Rp i ord0),
   h_xy dc ds (fun i => - (ci * nt * ccos th * csin psi * d i) + ci * kz i * Rs i ord0)
              (fun i => - (ci * nt * ccos psi * d i) - Rp i ord0)).
Definition below_sp n (nb : C) (kx ky dc ds : nat -> C) (Ts Tp : 'cV[C]_n) : 'cV[C]_(n + n) * 'cV[C]_(n + n) :=
  let kz i := kz_of nb (kx i) (ky i) in
  (e_xy dc ds (fun i => Ts i ord0) (fun i => ci / nb ^+ 2 * kz i * Tp i ord0),
   h_xy dc ds (fun i => - ci * kz i * Ts i ord0) (fun i => - Tp i ord0)).

(** Amplitudes and field of one incidence solve the boundary-value problem; and no other amplitudes do, with any field. *)
Definition bvp_sp n k0 (ms : seq (medium (n + n))) nt nb th psi kx ky dc ds fs (Rs Rp Ts Tp : 'cV[C]_n) : Prop :=
  boundary_value_problem k0 ms (above_sp nt th psi kx ky dc ds Rs Rp) fs (below_sp nb kx ky dc ds Ts Tp).
Definition unique_sp n k0 (ms : seq (medium (n + n))) nt nb th psi kx ky dc ds (d : diffraction n) : Prop :=
  forall fs Rs Rp Ts Tp, bvp_sp k0 ms nt nb th psi kx ky dc ds fs Rs Rp Ts Tp ->
  [/\ Rs = R_s d, Rp = R_p d, Ts = T_s d & Tp = T_p d].
Definition solution_sp n k0 (ms : seq (medium (n + n))) nt nb th psi kx ky dc ds (d : diffraction n) fs : Prop :=
  bvp_sp k0 ms nt nb th psi kx ky dc ds fs (R_s d) (R_p d) (T_s d) (T_p d) /\
  ((forall a, List.In a ms -> (0 <= m_d a)%coqR) -> unique_sp k0 ms nt nb th psi kx ky dc ds d).
Definition solution3_sp n k0 (ms : seq (medium (n + n))) nt nb th psi kx ky dc ds (r : sp_result n) fields : Prop :=
  [/\ solution_sp k0 ms nt nb th psi kx ky dc ds (res r) (fields (T1_res r)),
      solution_sp k0 ms nt nb th (RtoC (PI / 2)) kx ky dc ds (res_te_inc r) (fields (T1_te r))
    & solution_sp k0 ms nt nb th (RtoC 0) kx ky dc ds (res_tm_inc r) (fields (T1_tm r))].

(** The field of one incidence is continuous from the incident and reflected waves down to the transmitted waves. *)
Definition flow_sp n ds nt nb th psi kx ky dc dsn (d : diffraction n) fs : Prop :=
  through ds (above_sp nt th psi kx ky dc dsn (R_s d) (R_p d)) fs (below_sp nb kx ky dc dsn (T_s d) (T_p d)).
Definition flow3_sp n ds nt nb th psi kx ky dc dsn (r : sp_result n) fields : Prop :=
  [/\ flow_sp ds nt nb th psi kx ky dc dsn (res r) (fields (T1_res r)),
      flow_sp ds nt nb th (RtoC (PI / 2)) kx ky dc dsn (res_te_inc r) (fields (T1_te r))
    & flow_sp ds nt nb th (RtoC 0) kx ky dc dsn (res_tm_inc r) (fields (T1_tm r))].

(** ** The profiles calculate_field evaluates, as functions of depth: tangential components only, one pair per layer from
    the top *)
Definition field_profiles_1d (pol : R) n (k0 : R) (kx : nat -> C) (T1 : 'cV[C]_n) (infos : seq (info_1d n))
  : seq (profile_of n) :=
  [seq ((fun z => (modes_1d pol k0 kx lt.1 lt.2 z).1.1), (fun z => (modes_1d pol k0 kx lt.1 lt.2 z).1.2))
  | lt <- descend (next_1d k0) T1 (rev infos)].
Definition e_part n (m : modes n) : 'cV[C]_(n + n) := col_mx (m_Sx m) (m_Sy m).
Definition h_part n (m : modes n) : 'cV[C]_(n + n) := col_mx (m_Ux m) (m_Uy m).
Definition field_profiles_2d n (k0 : R) (kx ky : nat -> C) (T1 : 'cV[C]_(n + n)) (infos : seq (info_sp 'M[C]_(n + n) n))
  : seq (profile_of (n + n)) :=
  [seq ((fun z => e_part (modes_2d k0 kx ky lt.1 lt.2 z)), (fun z => h_part (modes_2d k0 kx ky lt.1 lt.2 z)))
  | lt <- descend (next_2d k0) T1 (rev infos)].
Definition field_profiles_conical n (k0 : R) (kx ky : nat -> C) (T1 : 'cV[C]_(n + n))
  (infos : seq (info_sp 'M[C]_(n, n + n) n)) : seq (profile_of (n + n)) :=
  [seq ((fun z => e_part (modes_conical k0 kx ky lt.1 lt.2 z)), (fun z => h_part (modes_conical k0 kx ky lt.1 lt.2 z)))
  | lt <- descend (next_conical k0) T1 (rev infos)].

(** Consecutive layers of a field array agree, in the tangential components, between the last z sample of the upper layer
    and the first of the lower one. *)
Definition stitched_1d (res_z : nat) (f : seq (nat -> nat -> C * C * C)) : Prop :=
  forall k a b, List.nth_error f k = Some a -> List.nth_error f k.+1 = Some b ->
  forall ix, (a res_z.-1 ix).1 = (b 0%N ix).1.
Definition stitched_sp (res_z : nat) (f : seq (nat -> nat -> nat -> seq C)) : Prop :=
  forall k a b, List.nth_error f k = Some a -> List.nth_error f k.+1 = Some b ->
  forall iy ix j, j \in [:: 0; 1; 3; 4]%N -> nth 0 (a res_z.-1 iy ix) j = nth 0 (b 0%N iy ix) j.
