(** Specification vocabulary for material lookup; independent of the model's helper functions. *)
From Coq Require Import Reals ZArith Ascii String.
From Coquelicot Require Import Coquelicot.
From mathcomp Require Import all_ssreflect ssralg.
From Verif Require Import Cplx ModelMat.

Set Implicit Arguments.
Unset Strict Implicit.
Unset Printing Implicit Defensive.
Local Open Scope ring_scope.

(** The wavelengths of a table never decrease / always increase. *)
Definition ascending (rs : seq row) : Prop := forall i j, (i <= j < size rs)%N ->
  (r_wl (nth (Row 0 0 0) rs i) <= r_wl (nth (Row 0 0 0) rs j))%coqR.
Definition strictly_ascending (rs : seq row) : Prop := forall i j, (i < j < size rs)%N ->
  (r_wl (nth (Row 0 0 0) rs i) < r_wl (nth (Row 0 0 0) rs j))%coqR.

(** The straight line through two points. *)
Definition on_line (x1 y1 x2 y2 x y : R) : Prop := ((y - y1) * (x2 - x1) = (y2 - y1) * (x - x1))%coqR.
Definition within (a b x : R) : Prop := (Rmin a b <= x <= Rmax a b)%coqR.

(** Two names that differ in the case of letters only. *)
Definition same_letters (a b : str) : Prop := size a = size b /\
  forall i, (i < size a)%N -> let x := nth 0%N a i in let y := nth 0%N b i in
    x = y \/ (65 <= x <= 90 /\ y = x + 32)%N \/ (65 <= y <= 90 /\ x = y + 32)%N.

(** The Sellmeier sum, as the documentation writes it: coefficients C1, C2, C3, ... in pairs. *)
Definition sellmeier_sum (pole : R -> R) (cs : seq R) (L : R) : R :=
  foldr (fun i acc => nth 0%coqR cs i.*2 * (L * L) / (L * L - pole (nth 0%coqR cs i.*2.+1)) + acc)%coqR 0%coqR
    (seq.iota 0 (size cs)./2).

(** The Faddeeva function in the upper half plane: w(z) = (i / pi) int exp(-t^2) / (z - t) dt. *)
Definition fad_kernel (z : C) (t : R) : C := ci / RtoC PI * RtoC (exp (- (t * t))) / (z - RtoC t).
Definition faddeeva (w : C -> C) : Prop := forall z, (0 < Im z)%coqR ->
  is_lim_seq (fun N => RInt (fun t => Re (fad_kernel z t)) (- INR N) (INR N)) (Re (w z)) /\
  is_lim_seq (fun N => RInt (fun t => Im (fad_kernel z t)) (- INR N) (INR N)) (Im (w z)).

(** A Lorentz oscillator at resonance frequency x, damping gamma, seen at frequency omega (time factor exp(-i omega t)). *)
Definition lorentz (omega gamma x : R) : C := (RtoC (x * x - omega * omega) - ci * RtoC (omega * gamma))^-1.
(** Gaussian distribution of the resonance frequency around the centre; x = centre + sqrt 2 sigma t. *)
Definition gauss_kernel (s omega gamma centre sigma t : R) : C :=
  RtoC (s * (exp (- (t * t)) / sqrt PI)) * lorentz omega gamma (centre + sqrt 2 * sigma * t).

(** Every strength is non-negative and every pole lies below the wavelength L. *)
Definition above_poles (pole : R -> R) (cs : seq R) (L : R) : Prop := forall i, (i < (size cs)./2)%N ->
  (0 <= nth 0%coqR cs i.*2)%coqR /\ (0 <= pole (nth 0%coqR cs i.*2.+1) < L * L)%coqR.

(** Every strength is non-negative and no pole lies between the wavelengths x and y. *)
Definition no_pole_between (pole : R -> R) (cs : seq R) (x y : R) : Prop := forall i, (i < (size cs)./2)%N ->
  (0 <= nth 0%coqR cs i.*2)%coqR /\ (0 <= pole (nth 0%coqR cs i.*2.+1))%coqR /\
  (pole (nth 0%coqR cs i.*2.+1) < x * x \/ y * y < pole (nth 0%coqR cs i.*2.+1))%coqR.

(** Drude permittivity of the conduction electrons. *)
Definition drude (strength plasma damping omega : R) : C :=
  1 - RtoC (strength * (plasma * plasma)) / (RtoC (omega * omega) + ci * RtoC (damping * omega)).
(** [chi] is the susceptibility of a Lorentz oscillator of strength s whose resonance is spread by a Gaussian. *)
Definition broadened (omega s gamma centre sigma : R) (chi : C) : Prop :=
  is_lim_seq (fun N => RInt (fun t => Re (gauss_kernel s omega gamma centre sigma t)) (- INR N) (INR N)) (Re chi) /\
  is_lim_seq (fun N => RInt (fun t => Im (gauss_kernel s omega gamma centre sigma t)) (- INR N) (INR N)) (Im chi).

(** Photon energy in electron volts at a vacuum wavelength in metres: 1 / (100 wl) waves per centimetre, 8065.54429 of which make
    an electron volt. *)
Definition omega_ev (wl : R) : R := (1 / 100 / wl / (806554429 / 100000))%coqR.

(** Four numbers (strength, damping, centre, width) per oscillator. *)
Definition osc := (R * R * R * R)%type.
Definition passive_osc (o : osc) : Prop := let: (s, gamma, _, sigma) := o in (0 <= s)%coqR /\ (0 < gamma)%coqR /\ (0 < sigma)%coqR.
Definition coefs_ev (os : seq osc) : seq R := flatten [seq (let: (f, g, c, s) := o in [:: f; g; c; s]) | o <- os].
Definition coefs_cm (os : seq osc) : seq R := flatten [seq (let: (f, g, c, s) := o in [:: f; g; s; c]) | o <- os].

(** The index of a passive material in the convention of the solver. *)
Definition absorbing (z : C) : Prop := (0 <= Re z)%coqR /\ (Im z <= 0)%coqR.

(** ** Names, files and headers *)

(** The table a name is looked up in: the one loaded before, or the files when that one is empty. *)
Definition table_used (disk : option (dict mat_data)) (table : dict mat_data) : option (dict mat_data) :=
  if table is [::] then disk else Some table.

(** The suffix that asks for the real part. *)
Definition ends_real (s : str) : Prop := exists s', s = s' ++ lit "__real".

(** The data the request [m] stands for, when the real part is not asked for. *)
Definition refers (m : material) (table : dict mat_data) (d : mat_data) : Prop :=
  match m with
  | BySpec sp => d = Fit sp
  | ByName s => ~ ends_real s /\ lookup table (upper s) = Some d
  end.

(** Where the Sellmeier fits 1 and 2 have their poles (as squared wavelengths). *)
Definition pole_of (sp : spec) (pole : R -> R) : Prop :=
  (s_formula sp = FNum 1 /\ pole = (fun b => b * b)%coqR) \/ (s_formula sp = FNum 2 /\ pole = (fun b => b)).

(** [c] is what the entry [f] of the material list stands for; [find] is a lookup function. *)
Definition stands_for (find : material -> dict mat_data -> R -> option (bool * C)) (disk : option (dict mat_data))
    (table : dict mat_data) (wl : R) (f : filling) (c : C) : Prop :=
  match f with
  | Value v => c = v
  | Named (BySpec s) => exists b, find (BySpec s) [::] wl = Some (b, c)
  | Named (ByName s) => exists T b, table_used disk table = Some T /\ find (ByName s) T wl = Some (b, c)
  end.

(** A string that neither begins nor ends with white space. *)
Definition trimmed (s : str) : bool := ~~ space (head 65%N s) && ~~ space (last 65%N s).
(** The line "# key: value". *)
Definition comment_line (kv : str * str) : str := 35%N :: 32%N :: kv.1 ++ 58%N :: 32%N :: kv.2 ++ [:: 10%N].
(** The value of the last entry with that key. *)
Definition last_value (kvs : seq (str * str)) (k : str) : option str := lookup (rev kvs) k.
(** A non-empty string without white space. *)
Definition word (s : str) : bool := (s != [::]) && all (fun c => ~~ space c) s.
(** Words separated by single blanks. *)
Definition join (ws : seq str) : str := if ws is w :: ws' then w ++ flatten [seq 32%N :: v | v <- ws'] else [::].
(** Keys of the header. *)
Definition k_type : str := lit "type".
Definition k_coefficients : str := lit "coefficients".
Definition k_range : str := lit "range".
Definition a_dash : str := [:: 32; 45; 32]%N.
(** A header entry: key and value without surrounding blanks, the key without a colon. *)
Definition clean (kv : str * str) : bool := [&& trimmed kv.1, trimmed kv.2 & 58%N \notin kv.1].
Definition no_comment (ls : seq str) : bool := if ls is l :: _ then head 0%N l != 35%N else true.
