(** Model of material lookup: tables, dispersion formulas, substitution into unit cells.
    Sources: /repo/meent/on_numpy/modeler/modeling.py (the PyTorch and JAX copies have the same text up to the array
    library), /repo/meent/dispersion.py.
    Conventions and simplifications
      - a string is the list of its code points; [upper] changes ASCII letters only;
      - a raised exception, and a result that is not a finite number (division by zero, square root of a negative float),
        is [None];
      - the wavelength is one number (not an array of wavelengths);
      - a text table has three columns; a user-made spec (a dict) has all three keys;
      - scipy.special.wofz, scipy.integrate.quad, float(), int(), np.loadtxt and loadmat are oracles. *)
From Coq Require Import Reals ZArith Ascii String.
From mathcomp Require Import all_ssreflect ssralg.
From Coquelicot Require Import Complex.
From Verif Require Import Cplx ModelVec.

Set Implicit Arguments.
Unset Strict Implicit.
Unset Printing Implicit Defensive.
Local Open Scope ring_scope.

(** ** Strings *)
Definition str := seq nat.
Definition lit (s : string) : str := [seq nat_of_ascii c | c <- list_ascii_of_string s].

(** str.upper, per character. *)
Definition upc (c : nat) : nat := if (97 <= c <= 122)%N then (c - 32)%N else c.
Definition upper (s : str) : str := map upc s.

(** s[-n:] and s[:-n] *)
Definition last_n (n : nat) (s : str) : str := drop (size s - n) s.
Definition but_last (n : nat) (s : str) : str := take (size s - n) s.

(** str.isspace on one character (code points above 160 left out). *)
Definition space (c : nat) : bool := (9 <= c <= 13)%N || (28 <= c <= 32)%N || (c == 133)%N || (c == 160)%N.

Fixpoint lstrip (s : str) : str := if s is c :: s' then (if space c then lstrip s' else s) else [::].
(** str.strip() *)
Definition strip (s : str) : str := rev (lstrip (rev (lstrip s))).

(** str.split(): the maximal runs of non-space characters. *)
Fixpoint words_go (cur s : str) : seq str :=
  match s with
  | [::] => if cur is [::] then [::] else [:: rev cur]
  | c :: s' => if space c then (if cur is [::] then words_go [::] s' else rev cur :: words_go [::] s')
               else words_go (c :: cur) s'
  end.
Definition words (s : str) : seq str := words_go [::] s.

(** str.split(' - ') *)
Fixpoint dashes_go (cur s : str) : seq str :=
  match s with
  | [::] => [:: rev cur]
  | c :: t => match t with
              | c2 :: (c3 :: s') => if [&& c == 32%N, c2 == 45%N & c3 == 32%N] then rev cur :: dashes_go [::] s'
                                    else dashes_go (c :: cur) t
              | _ => dashes_go (c :: cur) t
              end
  end.
Definition dashes (s : str) : seq str := dashes_go [::] s.

(** str.partition(':'): what is before the first colon and what is after it. *)
Definition partition (s : str) : str * str := let i := index 58%N s in (take i s, drop i.+1 s).

(** ** Dictionaries *)
Section Dict.
Variable A : Type.
Definition dict := seq (str * A).
Fixpoint lookup (d : dict) (k : str) : option A :=
  if d is (k', a) :: d' then (if k' == k then Some a else lookup d' k) else None.
(** Assignment keeps the position of an existing key and appends a new one. *)
Fixpoint store (d : dict) (k : str) (a : A) : dict :=
  if d is (k', b) :: d' then (if k' == k then (k', a) :: d' else (k', b) :: store d' k a) else [:: (k, a)].
End Dict.

(** ** Material data *)
Record row := Row { r_wl : R; r_n : R; r_k : R }.
Inductive fname := FNum (z : Z) | FName (s : str).
(** The upper end of the range is None for math.inf (dispersion.py:87). *)
Record spec := Spec { s_formula : fname; s_coefs : seq R; s_range : R * option R }.
(** [Rows]: a two-dimensional array.  [Flat]: np.loadtxt squeezes a file with fewer than two data rows to one dimension, on
    which mat_data[:, 0] is an IndexError. *)
Inductive mat_data := Rows (rs : seq row) | Flat | Fit (s : spec).

(** The array of a text table (modeling.py:774-775). *)
Definition txt_data (rs : seq row) : mat_data := if (size rs < 2)%N then Flat else Rows rs.

(** ** np.interp
    numpy first compares with the last and the first abscissa; then it looks for the j with xp[j] <= x < xp[j+1] (by
    scanning for up to 4 points, by bisection for more: the same j if the abscissae are sorted). *)
Fixpoint interp_go (x : R) (p : R * R) (ps : seq (R * R)) : R :=
  match ps with
  | [::] => p.2
  | q :: ps' => if rleb q.1 x then interp_go x q ps'
                else if Req_EM_T p.1 x then p.2 else ((q.2 - p.2) / (q.1 - p.1) * (x - p.1) + p.2)%coqR
  end.
Definition interp (x : R) (ps : seq (R * R)) : option R :=
  match ps with
  | [::] => None
  | p :: ps' => let l := last p ps' in
      Some (if rltb l.1 x then l.2 else if rltb x p.1 then p.2 else interp_go x p ps')
  end.

(** np.min / np.max of a column *)
Definition col_min (xs : seq R) : option R := if xs is x :: xs' then Some (foldl Rmin x xs') else None.
Definition col_max (xs : seq R) : option R := if xs is x :: xs' then Some (foldl Rmax x xs') else None.

(** The range of a material (modeling.py:698-701 and 824-828): [None] when the array has no rows or one dimension. *)
Definition range_of (m : mat_data) : option (R * option R) :=
  match m with
  | Fit s => Some (s_range s)
  | Rows rs => if col_min (map r_wl rs) is Some lo then
                 (if col_max (map r_wl rs) is Some hi then Some (lo, Some hi) else None) else None
  | Flat => None
  end.

(** warn_if_out_of_range, modeling.py:686-707: whether it warns. *)
Definition warns (m : mat_data) (wl : R) : option bool :=
  if range_of m is Some (lo, hi) then Some (rltb wl lo || (if hi is Some h then rltb h wl else false)) else None.

(** ** Dispersion formulas *)

(** The names of the models, dispersion.py:217-219. *)
Definition bb_ev_name : str := lit "brendel-bormann-ev".
Definition bb_cm_name : str := lit "brendel-bormann-cm".
Definition graphene_name : str := lit "graphene-falkovsky".

(** dispersion.py:38-48. *)
Definition WAVENUMBER_PER_EV : R := (806554429 / 100000)%coqR.
Definition ELEMENTARY_CHARGE : R := (16021773349 / 10 ^ 29)%coqR.
Definition BOLTZMANN : R := (138064852 / 10 ^ 31)%coqR.
Definition HBAR : R := (10545718 / 10 ^ 41)%coqR.
Definition VACUUM_PERMITTIVITY : R := (885418781762039 / 10 ^ 26)%coqR.
Definition FERMI_VELOCITY : R := 1000000%coqR.
Definition LIGHT_SPEED : R := 299792458%coqR.
Definition GRAPHENE_THICKNESS : R := (34 / 10 ^ 11)%coqR.

(** graphene_falkovsky, dispersion.py:51-88 (arguments that are numbers). *)
Definition graphene_spec (fermi mobility temperature thickness : R) : option spec :=
  if [&& rltb 0 fermi, rltb 0 mobility, rltb 0 temperature & rltb 0 thickness]
  then Some (Spec (FName graphene_name) [:: fermi; mobility; temperature; thickness] (0%coqR, None))
  else None.

(** The loop of formula_1 and formula_2 (dispersion.py:94-96, 104-106); [pole] is the square in the first, the identity in the
    second.  A missing second coefficient is an IndexError. *)
Fixpoint sellmeier (pole : R -> R) (wl2 n2 : R) (cs : seq R) : option R :=
  match cs with
  | [::] => Some n2
  | [:: _] => None
  | a :: b :: cs' => if Req_EM_T (wl2 - pole b) 0 then None
                     else sellmeier pole wl2 (n2 + a * wl2 / (wl2 - pole b))%coqR cs'
  end.
(** xp.sqrt of a float: nan below zero. *)
Definition real_sqrt (x : R) : option R := if rltb x 0 then None else Some (sqrt x).
(** dispersion.py:91-97 and 100-107. *)
Definition formula_sellmeier (pole : R -> R) (cs : seq R) (wl : R) : option C :=
  if cs is c0 :: cs' then
    (if sellmeier pole (wl * wl) (1 + c0) cs' is Some n2 then
       (if real_sqrt n2 is Some n then Some (RtoC n) else None) else None)
  else None.
Definition formula_1 := formula_sellmeier (fun b => b * b)%coqR.
Definition formula_2 := formula_sellmeier (fun b => b).

Section Oracles.
Variable wofz : C -> C.                          (* scipy.special.wofz, dispersion.py:110-118 *)
Variable quad : (R -> R) -> R -> R -> R -> R.    (* scipy.integrate.quad(f, a, b, points=[p]), dispersion.py:196 *)

(** One Gaussian-broadened oscillator of strength s: the summand of dispersion.py:132-135 and 149-152. *)
Definition oscillator (omega s gamma centre sigma : R) : C :=
  let a := csqrt (RtoC (omega * omega) + ci * RtoC (omega * gamma)) in
  let d := RtoC (sqrt 2 * sigma) in
  ci * RtoC (sqrt PI) * RtoC s / (RtoC (2 * sqrt 2) * a * RtoC sigma)
    * (wofz ((a - RtoC centre) / d) + wofz ((a + RtoC centre) / d)).

(** The loop of dispersion.py:130-135; a slice with fewer than four coefficients cannot be unpacked. *)
Fixpoint osc_ev (omega plasma : R) (eps : C) (cs : seq R) : option C :=
  match cs with
  | [::] => Some eps
  | f :: gamma :: centre :: sigma :: cs' =>
      if Req_EM_T sigma 0 then None
      else osc_ev omega plasma (eps + oscillator omega (f * (plasma * plasma)) gamma centre sigma) cs'
  | _ => None
  end.
(** dispersion.py:121-136 *)
Definition model_brendel_bormann_ev (cs : seq R) (wl : R) : option C :=
  if cs is plasma :: strength :: damping :: cs' then
    (if Req_EM_T wl 0 then None else
     let omega := (1 / 100 / wl / WAVENUMBER_PER_EV)%coqR in
     let eps := 1 - RtoC (strength * (plasma * plasma)) / (RtoC omega * (RtoC omega + ci * RtoC damping)) in
     if osc_ev omega plasma eps cs' is Some e then Some (csqrt e) else None)
  else None.

(** The loop of dispersion.py:147-152 (strength, gamma, sigma, centre). *)
Fixpoint osc_cm (omega : R) (eps : C) (cs : seq R) : option C :=
  match cs with
  | [::] => Some eps
  | strength :: gamma :: sigma :: centre :: cs' =>
      if Req_EM_T sigma 0 then None else osc_cm omega (eps + oscillator omega strength gamma centre sigma) cs'
  | _ => None
  end.
(** dispersion.py:139-153.  With no oscillator at all the permittivity is a float, so a negative one gives nan. *)
Definition model_brendel_bormann_cm (cs : seq R) (wl : R) : option C :=
  match cs with
  | [::] => None
  | [:: e0] => if Req_EM_T wl 0 then None else (if real_sqrt e0 is Some n then Some (RtoC n) else None)
  | e0 :: cs' => if Req_EM_T wl 0 then None else
      (if osc_cm (1 / 100 / wl)%coqR (RtoC e0) cs' is Some e then Some (csqrt e) else None)
  end.

(** np.logaddexp *)
Definition logaddexp (a b : R) : R := ln (exp a + exp b).
(** _cosh_ratio, dispersion.py:156-162 *)
Definition cosh_ratio (a b : R) : R :=
  let la := (logaddexp a (- a) - ln 2)%coqR in
  let lb := (logaddexp b (- b) - ln 2)%coqR in
  exp (Rmin (Rmax (la - lb) (-745)) 709)%coqR.
(** occupation, dispersion.py:187-190 *)
Definition occupation (fermi t energy : R) : R :=
  (tanh (energy / t) / (cosh_ratio (fermi / t) (energy / t) + 1))%coqR.

(** The conductivity of dispersion.py:193-203 at one photon energy. *)
Definition conductivity (fermi t scattering energy : R) : C :=
  let half := occupation fermi t (energy / 2)%coqR in
  let interband := quad (fun z => (occupation fermi t z - half) / (energy * energy - 4 * (z * z)))%coqR 0 1000
                        (energy / 2)%coqR in
  let intraband := (RtoC 2 * ci * RtoC (ELEMENTARY_CHARGE * ELEMENTARY_CHARGE) * RtoC t)
      / (RtoC PI * RtoC HBAR * (RtoC energy + ci * RtoC scattering))
      * RtoC (logaddexp (fermi / (2 * t)) (- (fermi / (2 * t)))) in
  intraband + RtoC (ELEMENTARY_CHARGE * ELEMENTARY_CHARGE / (4 * HBAR))
      * (RtoC half + RtoC 4 * ci * RtoC energy / RtoC PI * RtoC interband).

(** dispersion.py:165-211.  Anything but four coefficients cannot be unpacked; a wavelength that is not positive is refused; a
    vanishing Fermi level, mobility, temperature or thickness divides by zero. *)
Definition model_graphene_falkovsky (cs : seq R) (wl : R) : option C :=
  match cs with
  | [:: fermi; mobility; temperature; thickness] =>
      if rleb wl 0 then None
      else if Req_EM_T (fermi * mobility * temperature * thickness) 0 then None else
      let t := (temperature * BOLTZMANN / ELEMENTARY_CHARGE)%coqR in
      let energy := (HBAR * (2 * PI * LIGHT_SPEED / wl) / ELEMENTARY_CHARGE)%coqR in
      let scattering := Rabs (HBAR * (FERMI_VELOCITY * FERMI_VELOCITY)
                              / (mobility * (1 / 10000) * ELEMENTARY_CHARGE * fermi))%coqR in
      let sigma := conductivity fermi t scattering energy in
      let w := (ELEMENTARY_CHARGE * energy / HBAR)%coqR in
      Some (csqrt (1 + ci * sigma / RtoC (w * thickness * VACUUM_PERMITTIVITY)))
  | _ => None
  end.

(** FORMULAS and evaluate, dispersion.py:214-232: an unknown formula is a NotImplementedError. *)
Definition evaluate (s : spec) (wl : R) : option C :=
  match s_formula s with
  | FNum 1 => formula_1 (s_coefs s) wl
  | FNum 2 => formula_2 (s_coefs s) wl
  | FNum _ => None
  | FName m => if m == bb_ev_name then model_brendel_bormann_ev (s_coefs s) wl
               else if m == bb_cm_name then model_brendel_bormann_cm (s_coefs s) wl
               else if m == graphene_name then model_graphene_falkovsky (s_coefs s) wl
               else None
  end.

(** ** find_nk_index, modeling.py:710-748 *)

(** A material: a name or a spec (isinstance checks of modeling.py:711-723). *)
Inductive material := ByName (s : str) | BySpec (s : spec).

Definition real_suffix : str := lit "__real".

(** Which data, and whether only n is wanted (modeling.py:711-723); an unknown name is a KeyError. *)
Definition resolve (m : material) (table : dict mat_data) : option (mat_data * bool) :=
  match m with
  | BySpec s => Some (Fit s, false)
  | ByName s => if last_n 6 s == real_suffix
                then (if lookup table (upper (but_last 6 s)) is Some d then Some (d, true) else None)
                else (if lookup table (upper s) is Some d then Some (d, false) else None)
  end.

(** modeling.py:727-748 *)
Definition index_of (d : mat_data) (n_only : bool) (wl : R) : option C :=
  match d with
  | Fit s => if evaluate s wl is Some z then Some (if n_only then RtoC (Re z) else conj z) else None
  | Rows rs =>
      if interp wl [seq (r_wl r, r_n r) | r <- rs] is Some n then
        (if n_only then Some (RtoC n)
         else if interp wl [seq (r_wl r, r_k r) | r <- rs] is Some k then Some (RtoC n - ci * RtoC k) else None)
      else None
  | Flat => None
  end.

(** The index and whether a warning was issued. *)
Definition find_nk_index (m : material) (table : dict mat_data) (wl : R) : option (bool * C) :=
  if resolve m table is Some (d, n_only) then
    (if warns d wl is Some w then (if index_of d n_only wl is Some z then Some (w, z) else None) else None)
  else None.

(** ** put_refractive_index_in_ucell, modeling.py:651-666
    The cell is the list of its labels, in any fixed order; the result lists the indices in the same order.  [disk] is what
    read_material_table() would return.  The object's own table is replaced when it is empty and a name is met. *)
Inductive filling := Named (m : material) | Value (c : C).

Fixpoint put_go (disk : option (dict mat_data)) (wl : R) (labels : seq C) (i : nat) (mats : seq filling)
    (table : dict mat_data) (res : seq C) : dict mat_data * option (seq C) :=
  match mats with
  | [::] => (table, Some res)
  | f :: mats' =>
      let write c := [seq (if x.1 == RtoC (INR i) then c else x.2) | x <- zip labels res] in
      match f with
      | Value c => put_go disk wl labels i.+1 mats' table (write c)
      | Named m =>
          let loaded := if m is ByName _ then (if table is [::] then disk else Some table) else Some table in
          match loaded with
          | None => (table, None)
          | Some table' =>
              match find_nk_index m table' wl with
              | None => (table', None)
              | Some (_, c) => put_go disk wl labels i.+1 mats' table' (write c)
              end
          end
      end
  end.
Definition put_refractive_index (disk : option (dict mat_data)) (table : dict mat_data) (labels : seq C)
    (mats : seq filling) (wl : R) : dict mat_data * option (seq C) :=
  put_go disk wl labels 0 mats table (nseq (size labels) 0).

End Oracles.

(** ** Reading the files *)
Section Files.
Variable parse_float : str -> option R.           (* float(s) *)
Variable parse_int : str -> option Z.             (* int(s) *)
Variable loadtxt : seq str -> option (seq row).   (* np.loadtxt(path, skiprows=1) *)

(** The comment lines after the column header, dispersion.py:245-252; a repeated key is overwritten. *)
Fixpoint comments_go (entry : dict str) (lines : seq str) : dict str :=
  match lines with
  | [::] => entry
  | l :: ls => if l is c :: l' then
                 (if c == 35%N then let kv := partition l' in comments_go (store entry (strip kv.1) (strip kv.2)) ls
                  else entry)
               else entry
  end.
Definition comments (lines : seq str) : dict str := comments_go [::] (behead lines).

(** str.startswith *)
Definition starts (p s : str) : bool := take (size p) s == p.

Fixpoint all_floats (ws : seq str) : option (seq R) :=
  match ws with
  | [::] => Some [::]
  | w :: ws' => if parse_float w is Some x then (if all_floats ws' is Some xs then Some (x :: xs) else None) else None
  end.

(** What follows the first word, str.split(None, 1)[1].strip(). *)
Fixpoint after_word (s : str) : str := if s is c :: s' then (if space c then strip s' else after_word s') else [::].

(** The words that introduce a fit, dispersion.py:257-260. *)
Definition w_formula : str := lit "formula".
Definition w_model : str := lit "model".

(** parse_header, dispersion.py:235-270: [None] an exception, [Some None] an ordinary table. *)
Definition parse_header (lines : seq str) : option (option spec) :=
  let entry := comments lines in
  let kind := if lookup entry (lit "type") is Some k then k else [::] in
  match lookup entry (lit "coefficients") with
  | None => Some None
  | Some cs =>
      let name := if starts w_formula kind then
                    Some (if words kind is _ :: w :: _ then (if parse_int w is Some z then Some (FNum z) else None) else None)
                  else if starts w_model kind then
                    Some (if words kind is _ :: _ :: _ then Some (FName (after_word kind)) else None)
                  else None in
      match name with
      | None => Some None
      | Some None => None
      | Some (Some nm) =>
          match lookup entry (lit "range") with
          | None => None
          | Some rg =>
              match dashes rg with
              | [:: low; high] =>
                  match all_floats (words cs), parse_float low, words high with
                  | Some xs, Some lo, h :: _ =>
                      if parse_float h is Some hi then Some (Some (Spec nm xs (lo, Some hi))) else None
                  | _, _, _ => None
                  end
              | _ => None
              end
          end
      end
  end.

(** One file below nk_data: its name and its contents (a .mat file: the rows it holds). *)
Inductive contents := Text (lines : seq str) | Binary (rs : option (seq row)).
Definition file := (str * contents)%type.

(** The body of the loop of modeling.py:766-781 for one file: [None] an exception, [Some None] a file that is skipped. *)
Definition load_file (f : file) : option (option mat_data) :=
  if last_n 3 f.1 == lit "txt" then
    match f.2 with
    | Text lines =>
        match parse_header lines with
        | None => None
        | Some (Some s) => Some (Some (Fit s))
        | Some None => if loadtxt lines is Some rs then Some (Some (txt_data rs)) else None
        end
    | Binary _ => None
    end
  else if last_n 3 f.1 == lit "mat" then
    match f.2 with Binary (Some rs) => Some (Some (Rows rs)) | _ => None end
  else Some None.

(** read_material_table, modeling.py:751-782, over the files in the order os.walk yields them. *)
Fixpoint read_go (table : dict mat_data) (files : seq file) : option (dict mat_data) :=
  match files with
  | [::] => Some table
  | f :: fs => match load_file f with
               | None => None
               | Some None => read_go table fs
               | Some (Some d) => read_go (store table (upper (but_last 4 f.1)) d) fs
               end
  end.
Definition read_material_table (files : seq file) : option (dict mat_data) := read_go [::] files.

(** Comparison of strings (sorted). *)
Fixpoint str_leb (a b : str) : bool :=
  match a, b with
  | [::], _ => true
  | _ :: _, [::] => false
  | x :: a', y :: b' => (x < y)%N || ((x == y) && str_leb a' b')
  end.

Fixpoint list_go (table : dict mat_data) (names : seq str) : option (seq (str * (R * option R))) :=
  match names with
  | [::] => Some [::]
  | k :: ks => match lookup table k with
               | None => None
               | Some d => match range_of d, list_go table ks with
                           | Some r, Some es => Some ((k, r) :: es)
                           | _, _ => None
                           end
               end
  end.
(** list_materials, modeling.py:807-834 (names and ranges). *)
Definition list_materials (files : seq file) : option (seq (str * (R * option R))) :=
  if read_material_table files is Some table then list_go table (sort str_leb (map fst table)) else None.

End Files.
