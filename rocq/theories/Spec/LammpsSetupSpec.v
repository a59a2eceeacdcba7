(** What the element mapping of the LAMMPS pair style means (C85). *)
From Coq Require Import Reals ZArith Ascii String Bool Arith List.
From Verif Require Import Model.Strings Model.ElementMap Model.DataFiles Model.LammpsInterface Model.LammpsSetup
  Spec.StringSpec Spec.ElementSpec.
Import ListNotations.

(** The elements of the potential are [ws]. *)
Definition elements_of (m : mode) (ws : list str) : Prop :=
  exists line, is_words line ws /\ NoDup ws /\ (forall s, In s ws -> exists z, element_Z s z) /\
    registerElements em_init line = Some (md_em m, List.length ws).

(** Names which can be told apart in a list. *)
Definition name_ok (s : str) : Prop :=
  s <> [] /\ ~ In ","%char s /\ ~ In ":"%char s /\ ~ In " "%char s /\ ~ In (ascii_of_nat 9) s.
(** The text "t:name", blanks removed. *)
Definition entry_text (e : nat * str) : str := print_d (fst e) ++ [":"%char] ++ snd e.
Definition mapping_text (entries : list (nat * str)) (text : str) : Prop :=
  filter (fun c => negb (Ascii.eqb c " " || Ascii.eqb c (ascii_of_nat 9))) text = join [","%char] (map entry_text entries).
(** A later entry for a type replaces an earlier one. *)
Definition assigned (entries : list (nat * str)) (t : nat) : option str :=
  fold_left (fun a e => if Nat.eqb (fst e) t then Some (snd e) else a) entries None.

(** The interface treats atoms of type t as atoms of element s, or ignores them. *)
Definition treats (m : mode) (I : interface) (t : nat) (name : option str) : Prop :=
  match name with
  | Some s => if_ignore I t = false /\ em_symbol (md_em m) (if_element I t) = Some s
  | None => if_ignore I t = true
  end.
(** The interface uses the data of the potential and the conversion factors. *)
Definition same_potential (m : mode) (cflength cfenergy : R) (I : interface) : Prop :=
  if_numElements I = em_size (md_em m) /\ if_offsets I = md_offsets m /\ if_normalize I = md_normalize m /\
  if_cflength I = cflength /\ if_cfenergy I = cfenergy /\ if_convLength I = md_convLength m /\
  if_convEnergy I = md_convEnergy m /\ if_mean I = md_mean m.

(** Units can be converted. *)
Definition good_units (m : mode) (cflength : R) : Prop :=
  (0 < cflength)%R /\ (md_normalize m = true -> 0 < md_convLength m)%R.
(** The cutoff of LAMMPS, in units of the potential, reaches as far as the
    symmetry functions. *)
Definition covers (m : mode) (cflength rc : R) : Prop :=
  (md_cutoff m <= rc * (cflength * (if md_normalize m then md_convLength m else 1)))%R.

(** Names given with pair_coeff: type t (counted from 1) has the t-th name. *)
Definition named (names : list str) (t : nat) : option str :=
  match nth_error names (t - 1) with
  | Some s => if list_eq_dec ascii_dec s (lit "NULL") then None else Some s
  | None => None
  end.
Definition used_names (names : list str) : list str :=
  filter (fun s => if list_eq_dec ascii_dec s (lit "NULL") then false else true) names.
