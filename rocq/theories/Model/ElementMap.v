(** Model of src/libnnp/ElementMap.{h,cpp}. *)
From Coq Require Import List Ascii String Arith Bool.
From Verif Require Import Base.AssocMap Model.Strings.
Import ListNotations.

(** ElementMap.cpp:25-34 knownElements. *)
Definition known_elements : list str := map lit (
 ["H"; "He"; "Li"; "Be"; "B"; "C"; "N"; "O"; "F"; "Ne"; "Na"; "Mg"; "Al";
  "Si"; "P"; "S"; "Cl"; "Ar"; "K"; "Ca"; "Sc"; "Ti"; "V"; "Cr"; "Mn"; "Fe";
  "Co"; "Ni"; "Cu"; "Zn"; "Ga"; "Ge"; "As"; "Se"; "Br"; "Kr"; "Rb"; "Sr"; "Y";
  "Zr"; "Nb"; "Mo"; "Tc"; "Ru"; "Rh"; "Pd"; "Ag"; "Cd"; "In"; "Sn"; "Sb"; "Te";
  "I"; "Xe"; "Cs"; "Ba"; "La"; "Ce"; "Pr"; "Nd"; "Pm"; "Sm"; "Eu"; "Gd"; "Tb";
  "Dy"; "Ho"; "Er"; "Tm"; "Yb"; "Lu"; "Hf"; "Ta"; "W"; "Re"; "Os"; "Ir"; "Pt";
  "Au"; "Hg"; "Tl"; "Pb"; "Bi"; "Po"; "At"; "Rn"; "Fr"; "Ra"; "Ac"; "Th"; "Pa";
  "U"; "Np"; "Pu"; "Am"; "Cm"; "Bk"; "Cf"; "Es"; "Fm"; "Md"; "No"]%string).

(** ElementMap.cpp:93-99: linear search, first hit, plus one. *)
Fixpoint search_element (l : list str) (i : nat) (s : str) : option nat :=
  match l with
  | [] => None
  | e :: l' => if str_eqb e s then Some (i + 1) else search_element l' (S i) s
  end.

(** ElementMap.cpp:89-104 atomicNumber (static); [None] = runtime_error. *)
Definition atomicNumber (s : str) : option nat := search_element known_elements 0 s.

(** ElementMap.cpp:106-123 symbolFromAtomicNumber; [None] = runtime_error. *)
Definition symbolFromAtomicNumber (z : nat) : option str :=
  let numKnownElements := List.length known_elements in
  if Nat.leb numKnownElements z then None
  else if Nat.eqb z 0 then None
  else nth_error known_elements (z - 1).

(** ElementMap.h:107-109. *)
Record element_map := mkEM {
  forwardMap : list (str * nat);
  reverseMap : list (nat * str)
}.
Definition em_init : element_map := mkEM [] [].

(** ElementMap.h:150-154 compareAtomicNumber; [None] = runtime_error. *)
Definition compareAtomicNumber (s1 s2 : str) : option bool :=
  match atomicNumber s1, atomicNumber s2 with
  | Some a, Some b => Some (Nat.ltb a b)
  | _, _ => None
  end.

(** std::sort with compareAtomicNumber (ElementMap.cpp:40).  std::sort is
    unspecified as an algorithm; insertion sort is used here.  Since symbols
    with equal atomic number are equal strings, every sorting algorithm returns
    the same list ([sorted_unique] in the proofs). *)
Fixpoint insert_sym (s : str) (l : list str) : option (list str) :=
  match l with
  | [] => Some [s]
  | e :: l' => match compareAtomicNumber s e with
               | None => None
               | Some true => Some (s :: e :: l')
               | Some false => match insert_sym s l' with
                               | Some r => Some (e :: r)
                               | None => None
                               end
               end
  end.
Fixpoint sort_syms (l : list str) : option (list str) :=
  match l with
  | [] => Some []
  | s :: l' => match sort_syms l' with
               | Some r => insert_sym s r
               | None => None
               end
  end.

(** ElementMap.cpp:47-51, the registration loop. *)
Fixpoint register_loop (l : list str) (i : nat) (m : element_map) : element_map :=
  match l with
  | [] => m
  | e :: l' => register_loop l' (S i)
                 (mkEM (mset str_eqb e i (forwardMap m)) (mset Nat.eqb i e (reverseMap m)))
  end.

(** ElementMap.h:140-143 size. *)
Definition em_size (m : element_map) : nat := List.length (forwardMap m).

(** ElementMap.cpp:36-54 registerElements; returns the new state and the
    returned size; [None] = an exception was thrown. *)
Definition registerElements (m : element_map) (line : str) : option (element_map * nat) :=
  match sort_syms (split (reduce line) ch_space) with
  | None => None
  | Some elements =>
      match forwardMap m with
      | [] => let m' := register_loop elements 0 m in Some (m', em_size m')
      | _ => None
      end
  end.

(** ElementMap.cpp:71-79 index, symbol (safeFind, utility.h:143-157);
    [None] = range_error. *)
Definition em_index (m : element_map) (s : str) : option nat := mget str_eqb s (forwardMap m).
Definition em_symbol (m : element_map) (i : nat) : option str := mget Nat.eqb i (reverseMap m).

(** ElementMap.cpp:81-87 deregisterElements. *)
Definition deregisterElements (m : element_map) : element_map := mkEM [] [].

(** ElementMap.cpp:56-69 getElementsString. *)
Fixpoint elements_string_loop (m : element_map) (i n : nat) : option str :=
  match n with
  | O => Some []
  | S n' => match em_symbol m i, elements_string_loop m (S i) n' with
            | Some s, Some r => Some (lit " " ++ s ++ r)
            | _, _ => None
            end
  end.
Definition getElementsString (m : element_map) : option str :=
  if Nat.eqb (em_size m) 0 then Some []
  else match em_symbol m 0 with
       | None => None
       | Some s => if Nat.eqb (em_size m) 1 then Some s
                   else match elements_string_loop m 1 (em_size m - 1) with
                        | Some r => Some (s ++ r)
                        | None => None
                        end
       end.
