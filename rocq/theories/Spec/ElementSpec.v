(** Independent specification of the chemical elements (C07, C08). *)
From Coq Require Import String List Ascii Arith.
From Verif Require Import Model.Strings Spec.StringSpec.
Import ListNotations.

(** The periodic table up to nobelium, period by period. *)
Definition periodic_table : list (list string) :=
 [ ["H"; "He"];
   ["Li"; "Be"; "B"; "C"; "N"; "O"; "F"; "Ne"];
   ["Na"; "Mg"; "Al"; "Si"; "P"; "S"; "Cl"; "Ar"];
   ["K"; "Ca"; "Sc"; "Ti"; "V"; "Cr"; "Mn"; "Fe"; "Co"; "Ni"; "Cu"; "Zn"; "Ga"; "Ge"; "As"; "Se"; "Br"; "Kr"];
   ["Rb"; "Sr"; "Y"; "Zr"; "Nb"; "Mo"; "Tc"; "Ru"; "Rh"; "Pd"; "Ag"; "Cd"; "In"; "Sn"; "Sb"; "Te"; "I"; "Xe"];
   ["Cs"; "Ba"; "La"; "Ce"; "Pr"; "Nd"; "Pm"; "Sm"; "Eu"; "Gd"; "Tb"; "Dy"; "Ho"; "Er"; "Tm"; "Yb"; "Lu";
    "Hf"; "Ta"; "W"; "Re"; "Os"; "Ir"; "Pt"; "Au"; "Hg"; "Tl"; "Pb"; "Bi"; "Po"; "At"; "Rn"];
   ["Fr"; "Ra"; "Ac"; "Th"; "Pa"; "U"; "Np"; "Pu"; "Am"; "Cm"; "Bk"; "Cf"; "Es"; "Fm"; "Md"; "No"] ]%string.

(** [element_Z s z]: [s] is the symbol of the element with atomic number [z]. *)
Definition element_Z (s : str) (z : nat) : Prop :=
  1 <= z /\ nth_error (map lit (List.concat periodic_table)) (z - 1) = Some s.
