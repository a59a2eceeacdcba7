(** Model of the element set-up: src/libnnp/Mode.cpp:301-366 setupElementMap and
    setupElements, src/libnnp/Element.cpp:56-65 (constructor).  The log lines are
    left out, except for the atomic numbers they print, which throw for unknown
    symbols. *)
From Coq Require Import Reals ZArith Ascii String List.
From Verif Require Import Base.AssocMap Model.Strings Model.Printf Model.ElementMap Model.Settings Model.SymLines Model.NetworkSetup.
Import ListNotations.
Local Open Scope R_scope.

(** Element.h:215-240, the members the constructor sets, without hardness and
    qsigma (Model/EwaldSetup.v). *)
Record element_data := mkElementData { ed_index : nat; ed_atomicNumber : nat; ed_symbol : str }.

(** ElementMap.h:126-129 atomicNumber(index). *)
Definition em_atomicNumber (m : element_map) (i : nat) : outcome nat := s <- throwing (em_symbol m i); throwing (atomicNumber s).

(** Mode.cpp:301-320 setupElementMap; lines 310-314 print symbol and atomic
    number of each element. *)
Definition setupElementMap (s : settings) (m : element_map) : outcome element_map :=
  line <- throwing (getValue s (lit "elements"));
  r <- throwing (registerElements m line);
  let m := fst r in
  _ <- mapo (em_atomicNumber m) (seq 0 (em_size m));
  Done m.

(** Element.cpp:56-65. *)
Definition new_element (m : element_map) (i : nat) : outcome element_data :=
  z <- em_atomicNumber m i; sy <- throwing (em_symbol m i); Done (mkElementData i z sy).

(** Mode.cpp:345-350: one line "atom_energy". *)
Definition atom_energy_line (m : element_map) (v : str * nat) (offsets : list R) : outcome (list R) :=
  let args := words_of (fst v) in
  e <- element_at m args 0; x <- number_at args 1; set_at e x offsets.

(** Mode.cpp:322-366 setupElements: the elements and their energy offsets
    ([0.0] from the constructor).  [to_size] is the cast to size_t; lines 355-359
    read the offset of each element with at(), which cannot fail here. *)
Definition setupElements (s : settings) (m : element_map) : outcome (list element_data * list R) :=
  v <- throwing (getValue s (lit "number_of_elements"));
  z <- atoi v;
  if Z.eqb (to_size z) (Z.of_nat (em_size m)) then
    es <- mapo (new_element m) (seq 0 (em_size m));
    lines <- lines_of s (lit "atom_energy");
    offsets <- foldo (atom_energy_line m) lines (repeat 0 (em_size m));
    Done (es, offsets)
  else Thrown.

(** Both, as the applications call them (e.g. src/application/nnp-predict.cpp). *)
Definition elements_from (s : settings) : outcome (element_map * list element_data * list R) :=
  m <- setupElementMap s em_init; r <- setupElements s m; Done (m, fst r, snd r).
