(** Property C100: the element set-up. *)
From Coq Require Import Reals ZArith Ascii String Permutation.
From Coq Require Import List.
From Verif Require Import Model.Strings Model.Printf Model.ElementMap Model.Settings Model.SymLines Model.NetworkSetup Model.ElementSetup
  Spec.StringSpec Spec.ElementSpec Spec.ElementSetupSpec Proofs.ElementSetupProofs.
Import ListNotations.
Local Open Scope R_scope.

(** After the set-up there is one element for each symbol listed, with its index,
    symbol and atomic number, in the order of the atomic numbers; "number_of_elements"
    is the number of symbols. *)
Theorem C100_elements : forall s line ws, getValue s (lit "elements") = Some line -> is_words line ws -> NoDup ws ->
  forall m es offsets, elements_from s = Done (m, es, offsets) ->
  (exists number, getValue s (lit "number_of_elements") = Some number /\ atoi number = Done (Z.of_nat (List.length ws))) /\
  Permutation (map ed_symbol es) ws /\
  (forall i e, nth_error es i = Some e -> ed_index e = i /\ element_Z (ed_symbol e) (ed_atomicNumber e) /\ em_index m (ed_symbol e) = Some i) /\
  (forall i j a b, (i < j)%nat -> nth_error es i = Some a -> nth_error es j = Some b -> (ed_atomicNumber a < ed_atomicNumber b)%nat).
Proof. exact elements_read. Qed.
Print Assumptions C100_elements.
(** Each element has the energy offset of the last "atom_energy" line about it, or
    zero. *)
Theorem C100_offsets : forall s line ws, getValue s (lit "elements") = Some line -> is_words line ws -> NoDup ws ->
  forall m es offsets, elements_from s = Done (m, es, offsets) ->
  exists lines, lines_of s (lit "atom_energy") = Done lines /\ List.length offsets = List.length es /\
  forall i e, nth_error es i = Some e -> exists x, last_about (ed_symbol e) lines x /\
    nth_error offsets i = Some (match x with None => 0 | Some w => atof w end).
Proof. exact offsets_read. Qed.
Print Assumptions C100_offsets.
(** Which settings are accepted: known symbols, the right number, and
    "atom_energy" lines with a listed symbol and a second word. *)
Theorem C100_accepted : forall s line ws, getValue s (lit "elements") = Some line -> is_words line ws -> NoDup ws ->
  forall number z lines, getValue s (lit "number_of_elements") = Some number -> atoi number = Done z -> lines_of s (lit "atom_energy") = Done lines ->
  ((exists r, elements_from s = Done r) <->
   (forall sy, In sy ws -> exists z, element_Z sy z) /\ z = Z.of_nat (List.length ws) /\
   Forall (fun v => exists sy x rest, is_words (fst v) (sy :: x :: rest) /\ In sy ws) lines).
Proof. exact accepted. Qed.
Print Assumptions C100_accepted.
(** A symbol listed twice is not noticed when "number_of_elements" counts the
    different symbols: "H H O" gives two elements H and none for O, whose index is
    outside of the list of elements. *)
Theorem C100_duplicate_symbol_refuted : exists s m es offsets, loadFile settings_init twice_text = (s, 0%nat) /\ elements_from s = Done (m, es, offsets) /\
  map ed_symbol es = [lit "H"; lit "H"] /\ em_index m (lit "O") = Some 2%nat /\ List.length es = 2%nat.
Proof. exact twice. Qed.
Print Assumptions C100_duplicate_symbol_refuted.

Example C100_three_elements : loadFile settings_init water_text = (water_settings, 0%nat) /\
  getValue water_settings (lit "elements") = Some (lit "O Cu H") /\ is_words (lit "O Cu H") [lit "O"; lit "Cu"; lit "H"] /\ NoDup [lit "O"; lit "Cu"; lit "H"] /\
  exists m, elements_from water_settings =
    Done (m, [mkElementData 0 1 (lit "H"); mkElementData 1 8 (lit "O"); mkElementData 2 29 (lit "Cu")], [atof (lit "2"); atof (lit "4"); 0]).
Proof. exact ex_water. Qed.
