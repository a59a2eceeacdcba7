(** Property C62: round trip of structure files. *)
From Coq Require Import Reals ZArith String List Ascii Bool Arith.
From Verif Require Import Base.Vec3 Model.Strings Model.Printf Model.ElementMap Model.Geometry Model.Units Model.StructureFile
  Spec.StringSpec Spec.ElementSpec Spec.GeometrySpec Spec.PrintfSpec Spec.StructureFileSpec
  Proofs.StructureFileRound Proofs.StructureFileExamples.
From Coq Require Import List.
Import ListNotations.
Local Open Scope R_scope.

(** The elements of a settings file form a map as required below. *)
Theorem C62_registered_map : forall line ws, is_words line ws -> NoDup ws -> (forall s, In s ws -> exists z, element_Z s z) ->
  exists em, registerElements em_init line = Some (em, length ws) /\ complete_map em (length ws).
Proof. exact register_complete. Qed.
Print Assumptions C62_registered_map.

(** C62: the text written is read back as the same structure; reading stops
    behind it. *)
Theorem C62_round_trip : forall em n ref s rest, complete_map em n -> stored n ref s -> proper_cell ref s ->
  exists text s', writeToFile em ref s = Some text /\
    readFromFile em (Strings.split (text ++ rest) ch_lf) (newStructure n) = Some (s', Strings.split rest ch_lf) /\ same_structure ref s s'.
Proof. exact round_trip. Qed.
Print Assumptions C62_round_trip.

(** C62: positions inside the cell are read back unchanged. *)
Theorem C62_positions_kept : forall em n ref s rest, complete_map em n -> stored n ref s -> proper_cell ref s -> (fs_periodic s = true -> wrapped s) ->
  exists text s', writeToFile em ref s = Some text /\
    readFromFile em (Strings.split (text ++ rest) ch_lf) (newStructure n) = Some (s', Strings.split rest ch_lf) /\ same_structure ref s s' /\
    map fa_r (fs_atoms s') = map fa_r (fs_atoms s).
Proof. exact round_trip_wrapped. Qed.
Print Assumptions C62_positions_kept.

(** C62: a structure as read from a file is restored in all its members. *)
Theorem C62_exact : forall em n s rest, complete_map em n -> stored n true s -> proper_cell true s -> (fs_periodic s = true -> wrapped s) -> as_read n s ->
  exists text, writeToFile em true s = Some text /\
    readFromFile em (Strings.split (text ++ rest) ch_lf) (newStructure n) = Some (s, Strings.split rest ch_lf).
Proof. exact exact_round_trip. Qed.
Print Assumptions C62_exact.

(** C62: any number of structures written one after the other is read back in
    order. *)
Theorem C62_data_set : forall em n ref l, complete_map em n -> (forall s, In s l -> stored n ref s /\ proper_cell ref s) ->
  exists texts l', omap (writeToFile em ref) l = Some texts /\
    readStructures (length l) em n (Strings.split (List.concat texts) ch_lf) = Some l' /\ Forall2 (same_structure ref) l l'.
Proof. exact several. Qed.
Print Assumptions C62_data_set.

(** Not preserved: the set (training or test) a structure belongs to ... *)
Theorem C62_set_refuted : forall em n ref s rest text s' r, complete_map em n -> stored n ref s -> proper_cell ref s ->
  writeToFile em ref s = Some text -> readFromFile em (Strings.split (text ++ rest) ch_lf) (newStructure n) = Some (s', r) -> fs_sample s' = ST_UNKNOWN.
Proof. exact label_lost. Qed.
Print Assumptions C62_set_refuted.
(** ... and the flag of cells whose off-diagonal entries are all negative or 0. *)
Theorem C62_tilted_cell_refuted : forall em n ref s rest text s' r, complete_map em n -> stored n ref s -> proper_cell ref s -> fs_periodic s = true ->
  vy (m0 (fs_box s)) <= 0 -> vz (m0 (fs_box s)) <= 0 -> vx (m1 (fs_box s)) <= 0 -> vz (m1 (fs_box s)) <= 0 -> vx (m2 (fs_box s)) <= 0 -> vy (m2 (fs_box s)) <= 0 ->
  writeToFile em ref s = Some text -> readFromFile em (Strings.split (text ++ rest) ch_lf) (newStructure n) = Some (s', r) -> fs_triclinic s' = false.
Proof. exact flag_lost. Qed.
Print Assumptions C62_tilted_cell_refuted.
(** A charged periodic structure is written, but not read. *)
Theorem C62_charged_cell_refuted : forall em n ref s rest, complete_map em n -> stored n ref s -> fs_periodic s = true ->
  10 * powerRZ 2 (-52) < Rabs (total_charge_of ref s) ->
  exists text, writeToFile em ref s = Some text /\ readFromFile em (Strings.split (text ++ rest) ch_lf) (newStructure n) = None.
Proof. exact charged_unreadable. Qed.
Print Assumptions C62_charged_cell_refuted.
(** A comment with a line break can end the structure before its first atom. *)
Theorem C62_comment_refuted : forall em n ref s c rest, complete_map em n -> (forall a, In a (fs_atoms s) -> (fa_element a < n)%nat) ->
  fs_comment s = c ++ [ch_lf] ++ lit "end"%string -> plain_comment c -> (length c <= 1010)%nat ->
  exists text s' r, writeToFile em ref s = Some text /\ readFromFile em (Strings.split (text ++ rest) ch_lf) (newStructure n) = Some (s', r) /\ fs_atoms s' = [] /\ fs_comment s' = c.
Proof. exact newline_cuts. Qed.
Print Assumptions C62_comment_refuted.
(** A long comment overflows the buffer of the output function. *)
Theorem C62_long_comment_refuted : forall em ref s, ~ In ch_nul (fs_comment s) -> (1015 <= length (fs_comment s))%nat -> writeToFile em ref s = None.
Proof. exact long_comment_fails. Qed.
Print Assumptions C62_long_comment_refuted.

Example C62_case : complete_map H2O 2 /\ stored 2 true (hydroxide ST_UNKNOWN true 1 5 0) /\ proper_cell true (hydroxide ST_UNKNOWN true 1 5 0).
Proof. exact hydroxide_case. Qed.
Example C62_exact_case : stored 2 true read_ion /\ proper_cell true read_ion /\ wrapped read_ion /\ as_read 2 read_ion.
Proof. exact read_ion_case. Qed.
Example C62_refuted_case : complete_map H2O 2 /\
  stored 2 true (hydroxide ST_TRAINING true (-1) 5 0) /\ proper_cell true (hydroxide ST_TRAINING true (-1) 5 0) /\
  fs_sample (hydroxide ST_TRAINING true (-1) 5 0) = ST_TRAINING /\ fs_triclinic (hydroxide ST_TRAINING true (-1) 5 0) = true /\
  stored 2 true (hydroxide ST_TRAINING true 1 5 1) /\ 10 * powerRZ 2 (-52) < Rabs (total_charge_of true (hydroxide ST_TRAINING true 1 5 1)).
Proof. exact refuted_case. Qed.
