(** C93: conversion of structure files. *)
From Coq Require Import Reals ZArith List Ascii String Permutation.
From Verif Require Import Base.Vec3 Model.Strings Model.Printf Model.ElementMap Model.NeighborList Model.StructureFile Model.Convert
  Spec.StringSpec Spec.ElementSpec Spec.PrintfSpec Spec.StructureFileSpec Spec.PredictionSpec Spec.ConvertSpec Proofs.StructureFileExamples Proofs.ConvertMain Proofs.ConvertExamples.
From Coq Require Import List.
Import ListNotations.
Local Open Scope R_scope.

(** C93: for every data file that can be read, the XYZ file has one frame for each
    structure in order, with the lattice of periodic structures and the symbols and
    positions of all atoms in order; numbers read back are exactly those in memory. *)
Theorem C93_xyz : forall arg args em n stream l, chemical (arg :: args) -> registerElements em_init (join (lit " ") (arg :: args)) = Some (em, n) ->
  read_all em n stream l -> Forall printable l -> forall fuel, (List.length l <= fuel)%nat ->
  exists text lines frames, convert fuel (lit "xyz") arg args stream = Some [(lit "input.xyz", text)] /\
    text_lines text lines /\ xyz lines frames /\ Forall2 (frame_of em) l frames.
Proof. exact xyz_conversion. Qed.
Print Assumptions C93_xyz.

(** C93: for every data file of periodic structures, file POSCAR_k describes the
    k-th structure: comment, symbols in the order of the command line, lattice,
    numbers of atoms and positions of the atoms of each symbol in order, and each
    atom is in exactly one group. *)
Theorem C93_poscar_partial : forall arg args em n stream l, chemical (arg :: args) -> registerElements em_init (join (lit " ") (arg :: args)) = Some (em, n) ->
  read_all em n stream l -> Forall printable l -> Forall (fun s => fs_periodic s = true /\ plain_comment (fs_comment s)) l ->
  (Z.of_nat (List.length l) < 2 ^ 31)%Z -> forall fuel, (List.length l <= fuel)%nat ->
  exists files, convert fuel (lit "poscar") arg args stream = Some files /\
    (forall k f, nth_error files k = Some f -> exists d, fst f = lit "POSCAR_" ++ d /\ reads_nat d (k + 1)) /\
    Forall2 (fun s f => exists lines groups, text_lines (snd f) lines /\ poscar lines (fs_comment s) (arg :: args) (fs_box s) groups /\
      groups = map (positions_of em s) (arg :: args) /\ Permutation (List.concat groups) (map fa_r (fs_atoms s))) l files.
Proof. exact poscar_conversion. Qed.
Print Assumptions C93_poscar_partial.

(** C93: for a structure which is not periodic the program does not stop, but
    writes a file which is not in the format. *)
Theorem C93_poscar_no_cell_refuted : exists s text, consistent 2 s /\ printable s /\ plain_comment (fs_comment s) /\ writeToFilePoscar H2O (lit "O H") s = Some text /\
  forall lines comment symbols b groups, text_lines text lines -> ~ poscar lines comment symbols b groups.
Proof. exact no_cell. Qed.
Print Assumptions C93_poscar_no_cell_refuted.

(** A file with two structures of two atoms meets the hypotheses. *)
Example C93_case : chemical [lit "O"; lit "H"] /\ registerElements em_init (join (lit " ") [lit "O"; lit "H"]) = Some (H2O, 2%nat) /\
  (exists stream, read_all H2O 2 stream [read_ion; read_ion]) /\ Forall printable [read_ion; read_ion] /\
  Forall (fun s => fs_periodic s = true /\ plain_comment (fs_comment s)) [read_ion; read_ion].
Proof. exact convert_case. Qed.
