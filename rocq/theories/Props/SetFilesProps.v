(** C94: training and test set files. *)
From Coq Require Import Reals List Ascii.
From Verif Require Import Model.Strings Model.ElementMap Model.StructureFile Model.SetFiles Spec.StructureFileSpec Spec.PredictionSpec Spec.ConvertSpec Spec.SetFilesSpec
  Proofs.StructureFileExamples Proofs.SetFilesProofs Proofs.SetFilesExamples.
From Coq Require Import List.
Import ListNotations.
Local Open Scope R_scope.

(** C94: a structure distributed to a process is kept without energy offsets. *)
Theorem C94_distributed : forall n offsets, length offsets = n -> forall s, consistent n s ->
  exists m, distributed_structure offsets s = Some m /\ in_memory offsets s m.
Proof. exact distributed_memory. Qed.
Print Assumptions C94_distributed.

(** C94: for every distribution over any number of processes and all labels, the
    two files can be read, contain exactly the structures of the data set with the
    label, with their original reference energies, in the order of processes; all
    structures in one of the two if all are labelled; and the structures in memory
    are as before. *)
Theorem C94_set_files : forall em n offsets, complete_map em n -> length offsets = n -> forall orig procs,
  (forall s, In s (List.concat orig) -> consistent n s /\ stored n true s /\ proper_cell true s) -> Forall2 (Forall2 (in_memory offsets)) orig procs ->
  exists train testf lt le, writeSetsToFiles em offsets procs = Some (train, testf, procs) /\
    read_all em n (Strings.split train ch_lf) lt /\ Forall2 (same_structure true) (filter training (List.concat orig)) lt /\
    read_all em n (Strings.split testf ch_lf) le /\ Forall2 (same_structure true) (filter test (List.concat orig)) le /\
    ((forall s, In s (List.concat orig) -> fs_sample s <> ST_UNKNOWN) -> (length lt + length le = length (List.concat orig))%nat).
Proof. exact set_files. Qed.
Print Assumptions C94_set_files.

(** Three processes, one without structures, meet the hypotheses. *)
Example C94_case : complete_map H2O 2 /\ (forall s, In s (List.concat two_processes) -> consistent 2 s /\ stored 2 true s /\ proper_cell true s) /\
  (forall s, In s (List.concat two_processes) -> fs_sample s <> ST_UNKNOWN) /\ offset_sum ion_offsets (labelled ST_TEST) <> 0 /\
  Forall2 (Forall2 (in_memory ion_offsets)) two_processes (map (map (fun s => set_refs s (fs_energyRef s - offset_sum ion_offsets s) (fs_chargeRef s))) two_processes).
Proof. exact (conj H2O_complete sets_case). Qed.
