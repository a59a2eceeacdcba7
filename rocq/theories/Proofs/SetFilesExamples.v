(** Training and test set files (C94): example. *)
From Coq Require Import Reals Lra ZArith List Ascii Bool Arith Lia.
From Verif Require Import Model.Strings Model.StructureFile Model.SetFiles Spec.StructureFileSpec Spec.PredictionSpec Spec.ConvertSpec Spec.SetFilesSpec
  Proofs.StructureFileRead Proofs.StructureFileExamples Proofs.ConvertExamples Proofs.SetFilesProofs.
From Coq Require Import List.
Import ListNotations.
Local Open Scope R_scope.

Lemma ion_consistent : consistent 2 read_ion.
Proof. destruct ion_file as (st & H). inversion H as [|? ? ? ? _ R]. eapply read_consistent; exact R. Qed.
Definition labelled (t : sample) : fstruct := set_sample read_ion t.
Lemma labelled_fine t : fine 2 (labelled t).
Proof.
  destruct read_ion_case as (St & Pc & _). assert (C := ion_consistent).
  split; [exact C|]. split; [exact St|exact Pc].
Qed.
Definition two_processes : list (list fstruct) := [[labelled ST_TRAINING; labelled ST_TEST]; []; [labelled ST_TRAINING]].
Definition ion_offsets : list R := [1 / 2; 3].
Lemma sets_case : (forall s, In s (List.concat two_processes) -> consistent 2 s /\ stored 2 true s /\ proper_cell true s) /\
  (forall s, In s (List.concat two_processes) -> fs_sample s <> ST_UNKNOWN) /\ offset_sum ion_offsets (labelled ST_TEST) <> 0 /\
  Forall2 (Forall2 (in_memory ion_offsets)) two_processes (map (map (fun s => set_refs s (fs_energyRef s - offset_sum ion_offsets s) (fs_chargeRef s))) two_processes).
Proof.
  split; [intros s [<-|[<-|[<-|[]]]]; apply labelled_fine|]. split; [intros s [<-|[<-|[<-|[]]]]; discriminate|]. split.
  - unfold offset_sum, ion_offsets. cbn. lra.
  - unfold two_processes. cbn [map]. repeat constructor; reflexivity.
Qed.
