(** Property C39: error metrics over ranks. *)
From Coq Require Import Reals List Bool Arith String Permutation.
From Coq Require Import List.
From Verif Require Import Base.Vec3 Base.SumR Model.Strings Model.Units Model.Errors Spec.ErrorSpec Proofs.ErrorProofs.
Import ListNotations.
Local Open Scope R_scope.

(** [D] is the complete data set, [ranks] any distribution of it. *)
Theorem C39_metrics_of_complete_data_set : forall p ranks D, error_property p -> Permutation (concat ranks) D ->
  (forall ts, In ts D -> fst ts = ST_TRAINING \/ fst ts = ST_TEST) -> (forall ts, In ts D -> (0 < qs_numAtoms (snd ts))%nat) ->
  exists train test, calculateError p ranks = Some (train, test) /\ length train = length ranks /\ length test = length ranks /\
    (forall r, In r train -> snd r = samples p (part ST_TRAINING D) /\ ((0 < snd r)%nat -> fst r = metrics p (part ST_TRAINING D))) /\
    (forall r, In r test -> snd r = samples p (part ST_TEST D) /\ ((0 < snd r)%nat -> fst r = metrics p (part ST_TEST D))).
Proof. exact error_metrics. Qed.
Print Assumptions C39_metrics_of_complete_data_set.

(** A structure which belongs to neither set makes the evaluation fail (null
    pointer dereference in the code). *)
Theorem C39_unassigned_structure_fails : forall p ranks l ts, error_property p -> In l ranks -> In ts l ->
  fst ts = ST_UNKNOWN \/ fst ts = ST_VALIDATION -> calculateError p ranks = None.
Proof. exact unassigned. Qed.
Print Assumptions C39_unassigned_structure_fails.

Example C39_nonvacuous : (forall ts, In ts (concat ex_ranks) -> fst ts = ST_TRAINING \/ fst ts = ST_TEST) /\ (forall ts, In ts (concat ex_ranks) -> (0 < qs_numAtoms (snd ts))%nat) /\
  samples (lit "force") (part ST_TRAINING (concat ex_ranks)) = 9%nat /\ samples (lit "energy") (part ST_TEST (concat ex_ranks)) = 1%nat /\
  mae (energy_deviations (part ST_TRAINING (concat ex_ranks))) = 2.
Proof. exact ex_ranks_ok. Qed.
