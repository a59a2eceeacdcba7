(** Transfer of weights between networks and updaters (C56). *)
From Coq Require Import Reals Arith.
From Verif Require Import Spec.NetworkSpec Model.NeuralNetwork Model.UpdatePlan Spec.UpdatePlanSpec Model.TrainWeights Spec.TrainWeightsSpec
  Proofs.TrainWeightsProofs Proofs.NumericWeightProofs Proofs.TrainWeightsExamples.
From Coq Require Import List.
Import ListNotations.

(** C56: the memory allocated for any update strategy and any elements fits. *)
Theorem C56_memory_fits : forall st h es, (forall e, In e es -> well_formed (te_nn e)) -> initialized (initializeWeightsMemory st h es).
Proof. exact memory_initialized. Qed.
Print Assumptions C56_memory_fits.

(** C56: getWeights never fails, leaves the networks alone and puts every weight and bias in its place, and the root of the hardness in its
    slot if it is fitted. *)
Theorem C56_get_weights : forall t, initialized t ->
  exists t', getWeights t = Some t' /\ tr_elements t' = tr_elements t /\ initialized t' /\
    forall i e, element_is t i e ->
      entries_are_network t' i (te_nn e) /\
      (hardness_fitted t -> entry_is t' i (numConnections (te_nn e)) (sqrt (te_hardness e))).
Proof. exact get_weights. Qed.
Print Assumptions C56_get_weights.

(** C56: setWeights never fails, leaves the vectors alone, and gives every network the weights and biases of its entries. *)
Theorem C56_set_weights : forall t, initialized t ->
  exists t', setWeights t = Some t' /\ tr_weights t' = tr_weights t /\ initialized t' /\ length (tr_elements t') = length (tr_elements t) /\
    forall i e, element_is t i e -> exists e', element_is t' i e' /\ same_architecture (te_nn e') (te_nn e) /\
      entries_are_network t' i (te_nn e') /\
      (hardness_fitted t -> exists x, entry_is t i (numConnections (te_nn e)) x /\ te_hardness e' = (x ^ 2)%R) /\
      (~ hardness_fitted t -> te_hardness e' = te_hardness e).
Proof. exact set_weights. Qed.
Print Assumptions C56_set_weights.

(** C56: after setWeights, getWeights returns the vectors as they were, hardness slots up to sign (by C54_parameters_used every position
    of every vector is the position of some entry). *)
Theorem C56_get_after_set : forall t t1 t2, initialized t -> setWeights t = Some t1 -> getWeights t1 = Some t2 ->
  forall i e, element_is t i e -> forall j x, entry_is t i j x ->
    (j < numConnections (te_nn e) -> entry_is t2 i j x) /\
    (hardness_fitted t -> j = numConnections (te_nn e) -> entry_is t2 i j (Rabs x)).
Proof. exact get_after_set. Qed.
Print Assumptions C56_get_after_set.
Theorem C56_get_after_set_sizes : forall t t1 t2, initialized t -> setWeights t = Some t1 -> getWeights t1 = Some t2 ->
  map wv_size (tr_weights t2) = map wv_size (tr_weights t).
Proof. exact round_trip_sizes. Qed.
Print Assumptions C56_get_after_set_sizes.

(** C56: after getWeights, setWeights leaves all networks and hardnesses as they were. *)
Theorem C56_set_after_get : forall t t1 t2, initialized t -> getWeights t = Some t1 -> setWeights t1 = Some t2 ->
  (hardness_fitted t -> forall e, In e (tr_elements t) -> (0 <= te_hardness e)%R) -> same_networks t t2.
Proof. exact set_after_get_elements. Qed.
Print Assumptions C56_set_after_get.
Example C56_example : initialized (exTrainer US_COMBINED true) /\ hardness_fitted (exTrainer US_COMBINED true) /\
  initialized (exTrainer US_ELEMENT false) /\
  (forall e, In e exElements -> (0 <= te_hardness e)%R) /\ parameters (exTrainer US_COMBINED true) = 19 /\
  map wv_size (tr_weights (exTrainer US_ELEMENT false)) = [13; 4] /\
  (exists t1 t2, getWeights (exTrainer US_COMBINED true) = Some t1 /\ setWeights t1 = Some t2) /\
  (exists t1 t2, setWeights (exTrainer US_COMBINED true) = Some t1 /\ getWeights t1 = Some t2).
Proof. exact exTrainer_ok. Qed.

(** C56: numeric derivatives (of n quantities) with respect to the weights are central differences around the weights in the vector, in the
    order of the vector; the vector is restored, but the networks are left with the last weight moved by -delta. *)
Theorem C56_numeric_derivatives : forall quantity delta n t, tr_strat t = US_COMBINED -> tr_hardness t = false -> initialized t ->
  exists t' rows, dPdcN quantity delta n t = Some (t', rows) /\ same_weights t t' /\ initialized t' /\
    Forall2 (fun k row => Forall2 (fun o v =>
        exists high low, shifted_networks t o delta high /\ shifted_networks t o (- delta) low /\
          v = ((quantity k high - quantity k low) / (2 * delta))%R) (seq 0 (parameters t)) row) (seq 0 n) rows /\
    (0 < n -> 0 < parameters t -> shifted_networks t (parameters t - 1) (- delta) (tr_elements t')).
Proof. exact numeric. Qed.
Print Assumptions C56_numeric_derivatives.

(** C56: setWeights afterwards restores the networks (missing: that they are unchanged without it, see below). *)
Theorem C56_numeric_networks_restored_partial : forall quantity delta n t t' rows,
  tr_strat t = US_COMBINED -> tr_hardness t = false -> initialized t ->
  (forall i e, element_is t i e -> entries_are_network t i (te_nn e)) ->
  dPdcN quantity delta n t = Some (t', rows) -> exists t'', setWeights t' = Some t'' /\ same_networks t t''.
Proof. exact numeric_then_set. Qed.
Print Assumptions C56_numeric_networks_restored_partial.

(** C56, refuted for numeric derivatives: the networks are not left unchanged. *)
Theorem C56_numeric_networks_unchanged_refuted : exists quantity delta t t' rows, tr_strat t = US_COMBINED /\ initialized t /\
  (forall i e, element_is t i e -> entries_are_network t i (te_nn e)) /\
  dPdcN quantity delta 1 t = Some (t', rows) /\ ~ same_networks t t'.
Proof. exact numeric_refuted. Qed.
Print Assumptions C56_numeric_networks_unchanged_refuted.
