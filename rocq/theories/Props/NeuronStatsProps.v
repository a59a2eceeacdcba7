(** Property C97: neuron statistics file. *)
From Coq Require Import Reals ZArith List Bool Ascii String.
From Verif Require Import Base.SumR Model.Strings Model.Printf Model.SymLines Model.DataFiles Model.NeuralNetwork Model.NeuronStats
  Spec.StringSpec Spec.NetworkSpec Spec.NeuronStatsSpec Proofs.NeuronStatsProofs.
From Coq Require Import List.
Import ListNotations.
Local Open Scope R_scope.

(** Every process evaluates its copy of the network for its own inputs [Gs],
    starting with fresh statistics.  The rows on process 0 cover all neurons in
    the order of the layers, and each describes what its neuron has seen on all
    processes together. *)
Theorem C97_statistics : forall i net Hs, Hs <> [] ->
  exists rows, element_stats i (map (fun Gs => fold_left evaluate Gs (resetNeuronStatistics net)) Hs) = Done rows /\
  length rows = before (numNeurons net) (numLayers net) /\
  forall l k, (l < numLayers net)%nat -> (k < numNeurons net l)%nat -> exists r,
    nth_error rows (before (numNeurons net) l + k) = Some r /\ sr_element r = (i + 1)%nat /\ sr_neuron r = (before (numNeurons net) l + k + 1)%nat /\
    let vs := concat (map (fun Gs => seen_values (resetNeuronStatistics net) Gs l k) Hs) in
    ((forall v, In v vs -> - nn_dbl_max <= v <= nn_dbl_max) -> describes r vs).
Proof. exact element_rows. Qed.
Print Assumptions C97_statistics.

(** The file: header, then the rows of all elements, one line each. *)
Theorem C97_file : forall id elements rows,
  mapo (fun e => element_stats (fst e) (snd e)) (number_list elements) = Done rows ->
  (forall r, In r (concat rows) -> (Z.of_nat (sr_element r) < 2 ^ 31)%Z /\ (Z.of_nat (sr_neuron r) < 2 ^ 31)%Z /\ (Z.of_nat (sr_count r) < 2 ^ 31)%Z) ->
  exists h ls, stats_header id = Done h /\ writeNeuronStatistics id elements = Done (appendLines h ++ concat (map (fun l => l ++ [ascii_of_nat 10]) ls)) /\
    Forall2 (fun l r => ~ In (ascii_of_nat 10) l /\ is_words l (row_words r)) ls (concat rows) /\
    (forall i nets, nth_error elements i = Some nets -> exists rs, nth_error rows i = Some rs /\ element_stats i nets = Done rs).
Proof. exact stats_text. Qed.
Print Assumptions C97_file.

(** The file's header speaks of neuron values; for neurons behind the input layer
    it is the argument of the activation function which is recorded.  After a
    single evaluation the standard deviation is not a number. *)
Theorem C97_neuron_value_refuted : exists net G rows r, element_stats 0 [fold_left evaluate [G] (resetNeuronStatistics net)] = Done rows /\
  nth_error rows 1 = Some r /\ sr_count r = 1%nat /\ sr_min r <> n_value (neurons (fold_left evaluate [G] (resetNeuronStatistics net)) 1 0) /\ sr_sigma r = None.
Proof. exact not_the_value. Qed.
Print Assumptions C97_neuron_value_refuted.

Example C97_three_processes : exists rows r, element_stats 4 (map (fun Gs => fold_left evaluate Gs (resetNeuronStatistics cos_net)) [[fun _ => 3]; []; [fun _ => 7]]) = Done rows /\
  nth_error rows 0 = Some r /\ sr_element r = 5%nat /\ sr_neuron r = 1%nat /\ sr_count r = 2%nat /\ sr_mean r = Some 5 /\ sr_sigma r = Some (sqrt 8).
Proof. exact three_processes. Qed.
