(** Properties C14-C17, C63-C65: neural networks. *)
From Coq Require Import Reals Lra List Arith Lia.
From Coquelicot Require Import Coquelicot.
From Coq Require Import List.
From Verif Require Import Base.SumR Base.Loop Model.NeuralNetwork Spec.NetworkSpec Spec.InitSpec
  Proofs.NetLayout Proofs.NetProofs Proofs.NetMore Proofs.NetInit Proofs.NetExamples.
Import ListNotations.
Local Open Scope R_scope.

(** ** C14 *)
(** getConnections returns what setConnections was given. *)
Theorem C14_set_get : forall net c a0, (1 <= numLayers net)%nat ->
  forall p, (p < numConnections net)%nat -> getConnections (setConnections c net) a0 p = c p.
Proof. exact set_get. Qed.
Print Assumptions C14_set_get.

(** ... and does not write beyond the announced length. *)
Theorem C14_get_stays_in_bounds : forall net a0 p, (1 <= numLayers net)%nat ->
  (numConnections net <= p)%nat -> getConnections net a0 p = a0 p.
Proof. exact getConnections_frame. Qed.
Print Assumptions C14_get_stays_in_bounds.

(** Writing back the connections just read changes no weight and no bias. *)
Theorem C14_get_set : forall net a0, (1 <= numLayers net)%nat ->
  let net' := setConnections (getConnections net a0) net in
  (forall l j k, (S l < numLayers net)%nat -> (j < numNeurons net l)%nat -> (k < numNeurons net (S l))%nat ->
     weight net' l j k = weight net l j k) /\
  (forall l k, (S l < numLayers net)%nat -> (k < numNeurons net (S l))%nat -> bias net' l k = bias net l k).
Proof. exact get_set. Qed.
Print Assumptions C14_get_set.

(** Every weight and bias is the entry at its documented position. *)
Theorem C14_layout : forall net c, (1 <= numLayers net)%nat ->
  (forall l j k, (S l < numLayers net)%nat -> (j < numNeurons net l)%nat -> (k < numNeurons net (S l))%nat ->
     weight (setConnections c net) l j k = c (weight_position (numNeurons net) l j k)) /\
  (forall l k, (S l < numLayers net)%nat -> (k < numNeurons net (S l))%nat ->
     bias (setConnections c net) l k = c (bias_position (numNeurons net) l k)).
Proof. exact set_layout. Qed.
Print Assumptions C14_layout.

(** The positions of the weights and biases are pairwise different and are
    exactly the numbers below getNumConnections. *)
Theorem C14_positions_bijective : forall net, (1 <= numLayers net)%nat ->
  let N := numNeurons net in let L := numLayers net in
  (forall p, (p < numConnections net)%nat <->
     (exists l j k, (S l < L /\ j < N l /\ k < N (S l))%nat /\ p = weight_position N l j k) \/
     (exists l k, (S l < L /\ k < N (S l))%nat /\ p = bias_position N l k)) /\
  (forall l j k l' j' k', (j < N l)%nat -> (k < N (S l))%nat -> (j' < N l')%nat -> (k' < N (S l'))%nat ->
     weight_position N l j k = weight_position N l' j' k' -> l = l' /\ j = j' /\ k = k') /\
  (forall l k l' k', (k < N (S l))%nat -> (k' < N (S l'))%nat ->
     bias_position N l k = bias_position N l' k' -> l = l' /\ k = k') /\
  (forall l j k l' k', (j < N l)%nat -> (k < N (S l))%nat -> (k' < N (S l'))%nat ->
     weight_position N l j k <> bias_position N l' k').
Proof. exact positions_bijective. Qed.
Print Assumptions C14_positions_bijective.

Example C14_nonvacuous : (1 <= numLayers ex_net)%nat /\ numConnections ex_net = 13%nat.
Proof. split; [simpl; lia|reflexivity]. Qed.

(** ** C15 *)
(** After propagation the output is that of the textbook feed-forward network
    with the documented activation functions. *)
Theorem C15_output_is_feed_forward_network : forall net G k,
  well_formed net -> every_neuron unclamped (evaluate net G) ->
  (k < numNeurons net (numLayers net - 1))%nat ->
  getOutput (evaluate net G) k =
  forward (numNeurons net) (fun l => documented_activation (actFun net l)) (weight net) (bias net)
          (normalizeNeurons net) G (numLayers net - 1) k.
Proof. exact output_feed_forward. Qed.
Print Assumptions C15_output_is_feed_forward_network.

(** calculateDEdG returns the gradient of the output. *)
Theorem C15_dEdG_is_gradient : forall net G k,
  well_formed net -> (k < numNeurons net 0)%nat -> every_neuron regular (evaluate net G) ->
  is_derive (fun t => getOutput (evaluate net (upd G k t)) 0) (G k) (calculateDEdG (evaluate net G) k).
Proof. exact dEdG_gradient. Qed.
Print Assumptions C15_dEdG_is_gradient.

(** At the clamping points of the logistic function no derivative exists. *)
Theorem C15_clamping_point_refuted : exists net G k, well_formed net /\ (k < numNeurons net 0)%nat /\
  actFun net 1 = AF_LOGISTIC /\ n_x (neurons (evaluate net G) 1 0) = 35 /\
  ~ ex_derive (fun t => getOutput (evaluate net (upd G k t)) 0) (G k).
Proof. exact clamp_not_differentiable. Qed.
Print Assumptions C15_clamping_point_refuted.

Example C15_nonvacuous : well_formed ex_net /\ every_neuron regular (evaluate ex_net ex_G) /\
  every_neuron unclamped (evaluate ex_net ex_G).
Proof. exact (conj ex_wf (conj ex_regular ex_unclamped)). Qed.

(** ** C16 *)
Theorem C16_dEdc_is_gradient : forall net c G p a0,
  well_formed net -> (p < numConnections net)%nat ->
  every_neuron regular (evaluate (setConnections c net) G) ->
  is_derive (fun t => output_sum (evaluate (setConnections (upd c p t) net) G)) (c p)
            (calculateDEdc (evaluate (setConnections c net) G) a0 p).
Proof. exact dEdc_is_gradient. Qed.
Print Assumptions C16_dEdc_is_gradient.

(** The same with the output itself, for networks with one output. *)
Theorem C16_dEdc_is_output_gradient : forall net c G p a0,
  well_formed net -> numNeurons net (numLayers net - 1) = 1%nat -> (p < numConnections net)%nat ->
  every_neuron regular (evaluate (setConnections c net) G) ->
  is_derive (fun t => getOutput (evaluate (setConnections (upd c p t) net) G) 0) (c p)
            (calculateDEdc (evaluate (setConnections c net) G) a0 p).
Proof. exact dEdc_is_output_gradient. Qed.
Print Assumptions C16_dEdc_is_output_gradient.

Example C16_nonvacuous : well_formed ex_net /\ numNeurons ex_net (numLayers ex_net - 1) = 1%nat /\
  (5 < numConnections ex_net)%nat /\ every_neuron regular (evaluate (setConnections ex_c ex_net) ex_G).
Proof. exact (conj ex_wf (conj eq_refl (conj ex_num (ex_regular_c ex_c)))). Qed.

(** ** C17 *)
(** calculateDFdc is the derivative of minus the directional derivative of the
    output (sum over dE/dG times dG/dx) with respect to every connection. *)
Theorem C17_dFdc_is_gradient : forall net c G p dGdxyz a0,
  well_formed net -> numNeurons net (numLayers net - 1) = 1%nat -> (p < numConnections net)%nat ->
  every_neuron regular (evaluate (setConnections c net) G) ->
  is_derive (fun t => - sumn (numNeurons net 0) (fun i =>
       calculateDEdG (evaluate (setConnections (upd c p t) net) G) i * dGdxyz i)) (c p)
    (calculateDFdc (evaluate (setConnections c net) G) dGdxyz a0 p).
Proof. exact dFdc_is_gradient. Qed.
Print Assumptions C17_dFdc_is_gradient.

Example C17_nonvacuous : well_formed ex_net /\ numNeurons ex_net (numLayers ex_net - 1) = 1%nat /\
  (5 < numConnections ex_net)%nat /\ every_neuron regular (evaluate (setConnections ex_c ex_net) ex_G).
Proof. exact (conj ex_wf (conj eq_refl (conj ex_num (ex_regular_c ex_c)))). Qed.

(** ** C63: modification schemes *)
Theorem C63_precondition_output : forall mean sigma net net' G k,
  well_formed net -> acts_known net ->
  normalizeNeurons net = false -> actFun net (numLayers net - 1) = AF_IDENTITY ->
  modifyConnections2 MS_PRECONDITIONOUTPUT mean sigma net = Some net' ->
  (k < numNeurons net (numLayers net - 1))%nat ->
  let b := bias net (numLayers net - 2) k in
  getOutput (evaluate net' G) k = sigma * (getOutput (evaluate net G) k - b) + b + mean.
Proof. exact precondition_output. Qed.
Print Assumptions C63_precondition_output.

Theorem C63_zero_bias : forall net net', modifyConnections MS_ZEROBIAS net = Some net' ->
  (forall l k, n_weights (neurons net' l k) = n_weights (neurons net l k)) /\
  (forall l k, (l < numLayers net)%nat -> (k < numNeurons net l)%nat -> n_bias (neurons net' l k) = 0).
Proof. exact zero_bias. Qed.
Print Assumptions C63_zero_bias.

Theorem C63_zero_output_weights : forall net net', (2 <= numLayers net)%nat -> modifyConnections MS_ZEROOUTPUTWEIGHTS net = Some net' ->
  forall l j k, (S l < numLayers net)%nat -> (j < numNeurons net l)%nat -> (k < numNeurons net (S l))%nat ->
    weight net' l j k = (if Nat.eqb (S l) (numLayers net - 1) then 0 else weight net l j k) /\ bias net' l k = bias net l k.
Proof. exact zero_output_weights. Qed.
Print Assumptions C63_zero_output_weights.

Theorem C63_fan_in : forall net net', (1 <= numLayers net)%nat -> modifyConnections MS_FANIN net = Some net' ->
  forall l j k, (S l < numLayers net)%nat -> (j < numNeurons net l)%nat -> (k < numNeurons net (S l))%nat ->
    weight net' l j k = (if is_tanh (actFun net (S l)) then weight net l j k / sqrt (INR (numNeurons net l)) else weight net l j k) /\
    bias net' l k = bias net l k.
Proof. exact fan_in. Qed.
Print Assumptions C63_fan_in.

Theorem C63_glorot_bengio : forall net net', (1 <= numLayers net)%nat -> modifyConnections MS_GLOROTBENGIO net = Some net' ->
  forall l j k, (S l < numLayers net)%nat -> (j < numNeurons net l)%nat -> (k < numNeurons net (S l))%nat ->
    weight net' l j k = (if is_tanh (actFun net (S l)) then weight net l j k * sqrt (6 / INR (numNeurons net l + numNeurons net (S l))) else weight net l j k) /\
    bias net' l k = bias net l k.
Proof. exact glorot_bengio. Qed.
Print Assumptions C63_glorot_bengio.

(** Nguyen-Widrow initialization, hidden layers: the incoming weights of a neuron
    keep their direction and get length beta = 0.7 n^(1/n_in) (twice that for
    tanh); the bias is multiplied by the same number. *)
Theorem C63_nguyen_widrow_hidden : forall net net', (2 <= numLayers net)%nat -> modifyConnections MS_NGUYENWIDROW net = Some net' ->
  forall l k, (S l < numLayers net - 1)%nat -> (k < numNeurons net (S l))%nat ->
  let beta := 7 / 10 * Rpower (INR (numNeurons net (S l))) (1 / INR (numNeurons net l)) * (if is_tanh (actFun net (S l)) then 2 else 1) in
  let len := sqrt (sumn (numNeurons net l) (fun j => weight net l j k * weight net l j k)) in
  (forall j, (j < numNeurons net l)%nat -> weight net' l j k = weight net l j k * (beta / len)) /\
  bias net' l k = bias net l k * beta /\
  (0 < len -> sqrt (sumn (numNeurons net l) (fun j => weight net' l j k * weight net' l j k)) = beta).
Proof. exact nguyen_widrow_hidden. Qed.
Print Assumptions C63_nguyen_widrow_hidden.

(** Nguyen-Widrow initialization does not treat the output weights alike: with
    two hidden neurons and one output it halves the first and leaves the second. *)
Theorem C63_nguyen_widrow_output_refuted : exists net net', well_formed net /\
  modifyConnections MS_NGUYENWIDROW net = Some net' /\
  exists j j', (j < prevNeurons net (outputLayer net))%nat /\ (j' < prevNeurons net (outputLayer net))%nat /\
  n_weights (neurons net (outputLayer net) 0) j = 1 /\ n_weights (neurons net (outputLayer net) 0) j' = 1 /\
  n_weights (neurons net' (outputLayer net) 0) j = / 2 /\ n_weights (neurons net' (outputLayer net) 0) j' = 1.
Proof. exact nguyen_widrow_output. Qed.
Print Assumptions C63_nguyen_widrow_output_refuted.

Example C63_nonvacuous : exists net', well_formed ex_net /\ acts_known ex_net /\
  normalizeNeurons ex_net = false /\ actFun ex_net (numLayers ex_net - 1) = AF_IDENTITY /\
  modifyConnections2 MS_PRECONDITIONOUTPUT 3 2 ex_net = Some net'.
Proof. eexists. exact (conj ex_wf (conj ex_acts (conj eq_refl (conj eq_refl eq_refl)))). Qed.

(** ** C64: neuron statistics over any history of evaluations after a reset *)
Theorem C64_neuron_statistics : forall net Gs l k,
  (l < numLayers net)%nat -> (k < numNeurons net l)%nat -> Gs <> [] ->
  let n := neurons (fold_left evaluate Gs (resetNeuronStatistics net)) l k in
  let vs := seen_values (resetNeuronStatistics net) Gs l k in
  (forall v, In v vs -> - nn_dbl_max <= v <= nn_dbl_max) ->
  n_count n = length vs /\ n_sum n = rsum vs /\ n_sum2 n = rsum (map (fun v => v * v) vs) /\
  (In (n_min n) vs /\ forall v, In v vs -> n_min n <= v) /\ (In (n_max n) vs /\ forall v, In v vs -> v <= n_max n).
Proof. exact statistics_history. Qed.
Print Assumptions C64_neuron_statistics.

Example C64_nonvacuous : seen_values (resetNeuronStatistics ex_net) [ex_G; fun _ => 2] 0 1 = [1; 2].
Proof. exact ex_seen. Qed.

(** ** C65: the weights file *)
(** The rows written are numbered 1, 2, ... and their values are the connection
    vector. *)
Theorem C65_written_rows : forall net a0, (1 <= numLayers net)%nat ->
  map row_value (writeConnections net) = map (getConnections net a0) (seq 0 (numConnections net)) /\
  map row_index (writeConnections net) = seq 1 (numConnections net).
Proof. exact writeConnections_spec. Qed.
Print Assumptions C65_written_rows.

(** Reading the first column back and setting it as connections restores every
    weight and bias of the network. *)
Theorem C65_written_rows_restore : forall net, (1 <= numLayers net)%nat ->
  let column := fun p => nth p (map row_value (writeConnections net)) 0 in
  (forall l j k, (S l < numLayers net)%nat -> (j < numNeurons net l)%nat -> (k < numNeurons net (S l))%nat ->
     weight (setConnections column net) l j k = weight net l j k) /\
  (forall l k, (S l < numLayers net)%nat -> (k < numNeurons net (S l))%nat ->
     bias (setConnections column net) l k = bias net l k).
Proof. exact written_rows_restore. Qed.
Print Assumptions C65_written_rows_restore.

(** Every row names the connection whose value it contains. *)
Theorem C65_rows_labelled : forall net, (1 <= numLayers net)%nat -> forall r, In r (writeConnections net) -> labelled net r.
Proof. exact rows_labelled. Qed.
Print Assumptions C65_rows_labelled.

Example C65_nonvacuous : length (writeConnections ex_net) = 13%nat.
Proof. reflexivity. Qed.
