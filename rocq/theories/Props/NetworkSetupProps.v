(** Property C74: architecture of the neural networks from the settings file. *)
From Coq Require Import ZArith Ascii String Bool Arith.
From Coq Require Import List.
From Verif Require Import Model.Strings Model.ElementMap Model.NeuralNetwork Model.Settings Model.SymLines Model.NetworkSetup
  Spec.StringSpec Spec.SymLineSpec Spec.NetworkSetupSpec Proofs.SymLineExamples
  Proofs.NetworkSetupMain Proofs.NetworkSetupAccept Proofs.NetworkSetupExamples.
Import ListNotations.

(** Whatever the settings file contains: if the set-up succeeds, each element's
    network has the number of hidden layers of the global keyword, one input
    neuron per symmetry function, one output neuron, and in each hidden layer the
    number of neurons and the activation function of the element's own line or
    else of the global line.

    Partial: the neurons of the last hidden layer and the activation function of
    the output layer always come from the global line, and a line for a different
    number of hidden layers is never accepted (refuted below). *)
Theorem C74_architecture_partial : forall s em suffix inputs nets,
  sizes_int inputs -> inputs <> [] -> setupNeuralNetworks s em suffix inputs = Done nets ->
  exists n, 1 <= n /\ hidden_layers s suffix n /\ length nets = length inputs /\
  forall e inp net, nth_error inputs e = Some inp -> nth_error nets e = Some net ->
    numLayers net = n + 2 /\ numNeurons net 0 = inp /\ 0 < inp /\ numNeurons net (n + 1) = 1 /\ actFun net 0 = AF_IDENTITY /\
    (forall j, 1 <= j <= n -> 0 < numNeurons net j) /\
    (forall j, 1 <= j < n -> exists w, layer_word em s (lit "element_nodes" ++ suffix) (lit "global_nodes" ++ suffix) e j w /\
       atoi w = Done (Z.of_nat (numNeurons net j))) /\
    (exists ws w, global_line s (lit "global_nodes" ++ suffix) ws /\ has_words ws n /\ word ws (n - 1) w /\ atoi w = Done (Z.of_nat (numNeurons net n))) /\
    (forall j, 1 <= j <= n -> exists w, layer_word em s (lit "element_activation" ++ suffix) (lit "global_activation" ++ suffix) e j w /\
       activationFromString w = Some (actFun net j)) /\
    (exists ws w, global_line s (lit "global_activation" ++ suffix) ws /\ has_words ws (n + 1) /\ word ws n w /\ activationFromString w = Some (actFun net (n + 1))) /\
    (forall ws, own_line em s (lit "element_nodes" ++ suffix) e ws -> has_words ws (n + 1)) /\
    (forall ws, own_line em s (lit "element_activation" ++ suffix) e ws -> has_words ws (n + 2)) /\
    (forall ws, own_line em s (lit "element_hidden_layers" ++ suffix) e ws -> exists w, word ws 1 w /\ atoi w = Done (Z.of_nat n)) /\
    keywordExists s (lit "normalize_nodes") false = Some (normalizeNeurons net).
Proof. exact setup_sound. Qed.
Print Assumptions C74_architecture_partial.

(** Settings which follow the documentation, with the same number of hidden
    layers for all elements, are accepted. *)
Theorem C74_accepted : forall s em suffix inputs n, valid_networks s em suffix inputs n ->
  exists nets, setupNeuralNetworks s em suffix inputs = Done nets.
Proof. exact setup_accepts. Qed.
Print Assumptions C74_accepted.

(** The element's own number of neurons in the last hidden layer is ignored. *)
Theorem C74_last_layer_refuted : exists text s em inputs nets e net w,
  loadFile settings_init text = (s, 0) /\ valid_networks s em (lit "_short") inputs 2 /\
  setupNeuralNetworks s em (lit "_short") inputs = Done nets /\ nth_error nets e = Some net /\
  layer_word em s (lit "element_nodes" ++ lit "_short") (lit "global_nodes" ++ lit "_short") e 2 w /\
  atoi w <> Done (Z.of_nat (numNeurons net 2)).
Proof. exact last_layer_refuted. Qed.
Print Assumptions C74_last_layer_refuted.

(** The element's own activation function of the output layer is ignored. *)
Theorem C74_output_activation_refuted : exists text s em inputs nets e net w,
  loadFile settings_init text = (s, 0) /\ valid_networks s em (lit "_short") inputs 2 /\
  setupNeuralNetworks s em (lit "_short") inputs = Done nets /\ nth_error nets e = Some net /\
  layer_word em s (lit "element_activation" ++ lit "_short") (lit "global_activation" ++ lit "_short") e 3 w /\
  activationFromString w <> Some (actFun net 3).
Proof. exact output_activation_refuted. Qed.
Print Assumptions C74_output_activation_refuted.

(** A complete description of a network with another number of hidden layers is
    rejected. *)
Theorem C74_own_layers_refuted : exists text s em inputs,
  loadFile settings_init text = (s, 0) /\
  own_line em s (lit "element_hidden_layers" ++ lit "_short") 0 [lit "H"; lit "1"] /\
  own_line em s (lit "element_nodes" ++ lit "_short") 0 [lit "H"; lit "5"] /\
  own_line em s (lit "element_activation" ++ lit "_short") 0 [lit "H"; lit "p"; lit "l"] /\
  setupNeuralNetworks s em (lit "_short") inputs = Thrown.
Proof. exact own_layers_refuted. Qed.
Print Assumptions C74_own_layers_refuted.

(** A settings file with two elements, two hidden layers and own lines. *)
Example C74_example : loadFile settings_init net_text = (net_settings, 0) /\ valid_networks net_settings HO (lit "_short") [7; 8] 2 /\
  sizes_int [7; 8] /\ exists nets, setupNeuralNetworks net_settings HO (lit "_short") [7; 8] = Done nets.
Proof.
  split; [exact net_loaded|]. split; [exact net_valid|]. split; [exact (proj1 (vn_inputs _ _ _ _ _ net_valid))|].
  exact (setup_accepts _ _ _ _ _ net_valid).
Qed.
