(** C95: initial weights and random number generators. *)
From Coq Require Import Reals ZArith List Ascii String Arith.
From Verif Require Import Base.SumR Model.Strings Model.Printf Model.Settings Model.SymLines Model.NeuralNetwork Model.DataFiles Model.Selection Model.TrainingSetup Model.WeightInit
  Spec.NetworkSpec Spec.InitSpec Spec.TrainingSpec Spec.WeightInitSpec Proofs.NetExamples Proofs.WeightInitProofs Proofs.WeightInitExamples.
From Coq Require Import List.
Import ListNotations.
Local Open Scope R_scope.

(** C95: every process has a generator of its own, seeded with a different draw of
    process 0, and all processes have the same global generator. *)
Theorem C95_generators : forall mt taus s numProcs z, (1 <= numProcs)%nat -> given_int s (lit "random_seed") z ->
  exists seeds states, setupRandomNumberGenerator mt taus s numProcs = Done (seeds, states) /\
  List.length seeds = numProcs /\ List.length states = numProcs /\
  let start := g_set mt (z mod 2 ^ 64)%Z in
  nth_error seeds 0 = Some (z mod 2 ^ 64)%Z /\
  (forall r, (S r < numProcs)%nat -> nth_error seeds (S r) = Some (nth_integer mt start r)) /\
  (forall r, (r < numProcs)%nat -> nth_error states r = Some (g_set taus (nth_integer mt start (numProcs - 1)))).
Proof. exact generators. Qed.
Print Assumptions C95_generators.

(** C95: training starts from the same networks on all processes, whatever the
    settings, generators and files. *)
Theorem C95_same_on_all_processes : forall mt taus s nnp stage id elec elec_files nets files numProcs l,
  initialNetworks mt taus s nnp stage id elec elec_files nets files numProcs = Done l ->
  List.length l = numProcs /\ forall r r' a b, nth_error l r = Some a -> nth_error l r' = Some b -> a = b.
Proof. exact same_networks. Qed.
Print Assumptions C95_same_on_all_processes.

(** C95: without further keywords each weight is a number of its own between
    weights_min and weights_max, times the factor of Glorot and Bengio, and the
    biases are zero. *)
Theorem C95_default : forall g s nnp stage id elec elec_files nets files st lo hi,
  (forall net, In net nets -> well_formed net) -> charges_available nnp stage elec elec_files ->
  given_real s (lit "weights_min") lo -> given_real s (lit "weights_max") hi ->
  absent s (lit "use_old_weights" ++ suffix id) -> absent s (lit "nguyen_widrow_weights" ++ suffix id) -> absent s (lit "precondition_weights") ->
  exists el nets' st', initializeWeights g s nnp stage id elec elec_files nets files st = Done (el, map Some nets', st') /\
  Forall2 same_design nets' nets /\
  forall e net net', nth_error nets e = Some net -> nth_error nets' e = Some net' ->
  (forall l j k, (S l < numLayers net)%nat -> (j < numNeurons net l)%nat -> (k < numNeurons net (S l))%nat ->
     weight net' l j k = drawn g st lo hi nets e (weight_position (numNeurons net) l j k) * glorot net l) /\
  (forall l k, (S l < numLayers net)%nat -> (k < numNeurons net (S l))%nat -> bias net' l k = 0).
Proof. exact default_weights. Qed.
Print Assumptions C95_default.
Theorem C95_range : forall g st lo hi nets e p, proper g -> lo < hi -> lo <= drawn g st lo hi nets e p < hi.
Proof. exact drawn_range. Qed.
Print Assumptions C95_range.

(** C95: with the scheme of Nguyen and Widrow the incoming weights of every hidden
    neuron have the direction drawn and the length of the scheme. *)
Theorem C95_nguyen_widrow : forall g s nnp stage id elec elec_files nets files st lo hi,
  (forall net, In net nets -> well_formed net) -> charges_available nnp stage elec elec_files ->
  given_real s (lit "weights_min") lo -> given_real s (lit "weights_max") hi ->
  absent s (lit "use_old_weights" ++ suffix id) -> keywordExists s (lit "nguyen_widrow_weights" ++ suffix id) false = Some true -> absent s (lit "precondition_weights") ->
  exists el nets' st', initializeWeights g s nnp stage id elec elec_files nets files st = Done (el, map Some nets', st') /\
  List.length nets' = List.length nets /\
  forall e net net', nth_error nets e = Some net -> nth_error nets' e = Some net' -> same_design net' net /\
  forall l k, (S l < numLayers net - 1)%nat -> (k < numNeurons net (S l))%nat ->
    let v j := drawn g st lo hi nets e (weight_position (numNeurons net) l j k) in
    let len := sqrt (sumn (numNeurons net l) (fun j => v j * v j)) in
    (forall j, (j < numNeurons net l)%nat -> weight net' l j k = v j * (widrow net l / len)) /\
    bias net' l k = drawn g st lo hi nets e (bias_position (numNeurons net) l k) * widrow net l /\
    (0 < len -> sqrt (sumn (numNeurons net l) (fun j => weight net' l j k * weight net' l j k)) = widrow net l).
Proof. exact widrow_weights. Qed.
Print Assumptions C95_nguyen_widrow.

(** C95: with use_old_weights each element gets the weights of its own file (what
    they are: C77), no random number is used. *)
Theorem C95_old_weights : forall g s nnp stage id elec elec_files nets files st r,
  charges_available nnp stage elec elec_files -> (absent s (lit "nguyen_widrow_weights_short") \/ absent s (lit "precondition_weights")) ->
  keywordExists s (lit "use_old_weights" ++ suffix id) false = Some true -> List.length files = List.length nets ->
  (forall e net text, nth_error nets e = Some net -> nth_error files e = Some text -> exists x, nth_error r e = Some x /\ readWeights net text = Done x) ->
  List.length r = List.length nets ->
  exists el, initializeWeights g s nnp stage id elec elec_files nets files st = Done (el, r, st).
Proof. exact old_weights. Qed.
Print Assumptions C95_old_weights.

(** C95: preconditioning is refused where it would be used, and together with
    nguyen_widrow_weights_short ... *)
Theorem C95_precondition : forall g s nnp stage id elec elec_files nets files st,
  keywordExists s (lit "precondition_weights") false = Some true -> absent s (lit "use_old_weights" ++ suffix id) ->
  absent s (lit "nguyen_widrow_weights" ++ suffix id) \/ keywordExists s (lit "nguyen_widrow_weights_short") false = Some true ->
  forall x, initializeWeights g s nnp stage id elec elec_files nets files st <> Done x.
Proof. exact precondition_rejected. Qed.
Print Assumptions C95_precondition.
(** ... but not together with nguyen_widrow_weights_charge: it is ignored. *)
Theorem C95_precondition_charge_refuted : exists s nets, (forall net, In net nets -> well_formed net) /\ nets <> [] /\
  keywordExists s (lit "nguyen_widrow_weights_charge") false = Some true /\ keywordExists s (lit "precondition_weights") false = Some true /\
  forall g st, exists x, initializeWeights g s HDNNP_4G 1 (lit "elec") [] [] nets [] st = Done x.
Proof. exact charge_incompatible. Qed.
Print Assumptions C95_precondition_charge_refuted.

(** The same random_seed does not give the same initial weights with another number
    of processes: the global seed is another draw of process 0.  Whenever the two
    seeds give different first numbers the networks differ. *)
Theorem C95_process_count_refuted : forall mt taus s nnp stage id elec elec_files net nets files z lo hi,
  (forall n, In n (net :: nets) -> well_formed n) -> charges_available nnp stage elec elec_files ->
  given_int s (lit "random_seed") z -> given_real s (lit "weights_min") lo -> given_real s (lit "weights_max") hi -> lo <> hi ->
  absent s (lit "use_old_weights" ++ suffix id) -> absent s (lit "nguyen_widrow_weights" ++ suffix id) -> absent s (lit "precondition_weights") ->
  let start := g_set mt (z mod 2 ^ 64)%Z in
  forall n m, (1 <= n)%nat -> (1 <= m)%nat ->
  nth_uniform taus (g_set taus (nth_integer mt start (n - 1))) 0 <> nth_uniform taus (g_set taus (nth_integer mt start (m - 1))) 0 ->
  exists a b, initialNetworks mt taus s nnp stage id elec elec_files (net :: nets) files n = Done (repeat a n) /\
    initialNetworks mt taus s nnp stage id elec elec_files (net :: nets) files m = Done (repeat b m) /\ a <> b.
Proof. exact process_count. Qed.
Print Assumptions C95_process_count_refuted.

(** Two networks, a simple generator and a settings file meet the hypotheses. *)
Example C95_case : proper counter /\ (forall net, In net init_nets -> well_formed net) /\
  let s := init_settings [] in
  given_real s (lit "weights_min") (atof (lit "-1")) /\ given_real s (lit "weights_max") (atof (lit "1")) /\ given_int s (lit "random_seed") 10 /\
  absent s (lit "use_old_weights_short") /\ absent s (lit "nguyen_widrow_weights_short") /\ absent s (lit "precondition_weights") /\
  nth_uniform counter (g_set counter (nth_integer counter (g_set counter 10%Z) 0)) 0 <> nth_uniform counter (g_set counter (nth_integer counter (g_set counter 10%Z) 1)) 0.
Proof. exact init_case. Qed.
Example C95_widrow_case : let s := init_settings ["nguyen_widrow_weights_short"]%string in
  given_real s (lit "weights_min") (atof (lit "-1")) /\ given_real s (lit "weights_max") (atof (lit "1")) /\
  absent s (lit "use_old_weights_short") /\ keywordExists s (lit "nguyen_widrow_weights_short") false = Some true /\ absent s (lit "precondition_weights").
Proof. exact widrow_case. Qed.
Example C95_precondition_case : let s := init_settings ["precondition_weights"]%string in
  keywordExists s (lit "precondition_weights") false = Some true /\ absent s (lit "use_old_weights_short") /\ absent s (lit "nguyen_widrow_weights_short").
Proof. exact precondition_case. Qed.
