(** Properties C81 - C84: training set-up and training loop. *)
From Coq Require Import Reals ZArith Ascii String Permutation.
From Coq Require Import List.
From Verif Require Import Base.AssocMap Model.Strings Model.Printf Model.Settings Model.SymLines Model.NetworkSetup Model.DataFiles
  Model.Updaters Model.Selection Model.UpdatePlan Model.TrainingSetup Spec.TrainingSpec
  Proofs.TrainingSchedule Proofs.TrainingMain Proofs.TrainingTheorems Proofs.TrainingResults Proofs.TrainingUpdaters Proofs.TrainingExamples.
Import ListNotations.
Local Open Scope R_scope.

(** ** C81: selection modes follow the schedule of the settings *)
(** Every update of a training is done in the mode, and with the threshold and
    the number of trials, that the settings ask for in that epoch. *)
Theorem C81_selection : forall s nnp stage e zs shuffle inv kobs gobs z t x,
  training_run s nnp stage e zs shuffle inv kobs gobs z t x ->
  forall sp, In sp (lo_steps x) -> (1 <= sp_epoch sp <= z)%nat /\ trained s nnp stage (tr_key (sp_prop sp)) /\
    wanted_mode s (tr_key (sp_prop sp)) (sp_epoch sp) (tr_mode (sp_prop sp)) /\
    wanted_threshold s (tr_key (sp_prop sp)) (tr_threshold (sp_prop sp)) /\ wanted_trials s (tr_key (sp_prop sp)) (tr_trials (sp_prop sp)).
Proof. exact mode_theorem. Qed.
Print Assumptions C81_selection.
(** In every epoch the patterns of every trained property are put in order, by
    their errors exactly if the settings ask for this mode. *)
Theorem C81_order : forall s nnp stage e zs shuffle inv kobs gobs z t x,
  training_run s nnp stage e zs shuffle inv kobs gobs z t x ->
  (forall n k, (1 <= n <= z)%nat -> trained s nnp stage k -> exists o, In o (lo_orders x) /\ or_epoch o = n /\ or_key o = k) /\
  forall o, In o (lo_orders x) -> (1 <= or_epoch o <= z)%nat /\ trained s nnp stage (or_key o) /\
    exists m, wanted_mode s (or_key o) (or_epoch o) m /\ (or_how o = Sorted <-> m = SM_SORT).
Proof. exact order_theorem. Qed.
Print Assumptions C81_order.
(** The settings ask for one mode only. *)
Theorem C81_unique : forall s k n m m', wanted_mode s k n m -> wanted_mode s k n m' -> m = m'.
Proof. exact wanted_unique. Qed.
Print Assumptions C81_unique.
(** Which lines are accepted; a training with another line is not set up. *)
Theorem C81_accepted : forall value, (exists m, readSchedule value = Done m) <-> acceptable_schedule value.
Proof. exact schedule_accepted. Qed.
Print Assumptions C81_accepted.
Theorem C81_lines : forall s nnp stage e t, setupTraining s nnp stage e = Done t ->
  (forall v, given s (lit "selection_mode") v -> acceptable_schedule v) /\
  (forall k v, trained s nnp stage k -> given s (own "selection_mode" k) v -> acceptable_schedule v).
Proof. exact lines_theorem. Qed.
Print Assumptions C81_lines.
(** A training over 4 epochs with energies and forces, 25 updates each. *)
Example C81_example : forall inv kobs gobs, exists t x,
  training_run short_settings HDNNP_2G 1 short_sur [1; 8]%nat (fun _ l => l) inv kobs gobs 4 t x /\ t_props t = [energy_prop; force_prop] /\
  List.length (t_updaters t) = 1%nat.
Proof. exact short_run. Qed.
Example C81_example_modes : wanted_mode short_settings Energy 2 SM_THRESHOLD /\ wanted_mode short_settings Energy 3 SM_RANDOM /\
  wanted_mode short_settings Force 3 SM_SORT.
Proof. exact short_modes. Qed.
Example C81_example_order : forall inv kobs gobs t x, training_run short_settings HDNNP_2G 1 short_sur [1; 8]%nat (fun _ l => l) inv kobs gobs 4 t x ->
  exists o, In o (lo_orders x) /\ or_epoch o = 3%nat /\ or_key o = Force /\ or_how o = Sorted.
Proof. exact short_order. Qed.

(** ** C82: the training ends, and its files are written as asked for *)
(** The loop ends after the epochs asked for (z passes of its body). *)
Theorem C82_ends : forall s nnp stage e zs shuffle inv kobs gobs z t,
  setupTraining s nnp stage e = Done t -> given_int s (lit "epochs") (Z.of_nat z) -> (forall n l, Permutation (shuffle n l) l) ->
  exists x, t_epoch (lo_training x) = z /\ forall fuel, loop zs shuffle inv kobs gobs fuel t = if Nat.ltb fuel z then None else Some (Done x).
Proof. exact run_exists. Qed.
Print Assumptions C82_ends.
(** Weights of every element (and hardness, in stage 1 of 4G). *)
Theorem C82_weights : forall s nnp stage e zs shuffle inv kobs gobs z t x,
  training_run s nnp stage e zs shuffle inv kobs gobs z t x ->
  forall f0 n Z, (n <= z)%nat -> In Z zs -> let f := write_files (lo_writes x) f0 in
  file_of_epoch s "write_weights_epoch" f0 f n (weights_file nnp stage Z n) /\
  (nnp = HDNNP_4G /\ stage = 1%nat -> file_of_epoch s "write_weights_epoch" f0 f n (hardness_file Z n)) /\
  (~ (nnp = HDNNP_4G /\ stage = 1%nat) -> unchanged f0 f (hardness_file Z n)).
Proof. exact weights_files. Qed.
Print Assumptions C82_weights.
(** Comparison of energies, forces and charges for training and test sets. *)
Theorem C82_comparison : forall s nnp stage e zs shuffle inv kobs gobs z t x,
  training_run s nnp stage e zs shuffle inv kobs gobs z t x ->
  forall f0 n train k, (n <= z)%nat -> trained s nnp stage k ->
  file_of_epoch s (comparison_keyword k) f0 (write_files (lo_writes x) f0) n (comparison_file train k n).
Proof. exact comparison_files. Qed.
Print Assumptions C82_comparison.
Theorem C82_neurons : forall s nnp stage e zs shuffle inv kobs gobs z t x,
  training_run s nnp stage e zs shuffle inv kobs gobs z t x ->
  forall f0 n, (n <= z)%nat -> file_of_epoch s "write_neuronstats" f0 (write_files (lo_writes x) f0) n (neurons_file nnp stage n).
Proof. exact neuron_files. Qed.
Print Assumptions C82_neurons.
(** The files that grow hold every epoch once and in order, whatever was in them
    before: nothing of an earlier training is left. *)
Theorem C82_growing : forall s nnp stage e zs shuffle inv kobs gobs z t x,
  training_run s nnp stage e zs shuffle inv kobs gobs z t x -> NoDup zs ->
  forall f0, let f := write_files (lo_writes x) f0 in
  holds_epochs f (curve_file nnp stage) (seq 0 (z + 1)) /\
  ((1 <= z)%nat -> holds_epochs f (timing_file nnp stage) (seq 1 z)) /\
  (given_int s (lit "update_strategy") 0 -> holds_epochs f (updater_file nnp stage 0) (seq 0 (z + 1))) /\
  (given_int s (lit "update_strategy") 1 -> forall Z, In Z zs -> holds_epochs f (updater_file nnp stage Z) (seq 0 (z + 1))).
Proof. exact growing_files. Qed.
Print Assumptions C82_growing.
Example C82_example : forall inv kobs gobs t x f0, training_run short_settings HDNNP_2G 1 short_sur [1; 8]%nat (fun _ l => l) inv kobs gobs 4 t x ->
  let f := write_files (lo_writes x) f0 in
  holds_epochs f (lit "weights.008.000004.out") [4%nat] /\ holds_epochs f (lit "weights.001.000001.out") [1%nat] /\
  unchanged f0 f (lit "weights.008.000003.out").
Proof. exact short_weights. Qed.

(** ** C83: updaters are set up from the settings, and decay per epoch *)
(** Number, sizes, weights and parameters of the updaters at the beginning. *)
Theorem C83_start : forall s nnp stage e t y strategy parallel, setupTraining s nnp stage e = Done t ->
  given_int s (lit "updater_type") y -> given_int s (lit "update_strategy") strategy -> given_int s (lit "parallel_mode") parallel ->
  let sizes := updater_sizes strategy (is_4G nnp && Nat.eqb stage 1)%bool (su_conn e) in
  List.length (t_updaters t) = (if has_updaters e parallel then List.length sizes else 0%nat) /\
  forall i, (i < List.length (t_updaters t))%nat -> exists n, nth_error sizes i = Some n /\
    ((y = 1%Z /\ exists k, nth_error (t_updaters t) i = Some (UK k) /\ (0 < updates_per_epoch t -> starts_kalman s n (updates_per_epoch t) (su_values e (t_strategy t) i) k)) \/
     (y = 0%Z /\ exists g, nth_error (t_updaters t) i = Some (UG g) /\ starts_descent s n (su_values e (t_strategy t) i) g)).
Proof. exact start_theorem. Qed.
Print Assumptions C83_start.
(** The process noise after z epochs does not depend on the number of updates per
    epoch: qtau is a decay rate per epoch (as long as qmin is not reached). *)
Theorem C83_noise : forall s nnp stage e zs shuffle inv kobs gobs z t x,
  training_run s nnp stage e zs shuffle inv kobs gobs z t x -> 0 < updates_per_epoch t ->
  forall i k0 k, kalman_at t i k0 -> kalman_at (lo_training x) i k ->
  forall q0 qtau qmin, given_real s (lit "kalman_q0") q0 -> given_real s (lit "kalman_qtau") qtau -> given_real s (lit "kalman_qmin") qmin ->
  0 <= q0 -> 0 <= qtau -> qmin < q0 * exp (- (INR z * qtau)) -> k_q k = q0 * exp (- (INR z * qtau)).
Proof. exact noise_theorem. Qed.
Print Assumptions C83_noise.
(** The same for the growth of the learning rate, if both of its parameters are
    given; one of them alone has no effect. *)
Theorem C83_rate : forall s nnp stage e zs shuffle inv kobs gobs z t x,
  training_run s nnp stage e zs shuffle inv kobs gobs z t x -> 0 < updates_per_epoch t -> given_int s (lit "kalman_type") 0%Z ->
  forall i k0 k, kalman_at t i k0 -> kalman_at (lo_training x) i k ->
  forall eta, given_real s (lit "kalman_eta") eta -> 0 < eta ->
  (forall tau max, given_real s (lit "kalman_etatau") tau -> given_real s (lit "kalman_etamax") max -> 0 <= tau ->
     eta * exp (INR z * tau) < max -> k_eta k = eta * exp (INR z * tau)) /\
  (absent s (lit "kalman_etatau") \/ absent s (lit "kalman_etamax") -> k_eta k = eta).
Proof. exact rate_theorem. Qed.
Print Assumptions C83_rate.
(** Combinations of settings that are accepted. *)
Theorem C83_accepted : forall s nnp stage e t, setupTraining s nnp stage e = Done t ->
  (nnp = HDNNP_2G \/ stage = 1%nat \/ stage = 2%nat) /\
  (exists y, given_int s (lit "updater_type") y /\ ((y = 0%Z /\ given_int s (lit "jacobian_mode") 0) \/ y = 1%Z)) /\
  (exists y, given_int s (lit "parallel_mode") y /\ (y = 0%Z \/ y = 1%Z)) /\
  (exists y, given_int s (lit "jacobian_mode") y /\ (y = 0%Z \/ y = 1%Z \/ y = 2%Z)) /\
  (exists y, given_int s (lit "update_strategy") y /\ (y = 0%Z \/ y = 1%Z)) /\
  (exists y, given_int s (lit "epochs") y) /\
  (trained s nnp stage Force -> absent s (lit "repeated_energy_update")) /\
  (forall k, trained s nnp stage k -> exists b, given_int s (batch_keyword k) b).
Proof. exact accepted_theorem. Qed.
Print Assumptions C83_accepted.
(** The error shown for each property is the one asked for. *)
Theorem C83_metric : forall s nnp stage e t, setupTraining s nnp stage e = Done t -> forall p, In p (t_props t) ->
  In (tr_metric p) (metrics_of (tr_key p)) /\
  ((absent s (lit "main_error_metric") /\ shown_metric None (tr_key p) (tr_metric p)) \/
   (exists v, given s (lit "main_error_metric") v /\ shown_metric (Some v) (tr_key p) (tr_metric p))).
Proof. exact metric_theorem. Qed.
Print Assumptions C83_metric.
(** Not rejected, although meant to be: separate updates of the elements for
    other potentials than 2G. *)
Theorem C83_element_strategy_refuted : exists s e t, loadFile settings_init charge_text = (s, 0%nat) /\ setupTraining s HDNNP_4G 1 e = Done t /\
  given_int s (lit "update_strategy") 1%Z.
Proof. exact element_strategy. Qed.
Print Assumptions C83_element_strategy_refuted.
Example C83_example : forall inv kobs gobs t x, training_run short_settings HDNNP_2G 1 short_sur [1; 8]%nat (fun _ l => l) inv kobs gobs 4 t x ->
  t_props t = [energy_prop; force_prop] -> forall k0 k, kalman_at t 0 k0 -> kalman_at (lo_training x) 0 k -> k_q k = exp (-2) /\ k_eta k = 1.
Proof. exact short_noise. Qed.

(** ** C84: number of patterns of an epoch *)
(** Number of updates u of a property in each epoch and patterns b of each update:
    u b (times the number of processes) is the fraction asked for of the training
    patterns, rounded down to whole updates; b = 0: one update with this fraction
    of the patterns of each process. *)
Theorem C84_patterns : forall s nnp stage e zs shuffle inv kobs gobs z t x,
  training_run s nnp stage e zs shuffle inv kobs gobs z t x -> (0 < su_numProcs e)%nat ->
  forall k b, trained s nnp stage k -> given_int s (batch_keyword k) b -> (0 <= b)%Z ->
  exists f u, wanted_fraction s (su_counts e) k f /\ (forall n, (1 <= n <= z)%nat -> number_of_updates (lo_steps x) n k = u) /\
  (forall sp, In sp (lo_steps x) -> tr_key (sp_prop sp) = k -> (0 < b)%Z -> tr_patterns (sp_prop sp) = b) /\
  (0 <= f ->
   ((0 < b)%Z -> INR u * IZR b * INR (su_numProcs e) <= INR (n_train (su_counts e k)) * f < (INR u + 1) * IZR b * INR (su_numProcs e)) /\
   (b = 0%Z -> u = 1%nat /\ forall sp, In sp (lo_steps x) -> tr_key (sp_prop sp) = k ->
      IZR (tr_patterns (sp_prop sp)) <= INR (n_cands (su_counts e k)) * f < IZR (tr_patterns (sp_prop sp)) + 1)).
Proof. exact patterns. Qed.
Print Assumptions C84_patterns.
(** Ratio of forces to energies, if all energies are used ... *)
Theorem C84_ratio_partial : forall s nnp stage e t pe pf r, setupTraining s nnp stage e = Done t ->
  In pe (t_props t) -> tr_key pe = Energy -> In pf (t_props t) -> tr_key pf = Force ->
  given_real s (lit "force_energy_ratio") r -> given_real s (lit "energy_fraction") 1 ->
  tr_fraction pf * INR (n_train (su_counts e Force)) = r * (tr_fraction pe * INR (n_train (su_counts e Energy))).
Proof. exact ratio. Qed.
Print Assumptions C84_ratio_partial.
(** ... but not otherwise: 4 instead of 2. *)
Theorem C84_ratio_refuted : exists s e t pE pF r, setupTraining s HDNNP_2G 1 e = Done t /\
  In pE (t_props t) /\ In pF (t_props t) /\ tr_key pE = Energy /\ tr_key pF = Force /\
  given_real s (lit "force_energy_ratio") r /\ 0 < r /\
  (tr_updates pF * tr_patterns pF)%Z = (4 * (tr_updates pE * tr_patterns pE))%Z /\ r = 2 /\ (0 < tr_updates pE * tr_patterns pE)%Z.
Proof. exact ratio_fails. Qed.
Print Assumptions C84_ratio_refuted.
Example C84_example : forall inv kobs gobs t x, training_run short_settings HDNNP_2G 1 short_sur [1; 8]%nat (fun _ l => l) inv kobs gobs 4 t x ->
  number_of_updates (lo_steps x) 2 Energy = 5%nat.
Proof. exact short_patterns. Qed.
(** The first stage of a 4G training with gradient descent can be set up. *)
Example C84_example_charge : exists t, setupTraining charge_settings HDNNP_4G 1 charge_sur = Done t /\ t_props t = [charge_prop] /\
  List.length (t_updaters t) = 2%nat.
Proof. exact charge_setup. Qed.
