(** Specification of the training set-up and of the training loop (C81-C84): what
    the settings ask for.  Only the reading of numbers (C library), the look-up of
    keywords (C09-C11) and the names of enumerations are taken from the model. *)
From Coq Require Import Reals ZArith Ascii String Permutation.
From Coq Require Import List.
From Verif Require Import Base.AssocMap Model.Strings Model.Printf Model.Settings Model.SymLines Model.NetworkSetup Model.DataFiles
  Model.Updaters Model.Selection Model.UpdatePlan Model.TrainingSetup.
Import ListNotations.
Local Open Scope R_scope.

(** ** Settings *)
Definition given (s : settings) (keyword value : str) : Prop := getValue s keyword = Some value.
Definition absent (s : settings) (keyword : str) : Prop := keywordExists s keyword false = Some false.
Definition given_int (s : settings) (keyword : str) (z : Z) : Prop := exists w, given s keyword w /\ atoi w = Done z.
Definition given_real (s : settings) (keyword : str) (x : R) : Prop := exists w, given s keyword w /\ x = atof w.

(** A training: set up from the settings for z epochs and run to its end.  The
    order of the updates of an epoch, the matrix inversion and what the updaters
    get to see (errors and their derivatives) are arbitrary. *)
Definition training_run (s : settings) (nnp : nnpType) (stage : nat) (e : surroundings) (zs : list nat)
  (shuffle : nat -> list nat -> list nat) (inv : nat -> matrix -> matrix) (kobs : nat -> nat -> observation) (gobs : nat -> nat -> R * vector)
  (z : nat) (t : training) (x : loop_state) : Prop :=
  setupTraining s nnp stage e = Done t /\ given_int s (lit "epochs") (Z.of_nat z) /\ (forall n l, Permutation (shuffle n l) l) /\
  exists fuel, loop zs shuffle inv kobs gobs fuel t = Some (Done x).
(** What is trained: short-range networks with energies and, if asked for,
    forces; in the first of two stages charges. *)
Definition first_of_two (nnp : nnpType) (stage : nat) : Prop := nnp <> HDNNP_2G /\ stage = 1%nat.
Definition trained (s : settings) (nnp : nnpType) (stage : nat) (k : property) : Prop :=
  match k with
  | Charge => first_of_two nnp stage
  | Energy => ~ first_of_two nnp stage
  | Force => ~ first_of_two nnp stage /\ keywordExists s (lit "use_short_forces") false = Some true
  end.

(** ** C81: selection modes *)
Definition mode_code (z : Z) (m : selectionMode) : Prop :=
  (z = 0%Z /\ m = SM_RANDOM) \/ (z = 1%Z /\ m = SM_SORT) \/ (z = 2%Z /\ m = SM_THRESHOLD).
(** "m0 e1 m1 e2 m2 ...": mode m0 from the start, m1 from epoch e1 and so on. *)
Inductive entries_of : list str -> list (Z * Z) -> Prop :=
| EO_first w m : atoi w = Done m -> entries_of [w] [(0%Z, m)]
| EO_more ws l we wm e m : entries_of ws l -> atoi we = Done e -> atoi wm = Done m -> entries_of (ws ++ [we; wm]) (l ++ [(e, m)]).
(** Entry j of the list is in force in an epoch: it has begun, and no entry has
    begun later; of several entries with the same beginning the last one counts. *)
Definition in_force (l : list (Z * Z)) (epoch : Z) (j : nat) : Prop :=
  exists b m, nth_error l j = Some (b, m) /\ (0 <= b <= epoch)%Z /\
  forall j' b' m', nth_error l j' = Some (b', m') -> (0 <= b' <= epoch)%Z -> (b' < b)%Z \/ (b' = b /\ (j' <= j)%nat).
Definition scheduled (value : str) (epoch : nat) (m : selectionMode) : Prop :=
  exists l j b z, entries_of (split value ch_space) l /\ in_force l (Z.of_nat epoch) j /\ nth_error l j = Some (b, z) /\ mode_code z m.
(** The line of the property itself counts, then the line for all properties. *)
Definition own (base : string) (k : property) : str :=
  lit base ++ lit "_" ++ match k with Energy => lit "energy" | Force => lit "force" | Charge => lit "charge" end.
Definition effective (s : settings) (base : string) (k : property) (value : option str) : Prop :=
  match value with
  | Some v => given s (own base k) v \/ (absent s (own base k) /\ given s (lit base) v)
  | None => absent s (own base k) /\ absent s (lit base)
  end.
Definition wanted_mode (s : settings) (k : property) (epoch : nat) (m : selectionMode) : Prop :=
  exists v, effective s "selection_mode" k v /\ match v with Some v => scheduled v epoch m | None => m = SM_RANDOM end.
Definition wanted_threshold (s : settings) (k : property) (x : R) : Prop :=
  exists v, effective s "rmse_threshold" k v /\ x = match v with Some v => atof v | None => 0 end.
(** Number of trials; a number below zero is taken as a huge one. *)
Definition wanted_trials (s : settings) (k : property) (n : Z) : Prop :=
  exists v, effective s "rmse_threshold_trials" k v /\
  match v with Some v => exists z, atoi v = Done z /\ ((0 <= z)%Z -> n = z) /\ ((z < 0)%Z -> n = (z + 2 ^ 64)%Z) | None => n = 0%Z end.
(** Which lines are accepted: an odd number of integers, and every entry that
    counts in some epoch (the last one with its beginning) is a known mode.
    Beginnings below zero are large numbers that no training reaches. *)
Definition acceptable_schedule (value : str) : Prop :=
  exists l, entries_of (split value ch_space) l /\
  forall j b z, nth_error l j = Some (b, z) -> (forall j' z', (j < j')%nat -> nth_error l j' <> Some (b, z')) -> exists m, mode_code z m.

(** ** C82: files *)
(** How often files are written: "keyword n a": every n epochs, and in all epochs
    up to a; no number (or more than two): in every epoch; without the keyword, or
    with n = 0: never.  (Numbers not below zero.) *)
Definition asks (words : list str) (epoch : Z) (yes : Prop) : Prop :=
  match words with
  | [n] => exists z, atoi n = Done z /\ ((0 <= z)%Z -> (yes <-> (0 < z)%Z /\ (z | epoch)%Z))
  | [n; a] => exists z b, atoi n = Done z /\ atoi a = Done b /\
                ((0 <= z)%Z -> (0 <= b)%Z -> (yes <-> (0 < z)%Z /\ ((z | epoch)%Z \/ (epoch <= b)%Z)))
  | _ => yes
  end.
Definition asks_for_files (s : settings) (keyword : string) (epoch : nat) (yes : Prop) : Prop :=
  (absent s (lit keyword) /\ ~ yes) \/
  (exists v, given s (lit keyword) v /\ asks (words_of v) (Z.of_nat epoch) yes).
Definition stage_of (nnp : nnpType) (stage : nat) : str := match nnp with HDNNP_2G => [] | _ => lit ".stage-" ++ print_d stage end.
Definition weights_file (nnp : nnpType) (stage Z n : nat) : str :=
  lit (match nnp with HDNNP_2G => "weights." | _ => if Nat.eqb stage 1 then "weightse." else "weights." end) ++
  fmt_0 3 Z ++ lit "." ++ fmt_0 6 n ++ lit ".out".
Definition hardness_file (Z n : nat) : str := lit "hardness." ++ fmt_0 3 Z ++ lit "." ++ fmt_0 6 n ++ lit ".out".
Definition comparison_file (train : bool) (k : property) (n : nat) : str :=
  (if train then lit "train" else lit "test") ++
  lit (match k with Energy => "points." | Force => "forces." | Charge => "charges." end) ++ fmt_0 6 n ++ lit ".out".
Definition comparison_keyword (k : property) : string :=
  match k with Energy => "write_trainpoints" | Force => "write_trainforces" | Charge => "write_traincharges" end.
Definition neurons_file (nnp : nnpType) (stage n : nat) : str :=
  lit (match nnp with HDNNP_2G => "neuron-stats.short." | _ => if Nat.eqb stage 1 then "neuron-stats.elec." else "neuron-stats.short." end) ++
  fmt_0 6 n ++ lit ".out" ++ stage_of nnp stage.
Definition curve_file (nnp : nnpType) (stage : nat) : str := lit "learning-curve.out" ++ stage_of nnp stage.
Definition timing_file (nnp : nnpType) (stage : nat) : str := lit "timing.out" ++ stage_of nnp stage.
(** File of the only updater (0) or of the updater of an element. *)
Definition updater_file (nnp : nnpType) (stage Z : nat) : str := lit "updater." ++ fmt_0 3 Z ++ lit ".out" ++ stage_of nnp stage.
(** A file holds exactly the data of these epochs. *)
Definition holds_epochs (f : files) (name : str) (epochs : list nat) : Prop := mget str_eqb name f = Some epochs.
Definition unchanged (before after : files) (name : str) : Prop := mget str_eqb name after = mget str_eqb name before.
(** A file for one epoch: it holds the data of that epoch if the settings ask for
    it, otherwise it is not touched. *)
Definition file_of_epoch (s : settings) (keyword : string) (before after : files) (n : nat) (name : str) : Prop :=
  exists yes : bool, asks_for_files s keyword n (yes = true) /\ if yes then holds_epochs after name [n] else unchanged before after name.

(** ** C83: updaters *)
(** A Kalman filter at the beginning, with [n] weights and [u] updates per epoch. *)
Definition starts_kalman (s : settings) (n : nat) (u : R) (w : vector) (k : kalman) : Prop :=
  k_n k = n /\ k_num k = 0%nat /\ (forall i, k_w k i = w i) /\
  given_real s (lit "kalman_epsilon") (k_eps k) /\ given_real s (lit "kalman_q0") (k_q0 k) /\ k_q k = k_q0 k /\
  given_real s (lit "kalman_qtau") (k_qtau k * u) /\ given_real s (lit "kalman_qmin") (k_qmin k) /\
  (forall i j, k_P k i j = (if Nat.eqb i j then 1 else 0) / k_eps k) /\
  match k_type k with
  | KT_STANDARD => given_int s (lit "kalman_type") 0%Z /\ given_real s (lit "kalman_eta") (k_eta0 k) /\ k_eta k = k_eta0 k /\
      ((given_real s (lit "kalman_etatau") (k_etatau k * u) /\ given_real s (lit "kalman_etamax") (k_etamax k)) \/
       ((absent s (lit "kalman_etatau") \/ absent s (lit "kalman_etamax")) /\ k_etamax k = k_eta0 k))
  | KT_FADINGMEMORY => given_int s (lit "kalman_type") 1%Z /\ given_real s (lit "kalman_lambda_short") (k_lambda k) /\
                       given_real s (lit "kalman_nue_short") (k_nu k) /\ k_gamma k = 1
  end.
Definition starts_descent (s : settings) (n : nat) (w : vector) (g : descent) : Prop :=
  g_n g = n /\ (forall i, g_w g i = w i) /\
  match g_type g with
  | DT_FIXED => given_int s (lit "gradient_type") 0%Z /\ given_real s (lit "gradient_eta") (g_eta g)
  | DT_ADAM => given_int s (lit "gradient_type") 1%Z /\ given_real s (lit "gradient_adam_eta") (g_eta0 g) /\
               given_real s (lit "gradient_adam_beta1") (g_beta1 g) /\ given_real s (lit "gradient_adam_beta2") (g_beta2 g) /\
               given_real s (lit "gradient_adam_epsilon") (g_eps g) /\ (forall i, g_m g i = 0 /\ g_v g i = 0) /\
               g_beta1t g = g_beta1 g /\ g_beta2t g = g_beta2 g
  end.
(** Number of weights of each updater: one for all elements, with one more weight
    per element for the hardness in stage 1 of 4G, or one for each element. *)
Definition updater_sizes (strategy : Z) (hardness : bool) (conn : list nat) : list nat :=
  if Z.eqb strategy 0 then [fold_right Nat.add 0%nat (map (fun n => if hardness then S n else n) conn)] else conn.
(** Updates of an epoch. *)
Definition updates_per_epoch (t : training) : R := fold_right Rplus 0 (map (fun p => IZR (tr_updates p)) (t_props t)).
(** The n-th updater of this process. *)
Definition kalman_at (t : training) (i : nat) (k : kalman) : Prop := nth_error (t_updaters t) i = Some (UK k).

(** Process 0 has updaters, the others only in parallel mode 1. *)
Definition has_updaters (e : surroundings) (parallel : Z) : bool := (Nat.eqb (su_rank e) 0 || Z.eqb parallel 1)%bool.
(** The error shown: as asked for. *)
Definition shown_metric (asked : option str) (k : property) (m : str) : Prop :=
  match asked with
  | None => m = match k with Energy => lit "RMSEpa" | _ => lit "RMSE" end
  | Some v => match k with
              | Energy => m = v
              | _ => ((v = lit "RMSEpa" \/ v = lit "RMSE") /\ m = lit "RMSE") \/ ((v = lit "MAEpa" \/ v = lit "MAE") /\ m = lit "MAE")
              end
  end.

(** ** C84: number of patterns *)
Definition number_of_updates (x : list step) (epoch : nat) (k : property) : nat :=
  List.length (filter (fun sp => (Nat.eqb (sp_epoch sp) epoch && property_eqb k (tr_key (sp_prop sp)))%bool) x).
(** Fraction of the patterns used in an epoch: as given for the property, but for
    forces the desired ratio of forces to energies counts if it is given. *)
Definition wanted_fraction (s : settings) (cs : property -> counts) (k : property) (f : R) : Prop :=
  let own_fraction := given_real s (match k with Energy => lit "energy_fraction" | Force => lit "force_fraction" | Charge => lit "charge_fraction" end) f in
  match k with
  | Force => (exists r, given_real s (lit "force_energy_ratio") r /\ (0 < n_train (cs Force))%nat /\ f * INR (n_train (cs Force)) = INR (n_train (cs Energy)) * r) \/
             (absent s (lit "force_energy_ratio") /\ own_fraction)
  | _ => own_fraction
  end.
Definition batch_keyword (k : property) : str :=
  match k with Energy => lit "task_batch_size_energy" | Force => lit "task_batch_size_force" | Charge => lit "task_batch_size_charge" end.
