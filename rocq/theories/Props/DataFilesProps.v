(** Properties C76, C77: scaling files and weights files. *)
From Coq Require Import Reals ZArith Ascii String.
From Coq Require Import List.
From Verif Require Import Base.AssocMap Model.Strings Model.Printf Model.Settings Model.Scaling Model.SymLines Model.NeuralNetwork Model.DataFiles
  Spec.StringSpec Spec.ScalingSpec Spec.PrintfSpec Spec.NetworkSpec Spec.DataFilesSpec
  Proofs.NetExamples Proofs.DataFilesText Proofs.ScalingFileProofs Proofs.WeightsFileProofs Proofs.DataFilesExamples.
Import ListNotations.
Local Open Scope R_scope.

(** ** C76: the scaling file *)
(** Scaling data written to a file and loaded again: every symmetry function of
    every element gets exactly the numbers written for it, and the scaling type
    and target range the settings ask for. *)
Theorem C76_round_trip : forall s t lo hi elements rows,
  requested s t lo hi -> numbered_functions elements ->
  Forall2 (fun fs (rs : list sf_row) => List.length fs = List.length rs) elements rows -> countable rows ->
  (forall e i r, entry rows e i r -> double_row r) ->
  exists text scs, writeScaling rows = Done text /\ setupScaling s text elements = Done scs /\ List.length scs = List.length rows /\
    forall e i r, entry rows e i r -> exists sc, entry scs e i sc /\
      s_Gmin sc = r_min r /\ s_Gmax sc = r_max r /\ s_Gmean sc = r_mean r /\ s_Gsigma sc = r_sigma r /\
      forall x, scale sc x = documented_scale t (r_min r) (r_max r) (r_mean r) (r_sigma r) lo hi x.
Proof. exact scaling_round_trip_exact. Qed.
Print Assumptions C76_round_trip.

(** Statistics of a data set, written and loaded: all values of the data set are
    mapped into the target range, and both ends of it are reached. *)
Theorem C76_training_range : forall s lo hi elements stats (values : nat -> nat -> list R),
  requested s ST_SCALE lo hi -> lo < hi -> numbered_functions elements ->
  Forall2 (fun fs (st : nat * stat_data) => List.length fs = fst st) elements stats -> (Z.of_nat (List.length stats) < 2 ^ 31)%Z ->
  (forall e st, nth_error stats e = Some st -> (Z.of_nat (fst st) < 2 ^ 31)%Z /\ forall i, (i < fst st)%nat ->
     (forall v, In v (values e i) -> double v) /\ (exists v w, In v (values e i) /\ In w (values e i) /\ v < w) /\
     exists c, mget Nat.eqb i (snd st) = Some c /\ holds (values e i) c) ->
  exists text scs, writeStatistics stats = Done text /\ setupScaling s text elements = Done scs /\
    forall e i f, entry elements e i f -> exists sc, entry scs e i sc /\
      (forall v, In v (values e i) -> lo <= scale sc v <= hi) /\
      (exists v w, In v (values e i) /\ In w (values e i) /\ scale sc v = lo /\ scale sc w = hi).
Proof. exact training_range. Qed.
Print Assumptions C76_training_range.

(** Whatever file is loaded successfully: it has no empty line, at least one data
    line per symmetry function, and function i of element e was set from the line
    at its position; that line carries its element or its index. *)
Theorem C76_loaded_lines : forall s ls elements scs, (forall l, In l ls -> one_line l) -> setupScaling s (file_of ls) elements = Done scs ->
  exists t lo hi data, requested s t lo hi /\ (forall l, In l ls -> l <> []) /\ selected data_line ls data /\ List.length scs = List.length elements /\
    forall e i f, entry elements e i f -> exists l sc ws w0 w1 w2 w3 w4,
      nth_error data (functions_before elements e + i) = Some l /\ entry scs e i sc /\ is_words l ws /\
      nth_error ws 0 = Some w0 /\ nth_error ws 1 = Some w1 /\ nth_error ws 2 = Some w2 /\ nth_error ws 3 = Some w3 /\ nth_error ws 4 = Some w4 /\
      (atoi w0 = Done (Z.of_nat (id_ec f + 1)) \/ atoi w1 = Done (Z.of_nat (id_index f + 1))) /\
      s_Gmin sc = atof w2 /\ s_Gmax sc = atof w3 /\ s_Gmean sc = atof w4 /\
      s_Gsigma sc = match nth_error ws 5 with Some w => atof w | None => id_sigma f end /\
      forall x, scale sc x = documented_scale t (s_Gmin sc) (s_Gmax sc) (s_Gmean sc) (s_Gsigma sc) lo hi x.
Proof. exact scaling_loaded. Qed.
Print Assumptions C76_loaded_lines.

(** A file whose lines belong to other elements is accepted: the first element is
    scaled with the line of the second. *)
Theorem C76_swapped_elements_refuted : exists s ls elements scs l w0 ws sc, (forall l, In l ls -> one_line l) /\ numbered_functions elements /\
  setupScaling s (file_of ls) elements = Done scs /\
  selected data_line ls ls /\ nth_error ls 0 = Some l /\ is_words l (w0 :: ws) /\ atoi w0 = Done 2%Z /\
  entry scs 0 0 sc /\ Some (s_Gmin sc) = option_map atof (nth_error ws 1).
Proof. exact swapped_lines. Qed.
Print Assumptions C76_swapped_elements_refuted.

(** The header of any file consists of comment lines only. *)
Theorem C76_header_is_comment : forall title sizes names infos c h, c <> ascii_of_nat 10 ->
  (forall t, In t (title ++ names ++ infos) -> one_line t) -> (exists n, In n sizes /\ (0 < n)%nat) ->
  createFileHeader title sizes names infos c = Done h ->
  forall t, In t h -> exists r, t = (c :: r) ++ [ascii_of_nat 10] /\ one_line (c :: r).
Proof. exact header_comments. Qed.
Print Assumptions C76_header_is_comment.

Example C76_example : requested ex_settings ST_SCALE (-1) 1 /\ numbered_functions ex_functions /\
  Forall2 (fun fs (rs : list sf_row) => List.length fs = List.length rs) ex_functions ex_rows /\ countable ex_rows /\
  (forall e i r, entry ex_rows e i r -> double_row r) /\ entry ex_rows 0 1 (mkSfRow (-5) 7 2 3).
Proof. exact ex_scaling. Qed.
Example C76_training_example : numbered_functions [[mkSfId 0 0 0]] /\
  Forall2 (fun fs (st : nat * stat_data) => List.length fs = fst st) [[mkSfId 0 0 0]] ex_stats /\
  (forall e st, nth_error ex_stats e = Some st -> (Z.of_nat (fst st) < 2 ^ 31)%Z /\ forall i, (i < fst st)%nat ->
     (forall v, In v [0; 2] -> double v) /\ (exists v w, In v [0; 2] /\ In w [0; 2] /\ v < w) /\
     exists c, mget Nat.eqb i (snd st) = Some c /\ holds [0; 2] c).
Proof. exact ex_training. Qed.
Example C76_header_example : exists h, scaling_header = Done h /\ List.length h = 15%nat.
Proof. eexists. split; vm_compute; reflexivity. Qed.

(** ** C77: weights files *)
(** Weights written to a file and loaded into any network of the same
    architecture: every weight and bias is restored exactly. *)
Theorem C77_round_trip : forall net net0, well_formed net -> small_network net -> double_weights net -> same_architecture net0 net ->
  exists text net', writeWeights net = Done text /\ readWeights net0 text = Done (Some net') /\ same_weights net' net /\ same_architecture net' net.
Proof. exact weights_round_trip. Qed.
Print Assumptions C77_round_trip.

(** Whatever file is loaded successfully: each weight and bias is the first word
    of the data line at its position. *)
Theorem C77_loaded_lines : forall net ls net', (1 <= numLayers net)%nat -> (forall l, In l ls -> one_line l) -> readWeights net (file_of ls) = Done (Some net') ->
  exists data, selected data_line ls data /\ same_architecture net' net /\
  (forall l j k, (S l < numLayers net)%nat -> (j < numNeurons net l)%nat -> (k < numNeurons net (S l))%nat ->
     exists t w ws, nth_error data (weight_position (numNeurons net) l j k) = Some t /\ is_words t (w :: ws) /\ weight net' l j k = atof w) /\
  (forall l k, (S l < numLayers net)%nat -> (k < numNeurons net (S l))%nat ->
     exists t w ws, nth_error data (bias_position (numNeurons net) l k) = Some t /\ is_words t (w :: ws) /\ bias net' l k = atof w).
Proof. exact weights_loaded. Qed.
Print Assumptions C77_loaded_lines.

(** A weights file without its last line is not rejected: loading it has
    undefined behaviour. *)
Theorem C77_truncated_file_refuted : forall net, well_formed net -> small_network net -> exists ls l, writeWeights net = Done (file_of (ls ++ [l])) /\
  (forall x, In x (ls ++ [l]) -> one_line x) /\ forall net0, same_architecture net0 net -> readWeights net0 (file_of ls) = Undefined.
Proof. exact truncated_weights. Qed.
Print Assumptions C77_truncated_file_refuted.

(** The atomic hardness is not restored exactly, but up to one part in 10^5. *)
Theorem C77_hardness_refuted : exists h, double h /\ readHardness (writeHardness h) <> Done (Some h).
Proof. exact hardness_lost. Qed.
Print Assumptions C77_hardness_refuted.
Theorem C77_hardness_partial : forall h, double h -> exists h', readHardness (writeHardness h) = Done (Some h') /\ Rabs (h' - h) <= / 10 ^ 5 * Rabs h.
Proof. exact hardness_error. Qed.
Print Assumptions C77_hardness_partial.

(** A hardness file is accepted if and only if it has exactly one line that is
    neither empty nor a comment. *)
Theorem C77_hardness_lines : forall ls, (forall l, In l ls -> one_line l) ->
  (readHardness (file_of ls) <> Thrown <-> exists c1 d c2, ls = c1 ++ d :: c2 /\ data_line d /\ forall l, In l (c1 ++ c2) -> ~ data_line l).
Proof. exact hardness_lines. Qed.
Print Assumptions C77_hardness_lines.
Example C77_hardness_comment : exists c1 d c2, [lit "# hardness"; lit "1.5"] = c1 ++ d :: c2 /\ data_line d /\ forall l, In l (c1 ++ c2) -> ~ data_line l.
Proof. exact hardness_comment. Qed.

Example C77_example : well_formed ex_net /\ small_network ex_net /\ double_weights ex_net /\ same_architecture (setConnections ex_c ex_net) ex_net.
Proof. exact ex_weights. Qed.
