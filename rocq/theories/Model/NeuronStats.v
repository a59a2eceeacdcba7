(** Model of the neuron statistics file: Training.cpp (src/libnnptrain)
    writeNeuronStatistics.

    Processes are a list, process 0 first; each has its own copy of the network
    of every element.  The name of the file and the epochs in which it is
    written are modelled in TrainingSetup.  The type long of the counters is nat. *)
From Coq Require Import Reals List Bool Arith Ascii String.
From Coq Require Import List.
From Verif Require Import Base.Loop Model.Strings Model.Printf Model.Settings Model.SymLines Model.DataFiles Model.NeuralNetwork Model.StructureFile Model.LearningCurve.
Import ListNotations.
Local Open Scope R_scope.

(** count, min, max, sum, sum of squares of a neuron. *)
Definition stat : Type := nat * R * R * R * R.
(** Training.cpp:1898-1914 MPI_Reduce of two processes' entries: MPI_SUM,
    MPI_MIN, MPI_MAX, MPI_SUM, MPI_SUM. *)
Definition combine_stat (a b : stat) : stat :=
  let '(c, mn, mx, s, s2) := a in let '(c', mn', mx', s', s2') := b in
  ((c + c')%nat, Rmin mn mn', Rmax mx mx', s + s', s2 + s2').
(** The arrays on process 0 afterwards (MPI_IN_PLACE), entry by entry; the order
    of the additions is that of the processes. *)
Definition reduce_stats (own : list stat) (others : list (list stat)) : list stat :=
  fold_left (fun acc l => map (fun p => combine_stat (fst p) (snd p)) (List.combine acc l)) others own.

(** A line of the file; [None] is not a number (0 / 0). *)
Record stat_row := mkStatRow { sr_element : nat; sr_neuron : nat; sr_count : nat; sr_min : R; sr_max : R; sr_mean : option R; sr_sigma : option R }.
(** Training.cpp:1919-1922; with one value (m - 1 = 0) the argument of sqrt is
    0 / 0, with none (m = 0) both are. *)
Definition stat_numbers (i j : nat) (s : stat) : stat_row :=
  let '(m, mn, mx, sum, sum2) := s in
  mkStatRow (i + 1) (j + 1) m mn mx
    (if Nat.eqb m 0 then None else Some (sum / INR m))
    (if Nat.leb m 1 then None else Some (sqrt ((INR m * sum2 - sum * sum) / (INR m * (INR m - 1))))).
(** Conversion %16.8E; the sign printed before NAN is not modelled. *)
Definition fmt16o (v : option R) : str := match v with Some v => fmt16 v | None => pad (lit "NAN") 16 ch_space false end.
(** Training.cpp:1923-1930. *)
Definition stat_line (r : stat_row) : outcome str :=
  undefined_if_long (line (fmt_d 10 (sr_element r) ++ lit " " ++ fmt_d 10 (sr_neuron r) ++ lit " " ++ fmt_d 10 (sr_count r) ++
    lit " " ++ fmt16 (sr_min r) ++ lit " " ++ fmt16 (sr_max r) ++ lit " " ++ fmt16o (sr_mean r) ++ lit " " ++ fmt16o (sr_sigma r))).
(** Training.cpp:1882-1932: the rows of element [i], given its network on all
    processes; no process: no communicator. *)
Definition element_stats (i : nat) (nets : list network) : outcome (list stat_row) :=
  match nets with
  | [] => Undefined
  | own :: others =>
      let all := reduce_stats (getNeuronStatistics own) (map getNeuronStatistics others) in
      Done (map (fun js => stat_numbers i (fst js) (snd js)) (number_list all))
  end.
(** Training.cpp:1847-1880. *)
Definition stats_header (id : str) : outcome (list str) :=
  createFileHeader [lit "Statistics for individual neurons of network """ ++ id ++ lit """ gathered during RMSE calculation."]
    [10; 10; 10; 16; 16; 16; 16]%nat
    [lit "element"; lit "neuron"; lit "count"; lit "min"; lit "max"; lit "mean"; lit "sigma"]
    [lit "Element index."; lit "Neuron number."; lit "Number of neuron value computations."; lit "Minimum neuron value encounterd.";
     lit "Maximum neuron value encounterd."; lit "Mean neuron value."; lit "Standard deviation of neuron value."] ch_hash.
(** Training.cpp:1844-1941: the file written by process 0. *)
Definition writeNeuronStatistics (id : str) (elements : list (list network)) : outcome str :=
  h <- stats_header id;
  rows <- mapo (fun e => element_stats (fst e) (snd e)) (number_list elements);
  ls <- mapo stat_line (List.concat rows);
  Done (appendLines h ++ List.concat ls).
