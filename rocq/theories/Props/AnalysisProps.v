(** Properties C87, C88: histograms, neighbor statistics and atomic environments. *)
From Coq Require Import Reals ZArith List Arith Permutation Sorted.
From Verif Require Import Base.SumR Model.NeighborList Model.SymLines Model.DataAnalysis Spec.NeighborSpec Spec.ScalingSpec Spec.DataAnalysisSpec
  Proofs.HistogramProofs Proofs.NeighborHistogramProofs Proofs.EnvironmentProofs Proofs.EnvironmentExamples.
Import ListNotations.
Local Open Scope R_scope.

(** ** C87 *)
(** A histogram is written for exactly the symmetry functions whose values vary;
    it covers all values, each counted once, for any distribution of the atoms
    over processes. *)
Theorem C87_symmetry_function_histograms : forall numBins numSF procs,
  (2 <= numBins)%nat -> finite_values procs -> known numSF procs ->
  exists files, writeSymmetryFunctionHistograms numBins numSF procs = Done files /\
  (forall e s file, In (e, s, file) files -> exists n, nth_error numSF e = Some n /\ (s < n)%nat /\ varies (all_values e s procs)) /\
  forall e n s, nth_error numSF e = Some n -> (s < n)%nat -> varies (all_values e s procs) ->
  exists mn mx file, is_minimum mn (all_values e s procs) /\ is_maximum mx (all_values e s procs) /\
    (forall file', In (e, s, file') files <-> file' = file) /\
    is_histogram (all_values e s procs) mn ((mx - mn) / INR (numBins - 1)) numBins file /\
    rsum (counts file) = INR (length (all_values e s procs)).
Proof. exact histograms_correct. Qed.
Print Assumptions C87_symmetry_function_histograms.
Example C87_nonvacuous : finite_values ex_procs /\ known [2%nat] ex_procs /\ varies (all_values 0 0 ex_procs) /\ ~ varies (all_values 0 1 ex_procs).
Proof. exact ex_histogram. Qed.

(** The neighbor histogram, the numbers in the log and the lines of the
    structures. *)
Theorem C87_neighbor_statistics : forall procs, (forall n, In n (all_counts procs) -> (Z.of_nat n < 2 ^ 64)%Z) ->
  let r := writeNeighborHistogram procs in
  nr_histogram r = map (fun k => (INR k - 1 / 2, INR k + 1 / 2, INR (count_occ Nat.eq_dec (all_counts procs) k))) (seq 0 (nr_max r + 1)) /\
  (all_counts procs <> [] ->
     (In (nr_max r) (all_counts procs) /\ forall n, In n (all_counts procs) -> (n <= nr_max r)%nat) /\
     (exists m, In m (all_counts procs) /\ nr_min r = Z.of_nat m /\ forall n, In n (all_counts procs) -> (m <= n)%nat) /\
     nr_mean r = rsum (map INR (all_counts procs)) / INR (length (all_counts procs))) /\
  Forall2 structure_row (concat procs) (nr_rows r).
Proof. exact neighbor_histogram_correct. Qed.
Print Assumptions C87_neighbor_statistics.
Example C87_neighbor_case : nr_max (writeNeighborHistogram [[(0%nat, [3; 1]%nat)]; [(1%nat, [4]%nat)]]) = 4%nat /\
  nr_min (writeNeighborHistogram [[(0%nat, [3; 1]%nat)]; [(1%nat, [4]%nat)]]) = 1%Z.
Proof. split; reflexivity. Qed.

(** ** C88 *)
(** The neighbor list file: atomic number, neighbors of each element, indices of
    all atoms and images in range, nearest first. *)
Theorem C88_neighbor_file : forall nsort nsort' fuel rc b z G s s', is_sort nsort -> is_sort nsort' -> no_list s -> zero_counters s -> wrapped s ->
  0 <= Rmax rc (s_maxrc s) -> calculateNeighborList nsort fuel rc b s = Some s' ->
  exists lines, writeNeighborLists z (s_numElements s) (sort_lists nsort' [map (fun a => mkEnv a (G a)) (s_atoms s')]) = Done ([length (s_atoms s)] :: lines) /\
    length lines = length (s_atoms s) /\
    forall i line, nth_error lines i = Some line -> neighbor_file_line z s (Rmax rc (s_maxrc s)) i line.
Proof. exact neighbor_file_correct. Qed.
Print Assumptions C88_neighbor_file.

(** The atomic environment file: one line for each atom with the values of the
    requested numbers of nearest neighbors; refused exactly if some atom has too
    few. *)
Theorem C88_environment : forall numElements cut structures, square numElements cut -> (forall s, In s structures -> listed numElements s) ->
  (writeAtomicEnvironmentFile numElements cut structures = Thrown <-> too_few numElements cut structures) /\
  (forall lines, writeAtomicEnvironmentFile numElements cut structures = Done lines -> Forall2 (environment numElements cut) (atoms_of structures) lines) /\
  (~ too_few numElements cut structures -> exists lines, writeAtomicEnvironmentFile numElements cut structures = Done lines).
Proof. exact environment_correct. Qed.
Print Assumptions C88_environment.
(** Structures with sorted neighbor lists of the library satisfy the hypothesis. *)
Theorem C88_listed : forall nsort nsort' fuel rc b G s s', is_sort nsort -> is_sort nsort' -> no_list s -> zero_counters s -> wrapped s ->
  0 <= Rmax rc (s_maxrc s) -> calculateNeighborList nsort fuel rc b s = Some s' ->
  forall t, In t (sort_lists nsort' [map (fun a => mkEnv a (G a)) (s_atoms s')]) -> listed (s_numElements s) t.
Proof. exact listed_after. Qed.
Print Assumptions C88_listed.
(** With one element the columns have a fixed meaning: own values, then those of
    the nearest, second nearest, ... neighbor. *)
Theorem C88_single_element : forall c structures lines, (forall s, In s structures -> listed 1 s) ->
  writeAtomicEnvironmentFile 1 [[c]] structures = Done lines ->
  lines = map (fun sa => (0%nat, ea_G (snd sa) ++ flat_map (fun n => G_of (fst sa) (nb_index n)) (firstn c (a_nbs (ea_atom (snd sa)))))) (atoms_of structures).
Proof. exact environment_single. Qed.
Print Assumptions C88_single_element.
(** With several elements they have not: the log announces sorting by element and
    distance, but the comparison ignores the element.  Two atoms of the same
    element, the same column: values of different elements. *)
Theorem C88_columns_refuted : exists nsort nsort' fuel rc s s' G lines i j,
  is_sort nsort /\ is_sort nsort' /\ no_list s /\ zero_counters s /\ wrapped s /\ 0 <= Rmax rc (s_maxrc s) /\
  calculateNeighborList nsort fuel rc false s = Some s' /\
  (forall a, In a (s_atoms s') -> length (G a) = 1%nat) /\
  writeAtomicEnvironmentFile 2 [[1; 1]; [0; 0]]%nat (sort_lists nsort' [map (fun a => mkEnv a (G a)) (s_atoms s')]) = Done lines /\
  exists li lj ai aj ci cj, nth_error lines i = Some li /\ nth_error lines j = Some lj /\ fst li = fst lj /\
    nth_error (snd li) 1 = Some ci /\ nth_error (snd lj) 1 = Some cj /\ In ai (s_atoms s') /\ In aj (s_atoms s') /\
    (forall a, In a (s_atoms s') -> G a = [ci] <-> a = ai) /\ (forall a, In a (s_atoms s') -> G a = [cj] <-> a = aj) /\
    a_element ai <> a_element aj.
Proof. exact columns. Qed.
Print Assumptions C88_columns_refuted.
Example C88_nonvacuous : no_list ho_cell /\ zero_counters ho_cell /\ wrapped ho_cell.
Proof. exact ho_fresh. Qed.
