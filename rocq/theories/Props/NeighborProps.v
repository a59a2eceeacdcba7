(** Properties C21-C24: neighbor lists. *)
From Coq Require Import Reals Lra ZArith List Arith Permutation Sorted.
From Verif Require Import Base.Vec3 Model.Geometry Model.NeighborList Spec.GeometrySpec Spec.NeighborSpec
  Spec.SetupSpec Proofs.SetupExamples
  Proofs.NeighborMore Proofs.CutoffMapProofs Proofs.NeighborExamples Proofs.NeighborSort.
Import ListNotations.
Local Open Scope R_scope.

(** ** C21 *)
Theorem C21_neighbor_list_exact : forall nsort fuel rc b s s',
  is_sort nsort -> no_list s -> wrapped s -> 0 <= Rmax rc (s_maxrc s) ->
  calculateNeighborList nsort fuel rc b s = Some s' ->
  length (s_atoms s') = length (s_atoms s) /\
  forall i ai, nth_error (s_atoms s) i = Some ai ->
  exists ai' L nbs, nth_error (s_atoms s') i = Some ai' /\ a_r ai' = a_r ai /\ a_element ai' = a_element ai /\
    Permutation (a_nbs ai') nbs /\ Forall2 (stored s ai) L nbs /\ NoDup L /\
    (forall j m, In (j, m) L <-> in_range s (Rmax rc (s_maxrc s)) i j m).
Proof. exact list_correct. Qed.
Print Assumptions C21_neighbor_list_exact.

Theorem C21_always_finishes : forall nsort rc b s,
  no_list s -> (s_periodic s = true -> det (s_box s) <> 0) ->
  exists fuel0, forall fuel, (fuel0 <= fuel)%nat -> exists s', calculateNeighborList nsort fuel rc b s = Some s'.
Proof. exact list_terminates. Qed.
Print Assumptions C21_always_finishes.

(** Atoms which were not remapped into the cell lose neighbors. *)
Theorem C21_unwrapped_refuted : exists nsort fuel rc s s' j m a,
  is_sort nsort /\ no_list s /\ s_maxrc s <= rc /\ 0 < det (s_box s) /\
  calculateNeighborList nsort fuel rc false s = Some s' /\
  in_range s rc 0 j m /\ nth_error (s_atoms s') 0 = Some a /\ isNeighbor a j = false.
Proof. exact unwrapped. Qed.
Print Assumptions C21_unwrapped_refuted.

Example C21_nonvacuous : (exists nsort, is_sort nsort) /\ no_list ex_cell /\ wrapped ex_cell /\ 0 < det (s_box ex_cell) /\
  in_range ex_cell 1 0 1 (0, 0, 0)%Z /\ in_range ex_cell 1 0 0 (1, 0, 0)%Z.
Proof. exact ex_cell_ok. Qed.

(** ** C22 *)
Theorem C22_symmetric : forall nsort fuel rc b s s' i j ai aj, is_sort nsort -> no_list s ->
  calculateNeighborList nsort fuel rc b s = Some s' ->
  nth_error (s_atoms s') i = Some ai -> nth_error (s_atoms s') j = Some aj ->
  Permutation (map nb_dr (filter (fun n => Nat.eqb (nb_index n) j) (a_nbs ai)))
              (map (fun n => vopp (nb_dr n)) (filter (fun n => Nat.eqb (nb_index n) i) (a_nbs aj))).
Proof. exact list_symmetric. Qed.
Print Assumptions C22_symmetric.

(** std::sort may be used with the comparison of neighbors, and any such sort
    orders by distance, as the other theorems suppose. *)
Theorem C22_comparison : strict_weak_order (fun _ => True) nb_lt /\ forall nsort, sorts nb_lt nsort -> is_sort nsort.
Proof. exact neighbor_sort. Qed.
Print Assumptions C22_comparison.
Example C22_comparison_case : sorts nb_lt (isort nb_lt).
Proof. exact neighbor_sort_exists. Qed.

(** ** C23 *)
Theorem C23_counters : forall nsort fuel rc b s s' i ai', is_sort nsort -> no_list s -> zero_counters s ->
  calculateNeighborList nsort fuel rc b s = Some s' -> nth_error (s_atoms s') i = Some ai' ->
  a_numN ai' = length (a_nbs ai') /\
  (forall e, (e < s_numElements s)%nat ->
     nth_error (a_perEl ai') e = Some (length (filter (fun n => Nat.eqb e (nb_element n)) (a_nbs ai')))) /\
  a_numU ai' = length (a_unique ai') /\
  exists U, a_unique ai' = i :: U /\ NoDup (i :: U) /\
    (forall j, In j U <-> j <> i /\ exists n, In n (a_nbs ai') /\ nb_index n = j).
Proof. exact counters_correct. Qed.
Print Assumptions C23_counters.

(** Clearing and recomputing gives the same list, number of neighbors and unique
    neighbors ... *)
Theorem C23_recompute_partial : forall nsort fuel rc b b' s s1 s2 i a1 a2, is_sort nsort -> no_list s ->
  calculateNeighborList nsort fuel rc b s = Some s1 ->
  calculateNeighborList nsort fuel rc b' (clearNeighborList s1) = Some s2 ->
  nth_error (s_atoms s1) i = Some a1 -> nth_error (s_atoms s2) i = Some a2 ->
  Permutation (a_nbs a2) (a_nbs a1) /\ a_numN a2 = a_numN a1 /\ a_unique a2 = a_unique a1 /\ a_numU a2 = a_numU a1.
Proof. exact recompute_same. Qed.
Print Assumptions C23_recompute_partial.

(** ... but the counts per element are not reset: they include the neighbors of
    the previous list. *)
Theorem C23_recompute_counts_refuted : exists nsort fuel rc s s1 s2 a,
  is_sort nsort /\ no_list s /\ zero_counters s /\
  calculateNeighborList nsort fuel rc false s = Some s1 /\
  calculateNeighborList nsort fuel rc false (clearNeighborList s1) = Some s2 /\
  nth_error (s_atoms s2) 0 = Some a /\
  nth 0 (a_perEl a) 0%nat <> length (filter (fun n => Nat.eqb 0 (nb_element n)) (a_nbs a)).
Proof. exact recount. Qed.
Print Assumptions C23_recompute_counts_refuted.

Example C23_nonvacuous : no_list ex_cell /\ zero_counters ex_cell.
Proof. exact ex_cell_counters. Qed.

(** ** C24 *)
Theorem C24_cutoff_map : forall nsort fuel rc cutoffs s s1, is_sort nsort -> no_list s -> no_cutoff_map s ->
  (forall a, In a (s_atoms s) -> (a_element a < length cutoffs)%nat) ->
  calculateNeighborList nsort fuel rc true s = Some s1 ->
  exists s2, setupNeighborCutoffMap cutoffs s1 = Some s2 /\ length (s_atoms s2) = length (s_atoms s1) /\
  forall i a1, nth_error (s_atoms s1) i = Some a1 -> exists a2, nth_error (s_atoms s2) i = Some a2 /\
    a_nbs a2 = a_nbs a1 /\
    (forall c, calculateNumNeighbors a2 c = count_below c (a_nbs a2)) /\
    (forall c, filter (fun n => if Rle_dec (nb_d n) c then true else false) (a_nbs a2) = firstn (calculateNumNeighbors a2 c) (a_nbs a2)) /\
    (forall c, (count_below c (a_nbs a2) <= getStoredMinNumNeighbors a2 c <= length (a_nbs a2))%nat) /\
    (forall c cs, nth_error cutoffs (a_element a2) = Some cs -> In c cs \/ (0 < s_maxrc s /\ c = s_maxrc s) ->
       getStoredMinNumNeighbors a2 c = count_below c (a_nbs a2)).
Proof. exact cutoff_map_correct. Qed.
Print Assumptions C24_cutoff_map.

Theorem C24_needs_sorted_list : forall cutoffs s, s_sorted s = false -> setupNeighborCutoffMap cutoffs s = None.
Proof. exact setup_unsorted. Qed.
Print Assumptions C24_needs_sorted_list.

(** The map survives clearNeighborList: after moving an atom and recomputing list
    and map, the numbers are those of the old configuration. *)
Theorem C24_stale_map_refuted : exists nsort fuel rc cutoffs s s1 s2 s3 s4 r a,
  is_sort nsort /\ no_list s /\ no_cutoff_map s /\
  calculateNeighborList nsort fuel rc true s = Some s1 /\ setupNeighborCutoffMap cutoffs s1 = Some s2 /\
  calculateNeighborList nsort fuel rc true (clearNeighborList (move 1 r s2)) = Some s3 /\
  setupNeighborCutoffMap cutoffs s3 = Some s4 /\
  nth_error (s_atoms s4) 0 = Some a /\ calculateNumNeighbors a rc <> count_below rc (a_nbs a).
Proof. exact stale_map. Qed.
Print Assumptions C24_stale_map_refuted.

Example C24_nonvacuous : no_list ex_cell /\ no_cutoff_map ex_cell /\ forall a, In a (s_atoms ex_cell) -> (a_element a < length [[1]; [1/2; 1]])%nat.
Proof. exact ex_cell_cutoffs. Qed.
