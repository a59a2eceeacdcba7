(** Training and test sets, order of updates and choice by threshold (C52, C53, C55). *)
From Coq Require Import List Arith Reals Permutation.
From Verif Require Import Model.Selection Spec.SelectionSpec Proofs.SelectSetsProofs Proofs.SelectionProofs Proofs.EpochProofs Proofs.SelectionExamples.
Import ListNotations.

(** C52: every structure gets exactly one set: the one it had, or, if undecided, the test set if its random number is below the fraction,
    otherwise the training set. *)
Theorem C52_every_structure_in_one_set : forall nnp hasE hasF hasQ ne fraction draw structures st,
  selectSets nnp hasE hasF hasQ ne fraction draw structures = Some st ->
  length (ss_types st) = length structures /\
  forall i s, nth_error structures i = Some s -> exists t, nth_error (ss_types st) i = Some t /\ set_of draw fraction structures i s t.
Proof. exact split_partition. Qed.
Print Assumptions C52_every_structure_in_one_set.

(** C52: the candidate lists are those of the training structures, in order, and nothing else. *)
Theorem C52_candidate_lists : forall nnp hasE hasF hasQ ne fraction draw structures st,
  selectSets nnp hasE hasF hasQ ne fraction draw structures = Some st ->
  let l := numbered structures (ss_types st) in
  map places (pt_cands (ss_energy st)) = (if hasE : bool then over_training energy_places l else []) /\
  map places (pt_cands (ss_force st)) = (if hasF : bool then over_training (force_places nnp) l else []) /\
  map places (pt_cands (ss_charge st)) = (if hasQ : bool then over_training (charge_places nnp) l else []).
Proof. exact candidates. Qed.
Print Assumptions C52_candidate_lists.

(** C52: every energy of the training set is a candidate exactly once. *)
Theorem C52_energies_once : forall nnp hasF hasQ ne fraction draw structures st,
  selectSets nnp true hasF hasQ ne fraction draw structures = Some st ->
  NoDup (map c_s (pt_cands (ss_energy st))) /\
  forall i, In i (map c_s (pt_cands (ss_energy st))) <-> exists s, in_training structures (ss_types st) i s.
Proof. exact energy_once. Qed.
Print Assumptions C52_energies_once.

(** C52: every force component of every atom of the training set occurs exactly once. *)
Theorem C52_force_components_once : forall nnp hasE hasQ ne fraction draw structures st,
  selectSets nnp hasE true hasQ ne fraction draw structures = Some st -> all_indexed structures ->
  NoDup (covered (pt_cands (ss_force st))) /\
  forall i a c, In (i, (a, c)) (covered (pt_cands (ss_force st))) <-> exists s, in_training structures (ss_types st) i s /\ a < s_numAtoms s /\ c < 3.
Proof. exact force_once. Qed.
Print Assumptions C52_force_components_once.

(** C52: every atom of the training set occurs exactly once among the charges. *)
Theorem C52_charges_once : forall nnp hasE hasF ne fraction draw structures st,
  selectSets nnp hasE hasF true ne fraction draw structures = Some st -> all_indexed structures -> nnp <> HDNNP_4G ->
  NoDup (covered (pt_cands (ss_charge st))) /\
  forall i a, In (i, (a, 0)) (covered (pt_cands (ss_charge st))) <-> exists s, in_training structures (ss_types st) i s /\ a < s_numAtoms s.
Proof. exact charge_once. Qed.
Print Assumptions C52_charges_once.

(** C52: with global charges (4G) forces and charges have one candidate per training structure. *)
Theorem C52_one_candidate_per_structure_4G : forall hasE hasF hasQ ne fraction draw structures st,
  selectSets HDNNP_4G hasE hasF hasQ ne fraction draw structures = Some st ->
  (hasF = true -> NoDup (map c_s (pt_cands (ss_force st))) /\ forall i, In i (map c_s (pt_cands (ss_force st))) <-> exists s, in_training structures (ss_types st) i s) /\
  (hasQ = true -> NoDup (map c_s (pt_cands (ss_charge st))) /\ forall i, In i (map c_s (pt_cands (ss_charge st))) <-> exists s, in_training structures (ss_types st) i s).
Proof. exact global_once. Qed.
Print Assumptions C52_one_candidate_per_structure_4G.

(** C52: the numbers of training and test patterns are those of the structures in the two sets. *)
Theorem C52_pattern_counts : forall nnp hasE hasF hasQ ne fraction draw structures st,
  selectSets nnp hasE hasF hasQ ne fraction draw structures = Some st ->
  let l := numbered structures (ss_types st) in
  let train f := list_sum (over_training (fun _ s => [f s]) l) in
  let test f := list_sum (over_test (fun _ s => [f s]) l) in
  (hasE = true -> pt_train (ss_energy st) = train energy_patterns /\ pt_test (ss_energy st) = test energy_patterns) /\
  (hasF = true -> pt_train (ss_force st) = train force_patterns /\ pt_test (ss_force st) = test force_patterns) /\
  (hasQ = true -> pt_train (ss_charge st) = train (charge_patterns nnp) /\ pt_test (ss_charge st) = test (charge_patterns nnp)).
Proof. exact pattern_counts. Qed.
Print Assumptions C52_pattern_counts.

(** C52: the selection does not fail if all structures count atoms of all elements. *)
Theorem C52_succeeds : forall nnp hasE hasF hasQ ne fraction draw structures,
  (forall s, In s structures -> ne <= length (s_perElement s)) -> exists st, selectSets nnp hasE hasF hasQ ne fraction draw structures = Some st.
Proof. exact select_succeeds. Qed.
Print Assumptions C52_succeeds.

Example C52_example : exists st, selectSets HDNNP_2G true true true 2 (1 / 10) exDraw exStructures = Some st /\
  ss_types st = [ST_TRAINING; ST_TEST; ST_TEST] /\ length (pt_cands (ss_force st)) = 6 /\ pt_test (ss_force st) = 6 /\ all_indexed exStructures.
Proof. exact exSets. Qed.

(** C53: whatever the random shuffle, the schedule of an epoch holds every property as often as planned, and nothing else. *)
Theorem C53_schedule_complete : forall shuffle numUpdates, (forall l, Permutation (shuffle l) l) ->
  forall i, count_occ Nat.eq_dec (setEpochSchedule shuffle numUpdates) i = nth i numUpdates 0.
Proof. exact schedule_counts. Qed.
Print Assumptions C53_schedule_complete.
Example C53_schedule_example : setEpochSchedule (@rev nat) [2; 3] = [0; 0; 1; 1; 1] /\ forall l : list nat, Permutation (rev l) l.
Proof. split; [reflexivity|]. intros l. apply Permutation_sym, Permutation_rev. Qed.

(** C53: random and sorted selection go cyclically through the candidates, from update to update and within batches. *)
Theorem C53_candidates_in_turn : forall frac grouped batch m u, ready false u -> u_mode u <> SM_THRESHOLD ->
  exists l u', epochSelection false frac grouped batch m u = Some (l, u') /\
  map fst l = map (fun j => (u_pos u + j) mod length (u_cands u)) (seq 0 (m * batch)) /\ ready false u' /\ same_places (u_cands u) (u_cands u').
Proof. exact cycling. Qed.
Print Assumptions C53_candidates_in_turn.

(** C53: any stretch of updates as long as the list of candidates uses every candidate exactly once. *)
Theorem C53_every_candidate_once_per_cycle : forall frac grouped batch m u l u', ready false u -> u_mode u <> SM_THRESHOLD ->
  epochSelection false frac grouped batch m u = Some (l, u') -> forall j, j + length (u_cands u) <= m * batch ->
  Permutation (firstn (length (u_cands u)) (skipn j (map fst l))) (seq 0 (length (u_cands u))).
Proof. exact each_once. Qed.
Print Assumptions C53_every_candidate_once_per_cycle.
Example C53_candidates_example : ready false exProp /\ exists u', epochSelection false (fun _ => twoErr) (fun _ => 0) 2 2 exProp = Some ([(2, None); (0, None); (1, None); (2, None)], u').
Proof. exact (conj exReady exEpoch). Qed.

(** C53: with sub-candidates (4G forces) those of every structure are used cyclically, over all the updates of an epoch. *)
Theorem C53_sub_candidates_in_turn : forall grouped frac batch, position_free grouped -> 0 < batch ->
  forall m u, ready true u -> u_mode u <> SM_THRESHOLD ->
  exists l u', epochSelection true frac grouped batch m u = Some (l, u') /\ length l = m * batch /\ cycled u u' l /\ ready true u' /\ u_mode u' = u_mode u.
Proof. exact epoch_cycled. Qed.
Print Assumptions C53_sub_candidates_in_turn.

(** C53: one update uses sub-candidates of a single structure; the next structure comes as soon as the planned number of sub-candidates has been used. *)
Theorem C53_structure_changes_after_group : forall grouped frac batch u c, position_free grouped -> ready true u -> u_mode u <> SM_THRESHOLD -> 0 < batch ->
  nth_error (u_cands u) (u_pos u mod length (u_cands u)) = Some c ->
  let k := u_pos u mod length (u_cands u) in
  let g := if Nat.eqb (u_countGrouped u) 0 then grouped c else u_numGrouped u in
  exists l u', updateSelection true frac grouped batch u = Some (l, u') /\ length l = batch /\ (forall x, In x l -> fst x = k) /\
  cycled u u' l /\ ready true u' /\ u_mode u' = u_mode u /\
  (if Nat.leb g (u_countGrouped u + batch)
   then u_pos u' = S k /\ u_countGrouped u' = 0
   else u_pos u' = k /\ u_countGrouped u' = u_countGrouped u + batch /\ u_numGrouped u' = g).
Proof. exact update_cycled. Qed.
Print Assumptions C53_structure_changes_after_group.
Example C53_sub_candidates_example : ready true exProp4G /\
  exists u', epochSelection true (fun _ => twoErr) (fun _ => 2) 1 5 exProp4G = Some ([(0, Some 2); (0, Some 0); (1, Some 0); (1, Some 1); (0, Some 1)], u').
Proof. exact (conj exReady4G exEpoch4G). Qed.

(** C53: shuffling and sorting rearrange the candidates and their sub-candidates and start again at the first. *)
Theorem C53_shuffle_rearranges : forall shuffleC shuffleS u, (forall l, Permutation (shuffleC l) l) -> (forall c l, Permutation (shuffleS c l) l) ->
  rearranged u (shuffleUpdateCandidates shuffleC shuffleS u).
Proof. exact shuffle_rearranged. Qed.
Print Assumptions C53_shuffle_rearranges.
Theorem C53_sort_rearranges : forall sortC sortS err serr u, (forall l, Permutation (sortC l) l) -> (forall l, Permutation (sortS l) l) ->
  rearranged u (sortUpdateCandidates sortC sortS err serr u).
Proof. exact sort_rearranged. Qed.
Print Assumptions C53_sort_rearranges.

(** C55: if one of the tried candidates is above the threshold, the first such is used, and the next selection goes on behind it. *)
Theorem C55_first_above_threshold : forall useSub frac u j, (forall o, position_free (fun c => frac c o)) -> ready useSub u -> u_mode u = SM_THRESHOLD -> j < u_trials u ->
  (forall i, i < j -> (error_at frac u (tried useSub u i) <= u_threshold u)%R) -> (u_threshold u < error_at frac u (tried useSub u j))%R ->
  exists x, select useSub frac u = Some x /\ (x_cand x, x_sub x) = tried useSub u j /\ x_log x = logged useSub (tried useSub u j) /\ x_il x = j /\
  ready useSub (x_prop x) /\ same_places (u_cands u) (u_cands (x_prop x)) /\ (forall i, tried useSub (x_prop x) i = tried useSub u (S j + i)).
Proof. exact threshold_found. Qed.
Print Assumptions C55_first_above_threshold.

(** C55, no candidate above the threshold: exactly the allowed number of trials is made and the one with the largest error is written to
    the log.  Missing: it is not the one used for the update, see below. *)
Theorem C55_exhausted_partial : forall useSub frac u, (forall o, position_free (fun c => frac c o)) -> ready useSub u -> u_mode u = SM_THRESHOLD -> 0 < u_trials u ->
  (forall i, i < u_trials u -> (error_at frac u (tried useSub u i) <= u_threshold u)%R) ->
  exists x, select useSub frac u = Some x /\ (x_cand x, x_sub x) = tried useSub u (u_trials u - 1) /\ x_il x = u_trials u /\
  ((exists i, i < u_trials u /\ (0 < error_at frac u (tried useSub u i))%R) ->
   exists i, i < u_trials u /\ x_log x = logged useSub (tried useSub u i) /\
     forall i', i' < u_trials u -> (error_at frac u (tried useSub u i') <= error_at frac u (tried useSub u i))%R) /\
  ready useSub (x_prop x) /\ same_places (u_cands u) (u_cands (x_prop x)) /\ (forall i, tried useSub (x_prop x) i = tried useSub u (u_trials u + i)).
Proof. exact threshold_exhausted. Qed.
Print Assumptions C55_exhausted_partial.

(** C55, refuted: the candidate used when no one is above the threshold need not be the one with the largest error. *)
Theorem C55_largest_error_used_refuted : exists frac u x, (forall o, position_free (fun c => frac c o)) /\ ready false u /\ u_mode u = SM_THRESHOLD /\ 0 < u_trials u /\
  (forall i, i < u_trials u -> (error_at frac u (tried false u i) <= u_threshold u)%R) /\ select false frac u = Some x /\
  exists i, i < u_trials u /\ (error_at frac u (x_cand x, x_sub x) < error_at frac u (tried false u i))%R.
Proof. exact exhausted_refuted. Qed.
Print Assumptions C55_largest_error_used_refuted.
Example C55_example : ready false two /\ u_mode two = SM_THRESHOLD /\ tried false two 1 = (1, None).
Proof. exact (conj two_ready (conj eq_refl eq_refl)). Qed.
