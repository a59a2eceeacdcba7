(** Comparison of two potentials and selection of structures (C104). *)
From Coq Require Import Reals List Arith String.
From Coq Require Import List.
From Verif Require Import Base.Vec3 Model.Strings Model.Settings Model.SymLines Model.Comp2 Spec.Comp2Spec Spec.NormalizationSpec Proofs.Comp2Proofs.
From Coq Require Import List.
Import ListNotations.
Local Open Scope R_scope.

(** Of the 2w processes the first w work for NNP 1, the others for NNP 2; process
    r and process w + r, and no other, form a pair: they have the same rank among
    the processes of their NNP (so the same share of the structures), the first
    receives and the second sends. *)
Theorem C104_pairs : forall w r, (r < w)%nat ->
  myNNP w r = 0%nat /\ myRankNNP w r = r /\ myRankData w r = 0%nat /\
  myNNP w (w + r) = 1%nat /\ myRankNNP w (w + r) = r /\ myRankData w (w + r) = 1%nat /\
  forall r', (r' < 2 * w)%nat -> (myData w r' = myData w r <-> r' = r \/ r' = (w + r)%nat).
Proof. exact pairs_ok. Qed.
Print Assumptions C104_pairs.

(** With forces in both potentials, the numbers reported for a structure are the
    warnings and energies of both, the differences of energy and forces, and the
    mean and the largest absolute difference of a force component. *)
Theorem C104_differences : forall s1 s2, List.length (re_atoms s1) = List.length (re_atoms s2) ->
  exists d, compareStructure true s1 (sendBuffer true s2) = Done d /\
    di_ew1 d = re_ew s1 /\ di_ew2 d = re_ew s2 /\ di_ewSum d = (re_ew s1 + re_ew s2)%nat /\
    di_e1 d = re_energy s1 /\ di_e2 d = re_energy s2 /\ di_energyRef d = re_energy s1 - re_energy s2 /\
    di_fRef d = map (fun p => vsub (fst (fst p)) (fst (snd p))) (combine (re_atoms s1) (re_atoms s2)) /\
    di_mean d = mean (abs_components (di_fRef d)) /\ is_largest (abs_components (di_fRef d)) (di_max d).
Proof. exact differences_ok. Qed.
Print Assumptions C104_differences.

(** Without forces in both potentials the energies and warnings are compared; the
    forces written are the reference forces of the data set. *)
Theorem C104_without_forces_partial : forall s1 s2, exists d, compareStructure false s1 (sendBuffer false s2) = Done d /\
  di_ew2 d = re_ew s2 /\ di_energyRef d = re_energy s1 - re_energy s2 /\ di_mean d = 0 /\ di_max d = 0 /\ di_fRef d = map snd (re_atoms s1).
Proof. exact no_forces. Qed.
Print Assumptions C104_without_forces_partial.

(** Forces used by NNP 1 only: for equal predictions a difference is reported. *)
Theorem C104_one_sided_refuted : exists s1 s2 d, re_atoms s1 = re_atoms s2 /\ re_energy s1 = re_energy s2 /\
  compareStructure true s1 (sendBuffer false s2) = Done d /\ 0 < di_max d.
Proof. exact one_sided. Qed.
Print Assumptions C104_one_sided_refuted.

(** Without forces in both: for equal predictions the structure written exceeds a
    force threshold. *)
Theorem C104_reference_forces_refuted : exists s1 s2 d, re_atoms s1 = re_atoms s2 /\
  compareStructure false s1 (sendBuffer false s2) = Done d /\ force_differs 1 (mkCE (di_ewSum d) (di_energyRef d) (di_fRef d)).
Proof. exact reference_forces_written. Qed.
Print Assumptions C104_reference_forces_refuted.

(** Selected, logged and written, in order, are exactly the structures exceeding
    a threshold; the counters of the summary are the numbers of structures
    exceeding any and each of the thresholds. *)
Theorem C104_selection : forall tW tE tF l, let r := selectAll tW tE tF l in
  chosen (exceeds tW tE tF) 0 l (se_indices r) (se_written r) /\
  counts (exceeds tW tE tF) l (se_selected r) /\ se_total r = List.length l /\
  counts (many_warnings tW) l (se_ewHit r) /\ counts (energy_differs tE) l (se_enHit r) /\ counts (force_differs tF) l (se_fHit r).
Proof. exact select_ok. Qed.
Print Assumptions C104_selection.

(** Where a directory is expected the comparison tool passes a complete format: the names of the
    weights files are never those in the directory of the potential, and the
    format has one conversion more than there are numbers to print. *)
Theorem C104_weights_refuted : forall i k own,
  comp2Format i k own <> lit "nnp-data-" ++ (if Nat.eqb i 1 then lit "1" else lit "2") ++ lit "/" ++ own /\
  conversions (comp2Format i k own) = S (conversions own).
Proof. exact weights_wrong. Qed.
Print Assumptions C104_weights_refuted.

(** A structure with 3 warnings, two atoms and energy difference 4. *)
Example C104_thresholds : exceeds 0 (1/2) 0 (mkCE 3 4 [vzero; vzero]) /\ ~ exceeds 4 3 1 (mkCE 3 4 [vzero; vzero]) /\ exceeds 3 0 0 (mkCE 3 4 [vzero; vzero]).
Proof. exact select_example. Qed.
Print Assumptions C104_thresholds.
Example C104_four_processes : map (fun r => (myNNP 2 r, myRankNNP 2 r, myData 2 r, myRankData 2 r)) [0; 1; 2; 3]%nat = [(0, 0, 0, 0); (0, 1, 1, 0); (1, 0, 0, 1); (1, 1, 1, 1)]%nat.
Proof. reflexivity. Qed.
Print Assumptions C104_four_processes.
Example C104_one_atom : List.length (re_atoms (one_atom 5 3)) = List.length (re_atoms (one_atom 2 1)) /\
  sendBuffer true (one_atom 2 1) = [2; INR 0; 1; 0; 0].
Proof. split; reflexivity. Qed.
Print Assumptions C104_one_atom.
