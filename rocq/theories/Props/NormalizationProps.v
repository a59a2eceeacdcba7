(** Data set normalization (C57, C66). *)
From Coq Require Import Reals Arith String.
From Verif Require Import Base.Vec3 Model.Strings Model.Settings Model.Units Spec.UnitsSpec Model.Normalization Spec.NormalizationSpec
  Proofs.NormalizationProofs Proofs.NormalizationFile Proofs.NormalizationExamples.
From Coq Require Import List.
Import ListNotations.
Local Open Scope R_scope.

(** C57: the statistics are those of all structures, however they are distributed to processes. *)
Theorem C57_statistics : forall procs m s, concat procs <> [] -> (forall x, In x (concat procs) -> counted x) -> statistics procs = (m, s) ->
  let all := concat procs in
  na_eRef m = mean (energies_ref all) /\ na_eNnp m = mean (energies_nnp all) /\
  na_fRef m = mean (forces_ref all) /\ na_fNnp m = mean (forces_nnp all) /\
  na_eRef s = deviation (energies_ref all) /\ na_eNnp s = deviation (energies_nnp all) /\
  na_fRef s = deviation (forces_ref all) /\ na_fNnp s = deviation (forces_nnp all).
Proof. exact statistics_spec. Qed.
Print Assumptions C57_statistics.

(** C57: normalization based on reference data, followed by the conversion of all structures. *)
Theorem C57_normalized_ref : forall procs (useForces : bool) cQ, let all := concat procs in
  all <> [] -> (forall x, In x all -> counted x /\ allocated_structure x) -> cQ <> 0 -> deviation (energies_ref all) <> 0 ->
  (useForces = true -> deviation (forces_ref all) <> 0) ->
  exists m cE cL all', dataSetNormalization (lit "ref") useForces procs = Convert m cE cL /\
    datasetToNormalized m cE cL cQ all = Some all' /\
    mean (energies_ref all') = 0 /\ deviation (energies_ref all') = 1 /\
    (useForces = true -> deviation (forces_ref all') = 1) /\ (useForces = false -> cL = 1).
Proof. exact ref_total. Qed.
Print Assumptions C57_normalized_ref.

(** C57: normalization based on forces. *)
Theorem C57_normalized_force : forall procs cQ, let all := concat procs in
  all <> [] -> (forall x, In x all -> counted x /\ allocated_structure x) -> cQ <> 0 ->
  deviation (forces_ref all) <> 0 -> deviation (forces_nnp all) <> 0 ->
  exists m cE cL all', dataSetNormalization (lit "force") true procs = Convert m cE cL /\
    datasetToNormalized m cE cL cQ all = Some all' /\
    mean (energies_ref all') = 0 /\ deviation (forces_ref all') = 1.
Proof. exact force_total. Qed.
Print Assumptions C57_normalized_force.
Example C57_example : concat exProcs <> [] /\ (forall x, In x (concat exProcs) -> counted x /\ allocated_structure x) /\
  deviation (energies_ref (concat exProcs)) <> 0 /\ deviation (forces_ref (concat exProcs)) <> 0 /\ deviation (forces_nnp (concat exProcs)) <> 0.
Proof. exact exProcs_ok. Qed.

(** C57: modes that cannot be satisfied are rejected. *)
Theorem C57_force_mode_needs_forces : forall procs, dataSetNormalization (lit "force") false procs = Throws.
Proof. exact force_needs_forces. Qed.
Print Assumptions C57_force_mode_needs_forces.
Theorem C57_unknown_mode_rejected : forall mode useForces procs, mode <> lit "stats-only" -> mode <> lit "ref" -> mode <> lit "force" ->
  dataSetNormalization mode useForces procs = Throws.
Proof. exact other_modes. Qed.
Print Assumptions C57_unknown_mode_rejected.

(** C66: the new settings file, if the old one has no normalization: the old file behind a header with the three lines and comments only. *)
Theorem C66_normalization_added_partial : forall n1 n2 n3 lines, (forall l k, In l lines -> In k [kME; kCE; kCL] -> ~ sets_keyword k l) ->
  exists header, writeNormalized n1 n2 n3 lines = header ++ lines /\ In n1 header /\ In n2 header /\ In n3 header /\
    forall l, In l header -> l = n1 \/ l = n2 \/ l = n3 \/ l = [] \/ exists r, l = ch_hash :: r.
Proof. exact file_added. Qed.
Print Assumptions C66_normalization_added_partial.
(** C66: the new settings file, if the old one has all three keywords: line by line the old file with these lines replaced. *)
Theorem C66_normalization_replaced_partial : forall n1 n2 n3 lines,
  (exists l, In l lines /\ sets_keyword kME l) -> (exists l, In l lines /\ sets_keyword kCE l) -> (exists l, In l lines /\ sets_keyword kCL l) ->
  In n1 (writeNormalized n1 n2 n3 lines) /\ In n2 (writeNormalized n1 n2 n3 lines) /\ In n3 (writeNormalized n1 n2 n3 lines) /\
  Forall2 (fun l l' => (sets_keyword kME l /\ l' = n1) \/ (sets_keyword kCE l /\ l' = n2) \/ (sets_keyword kCL l /\ l' = n3) \/
                       ((forall k, In k [kME; kCE; kCL] -> ~ sets_keyword k l) /\ l' = l)) lines (writeNormalized n1 n2 n3 lines).
Proof. exact file_replaced. Qed.
Print Assumptions C66_normalization_replaced_partial.
Example C66_example : (forall l k, In l [lit "cutoff_type 1"; []] -> In k [kME; kCE; kCL] -> ~ sets_keyword k l) /\
  (exists l, In l [lit "conv_length 1"; lit "mean_energy 3"; lit "conv_energy 1"] /\ sets_keyword kME l) /\
  (exists l, In l [lit "conv_length 1"; lit "mean_energy 3"; lit "conv_energy 1"] /\ sets_keyword kCE l) /\
  (exists l, In l [lit "conv_length 1"; lit "mean_energy 3"; lit "conv_energy 1"] /\ sets_keyword kCL l).
Proof. exact file_example. Qed.
(** C66, refuted in general: if only some of the keywords are present the others are not written at all. *)
Theorem C66_all_three_written_refuted : exists lines n1 n2 n3, sets_keyword kME n1 /\ sets_keyword kCE n2 /\ sets_keyword kCL n3 /\
  ~ In n2 (writeNormalized n1 n2 n3 lines) /\ ~ In n3 (writeNormalized n1 n2 n3 lines).
Proof. exact file_incomplete. Qed.
Print Assumptions C66_all_three_written_refuted.
