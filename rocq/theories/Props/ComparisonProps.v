(** Properties of the comparison files (C98). *)
From Coq Require Import Reals ZArith Ascii String.
From Coq Require Import List.
From Verif Require Import Base.Vec3 Base.AssocMap Model.Strings Model.Printf Model.Settings Model.SymLines Model.StructureFile Model.DataFiles Model.Units
  Model.Errors Model.Dataset Model.LearningCurve Model.Comparison Spec.StringSpec Spec.ErrorSpec Spec.ComparisonSpec Proofs.ComparisonProofs.
From Coq Require Import List.
Import ListNotations.
Local Open Scope R_scope.

(** The training file has, below the header, one line for every number of every
    training structure of all processes, the test file those of the test
    structures. *)
Theorem C98_files : forall k (procs : list (list cstructure)), error_property k -> procs <> [] ->
  (forall s, In s (concat procs) -> (ct_sample s = Errors.ST_TRAINING \/ ct_sample s = Errors.ST_TEST) /\ (Z.of_nat (ct_index s) < 2 ^ 31)%Z /\
     forall a, In a (ct_atoms s) -> (Z.of_nat (ca_structure a) < 2 ^ 31)%Z /\ (Z.of_nat (ca_index a) < 2 ^ 31)%Z) ->
  exists h train test, comparison_header k = Done h /\
    comparison_files k procs = Done (appendLines h ++ concat (map (fun l => l ++ [ch_lf]) train), appendLines h ++ concat (map (fun l => l ++ [ch_lf]) test)) /\
    Forall2 (fun l e => ~ In ch_lf l /\ is_words l (entry_words e)) train (flat_map (entries k) (of_type Errors.ST_TRAINING (concat procs))) /\
    Forall2 (fun l e => ~ In ch_lf l /\ is_words l (entry_words e)) test (flat_map (entries k) (of_type Errors.ST_TEST (concat procs))).
Proof. exact comparison. Qed.
Print Assumptions C98_files.

(** The header consists of comment lines; one of them names the columns. *)
Theorem C98_header : forall k, error_property k -> exists h l, comparison_header k = Done h /\ (forall t, In t h -> exists r, t = ch_hash :: r) /\
  In (l ++ [ch_lf]) h /\ is_words l ([ch_hash] :: compared_names k).
Proof. exact header_text. Qed.
Print Assumptions C98_header.

(** The RMSE and MAE which every process reports for a set are those of the
    numbers in the file of that set. *)
Theorem C98_errors : forall k (procs : list (list cstructure)), error_property k ->
  (forall s, In s (concat procs) -> (ct_sample s = Errors.ST_TRAINING \/ ct_sample s = Errors.ST_TEST) /\ (0 < ct_numAtoms s)%nat) ->
  exists train test, calculateError k (map (map (fun s => (ct_sample s, metric_structure s))) procs) = Some (train, test) /\
    forall r t, (In r train /\ t = Errors.ST_TRAINING) \/ (In r test /\ t = Errors.ST_TEST) ->
      let file := flat_map (entries k) (of_type t (concat procs)) in
      let diffs := map (fun e => er_ref e - er_nnp e) file in
      snd r = length file /\
      (file <> [] -> mget str_eqb (rmse_name k) (fst r) = Some (rmse diffs) /\ mget str_eqb (mae_name k) (fst r) = Some (mae diffs)).
Proof. exact program_errors. Qed.
Print Assumptions C98_errors.

(** Structures which are in neither set must not exist. *)
Theorem C98_unassigned : forall k (procs : list (list cstructure)) s, error_property k -> In s (concat procs) ->
  ct_sample s = Errors.ST_UNKNOWN \/ ct_sample s = Errors.ST_VALIDATION -> forall f, comparison_files k procs <> Done f.
Proof. exact unassigned_undefined. Qed.
Print Assumptions C98_unassigned.

(** Three structures on three processes, one of which has none. *)
Example C98_three_processes :
  (forall s, In s (concat cmp_procs) -> (ct_sample s = Errors.ST_TRAINING \/ ct_sample s = Errors.ST_TEST) /\ (Z.of_nat (ct_index s) < 2 ^ 31)%Z /\ (0 < ct_numAtoms s)%nat /\
     forall a, In a (ct_atoms s) -> (Z.of_nat (ca_structure a) < 2 ^ 31)%Z /\ (Z.of_nat (ca_index a) < 2 ^ 31)%Z) /\
  length (flat_map (entries (lit "force")) (of_type Errors.ST_TRAINING (concat cmp_procs))) = 12%nat /\
  map er_ids (flat_map (entries (lit "charge")) (of_type Errors.ST_TRAINING (concat cmp_procs))) = [[0; 0]; [0; 1]; [2; 0]; [2; 1]]%nat.
Proof. exact cmp_case. Qed.
