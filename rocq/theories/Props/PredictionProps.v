(** C91: predictions for a structure file. *)
From Coq Require Import Reals ZArith Permutation Bool Arith.
From Coquelicot Require Import Coquelicot.
From Coq Require Import List.
From Verif Require Import Base.Vec3 Base.SumR Model.Strings Model.ElementMap Model.NeuralNetwork Model.Scaling Model.Geometry Model.NeighborList Model.SymFunctions Model.SymCache Model.SymSetup Model.SymGroups
  Model.Forces Model.GroupEvaluation Model.Units Model.StructureFile Model.Prediction
  Spec.NetworkSpec Spec.GeometrySpec Spec.NeighborSpec Spec.SymSpec Spec.SetupSpec Spec.GroupSpec Spec.ForceSpec Spec.EvaluationSpec Spec.UnitsSpec Spec.StructureFileSpec Spec.PredictionSpec
  Proofs.StructureFileRead Proofs.PredictionMain Proofs.ForceExamples Proofs.GroupForceExamples Proofs.StructureFileExamples Proofs.PredictionExamples.
Import ListNotations.
Local Open Scope R_scope.

(** C91: whatever the text, a structure read without error has counters, indices
    and elements in agreement with its atoms, no predicted charges or forces, and
    atoms inside the cell. *)
Theorem C91_read_consistent : forall em N lines fs rest, readFromFile em lines (newStructure N) = Some (fs, rest) -> consistent N fs.
Proof. exact read_consistent. Qed.
Print Assumptions C91_read_consistent.

(** C91: for every structure file which can be read the prediction succeeds, and
    the tables contain the energy of the potential in the units of the file, the
    atomic energies adding up to it, and the unchanged reference data. *)
Theorem C91_prediction : forall em M P rc nsort lines fs rest, readFromFile em lines (newStructure (pm_N M)) = Some (fs, rest) ->
  proper_units M -> (fs_periodic fs = true -> det (fs_box fs) <> 0) -> sensible (pm_N M) rc P -> 0 <= rc -> is_sort nsort ->
  everywhere P rc (in_model_units M fs) evaluable ->
  exists fuel0, forall fuel, (fuel0 <= fuel)%nat -> exists q,
    predictFile em M (evaluateNNP nsort fuel (p_weight P) (setupMemoryAll (pm_N M) (map (p_fs P) (seq 0 (pm_N M)))) (p_net P) rc) lines = Some (fs, q) /\
    good_prediction M P rc fs q.
Proof. exact prediction_energy. Qed.
Print Assumptions C91_prediction.

(** C91: the forces written are minus the gradient of the energy written, in the
    units of the file.  Missing: atoms which see their own images together with
    angular functions (see C34_own_images_refuted). *)
Theorem C91_forces_partial : forall em M P rc nsort lines fs rest, readFromFile em lines (newStructure (pm_N M)) = Some (fs, rest) ->
  proper_units M -> (fs_periodic fs = true -> det (fs_box fs) <> 0) -> sensible (pm_N M) rc P -> 0 <= rc -> is_sort nsort ->
  everywhere P rc (in_model_units M fs) smooth_at -> regular_networks P rc (in_model_units M fs) ->
  (no_self_image (in_model_units M fs) rc \/ forall e f, In f (p_fs P e) -> radial (sf_kind f)) ->
  exists fuel0, forall fuel, (fuel0 <= fuel)%nat -> exists q,
    predictFile em M (evaluateNNP nsort fuel (p_weight P) (setupMemoryAll (pm_N M) (map (p_fs P) (seq 0 (pm_N M)))) (p_net P) rc) lines = Some (fs, q) /\
    good_prediction M P rc fs q /\ good_forces M P rc fs q.
Proof. exact prediction_forces. Qed.
Print Assumptions C91_forces_partial.
Example C91_case : (exists text, readFromFile H2O (Strings.split text ch_lf) (newStructure 2) = Some (bent, Strings.split [] ch_lf)) /\
  proper_units bent_mode /\ (fs_periodic bent = true -> det (fs_box bent) <> 0) /\ sensible 2 chain_rc (chain_pot chain_ang 1) /\ 0 <= chain_rc /\
  everywhere (chain_pot chain_ang 1) chain_rc (in_model_units bent_mode bent) evaluable /\
  everywhere (chain_pot chain_ang 1) chain_rc (in_model_units bent_mode bent) smooth_at /\
  regular_networks (chain_pot chain_ang 1) chain_rc (in_model_units bent_mode bent) /\
  no_self_image (in_model_units bent_mode bent) chain_rc /\ in_range (in_model_units bent_mode bent) chain_rc 0 1 (0, 0, 0)%Z.
Proof. exact bent_ok. Qed.

(** The same for the default build, with cache and groups. *)
Theorem C91_default_prediction : forall T (T_dec : forall x y : T, {x = y} + {x <> y}) fmt conv gsort msort em M P sc rc nsort lines fs rest,
  (forall l, Permutation l (gsort l)) -> (forall l, Permutation l (msort l)) -> conv <> 0 ->
  readFromFile em lines (newStructure (pm_N M)) = Some (fs, rest) ->
  proper_units M -> (fs_periodic fs = true -> det (fs_box fs) <> 0) ->
  sensible (pm_N M) rc (scaled_potential sc P) -> cached_and_grouped (SymCache.text_of T fmt conv) fmt conv sc (pm_N M) P -> 0 <= rc -> is_sort nsort ->
  everywhere (scaled_potential sc P) rc (in_model_units M fs) evaluable -> everywhere (scaled_potential sc P) rc (in_model_units M fs) distinct_neighbors ->
  exists es, setupAll (text T) (text_dec T_dec) (SymCache.text_of T fmt conv) gsort msort (pm_N M) true (map (p_fs P) (seq 0 (pm_N M))) = Some es /\
  exists fuel0, forall fuel, (fuel0 <= fuel)%nat -> exists q,
    predictFile em M (evaluateGroups nsort fuel (p_weight P) (setupScaling sc es) (p_net P) rc) lines = Some (fs, q) /\
    good_prediction M (scaled_potential sc P) rc fs q.
Proof. exact default_energy. Qed.
Print Assumptions C91_default_prediction.

Theorem C91_default_forces_partial : forall T (T_dec : forall x y : T, {x = y} + {x <> y}) fmt conv gsort msort em M P sc rc nsort lines fs rest,
  (forall l, Permutation l (gsort l)) -> (forall l, Permutation l (msort l)) -> conv <> 0 ->
  readFromFile em lines (newStructure (pm_N M)) = Some (fs, rest) ->
  proper_units M -> (fs_periodic fs = true -> det (fs_box fs) <> 0) ->
  sensible (pm_N M) rc (scaled_potential sc P) -> cached_and_grouped (SymCache.text_of T fmt conv) fmt conv sc (pm_N M) P -> 0 <= rc -> is_sort nsort ->
  everywhere (scaled_potential sc P) rc (in_model_units M fs) smooth_at -> regular_networks (scaled_potential sc P) rc (in_model_units M fs) ->
  (no_self_image (in_model_units M fs) rc \/ forall e f, In f (p_fs P e) -> radial (sf_kind f)) ->
  exists es, setupAll (text T) (text_dec T_dec) (SymCache.text_of T fmt conv) gsort msort (pm_N M) true (map (p_fs P) (seq 0 (pm_N M))) = Some es /\
  exists fuel0, forall fuel, (fuel0 <= fuel)%nat -> exists q,
    predictFile em M (evaluateGroups nsort fuel (p_weight P) (setupScaling sc es) (p_net P) rc) lines = Some (fs, q) /\
    good_prediction M (scaled_potential sc P) rc fs q /\ good_forces M (scaled_potential sc P) rc fs q.
Proof. exact default_forces. Qed.
Print Assumptions C91_default_forces_partial.
Example C91_default_case : sensible 2 chain_rc (scaled_potential duo_sc duo) /\ cached_and_grouped (SymCache.text_of R (fun x => x) 1) (fun x => x) 1 duo_sc 2 duo /\
  everywhere (scaled_potential duo_sc duo) chain_rc (in_model_units bent_mode bent) evaluable /\
  everywhere (scaled_potential duo_sc duo) chain_rc (in_model_units bent_mode bent) distinct_neighbors /\
  everywhere (scaled_potential duo_sc duo) chain_rc (in_model_units bent_mode bent) smooth_at /\
  regular_networks (scaled_potential duo_sc duo) chain_rc (in_model_units bent_mode bent).
Proof. exact bent_default_ok. Qed.
