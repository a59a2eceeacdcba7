(** Predictions (C91): final forms and examples. *)
From Coq Require Import Reals Lra ZArith Permutation Bool Arith Lia.
From Coquelicot Require Import Coquelicot.
From Coq Require Import List.
From Verif Require Import Base.Vec3 Base.SumR Model.Strings Model.ElementMap Model.NeuralNetwork Model.Scaling Model.Geometry Model.NeighborList Model.SymFunctions Model.SymCache Model.SymSetup Model.SymGroups
  Model.Forces Model.GroupEvaluation Model.Units Model.StructureFile Model.Prediction
  Spec.NetworkSpec Spec.GeometrySpec Spec.NeighborSpec Spec.SymSpec Spec.SetupSpec Spec.GroupSpec Spec.ForceSpec Spec.EvaluationSpec Spec.UnitsSpec Spec.PredictionSpec
  Proofs.NeighborProofs Proofs.NeighborMore Proofs.GroupApi Proofs.ForceLocal Proofs.ForceProofs Proofs.GroupForces Proofs.UnitsProofs Proofs.SetupProofs Proofs.StructureFileRead Proofs.PredictionProofs.
Import ListNotations.
Local Open Scope R_scope.

Theorem prediction_plain em M P rc nsort lines fs rest : readFromFile em lines (newStructure (pm_N M)) = Some (fs, rest) ->
  proper_units M -> (fs_periodic fs = true -> det (fs_box fs) <> 0) -> sensible (pm_N M) rc P -> 0 <= rc -> is_sort nsort ->
  everywhere P rc (in_model_units M fs) evaluable ->
  exists fuel0, forall fuel, (fuel0 <= fuel)%nat -> exists q,
    predictFile em M (evaluateNNP nsort fuel (p_weight P) (setupMemoryAll (pm_N M) (map (p_fs P) (seq 0 (pm_N M)))) (p_net P) rc) lines = Some (fs, q) /\
    good_prediction M P rc fs q /\
    (everywhere P rc (in_model_units M fs) smooth_at -> regular_networks P rc (in_model_units M fs) ->
     (no_self_image (in_model_units M fs) rc \/ forall e f, In f (p_fs P e) -> radial (sf_kind f)) -> good_forces M P rc fs q).
Proof.
  intros Hr HU Hd HP Hrc Hs He. assert (HC := read_consistent _ _ _ _ _ Hr).
  assert (U := model_unprocessed M rc fs HU HC Hd Hrc).
  destruct (list_terminates nsort rc false (in_model_units M fs)) as (f0 & F); [apply U|intros X; apply U; exact X|].
  exists f0. intros fuel Hf. destruct (F fuel Hf) as (s' & Es).
  destruct (plain_result (pm_N M) rc P (in_model_units M fs) nsort fuel s' HP Hrc eq_refl U Hs Es He) as (E & ys & Ev & G).
  exists (predicted M fs E ys). split.
  - unfold predictFile. rewrite Hr. now rewrite (predict_ok M fs HU HC _ E ys Ev).
  - split; [now apply prediction_good|]. intros. now apply forces_good.
Qed.

Theorem prediction_default T (T_dec : forall x y : T, {x = y} + {x <> y}) fmt conv gsort msort em M P sc rc nsort lines fs rest :
  (forall l, Permutation l (gsort l)) -> (forall l, Permutation l (msort l)) -> conv <> 0 ->
  readFromFile em lines (newStructure (pm_N M)) = Some (fs, rest) ->
  proper_units M -> (fs_periodic fs = true -> det (fs_box fs) <> 0) ->
  sensible (pm_N M) rc (scaled_potential sc P) -> cached_and_grouped (text_of T fmt conv) fmt conv sc (pm_N M) P -> 0 <= rc -> is_sort nsort ->
  everywhere (scaled_potential sc P) rc (in_model_units M fs) evaluable -> everywhere (scaled_potential sc P) rc (in_model_units M fs) distinct_neighbors ->
  exists es, setupAll (text T) (text_dec T_dec) (text_of T fmt conv) gsort msort (pm_N M) true (map (p_fs P) (seq 0 (pm_N M))) = Some es /\
  exists fuel0, forall fuel, (fuel0 <= fuel)%nat -> exists q,
    predictFile em M (evaluateGroups nsort fuel (p_weight P) (setupScaling sc es) (p_net P) rc) lines = Some (fs, q) /\
    good_prediction M (scaled_potential sc P) rc fs q /\
    (everywhere (scaled_potential sc P) rc (in_model_units M fs) smooth_at -> regular_networks (scaled_potential sc P) rc (in_model_units M fs) ->
     (no_self_image (in_model_units M fs) rc \/ forall e f, In f (p_fs P e) -> radial (sf_kind f)) -> good_forces M (scaled_potential sc P) rc fs q).
Proof.
  intros H1 H2 H3 Hr HU Hd HP HG Hrc Hs He Hn. assert (HC := read_consistent _ _ _ _ _ Hr).
  assert (U := model_unprocessed M rc fs HU HC Hd Hrc).
  destruct (list_terminates nsort rc false (in_model_units M fs)) as (f0 & F); [apply U|intros X; apply U; exact X|].
  assert (X : forall fuel, (f0 <= fuel)%nat -> exists es E ys, setupAll (text T) (text_dec T_dec) (text_of T fmt conv) gsort msort (pm_N M) true (map (p_fs P) (seq 0 (pm_N M))) = Some es /\
     evaluateGroups nsort fuel (p_weight P) (setupScaling sc es) (p_net P) rc (in_model_units M fs) = Some (E, ys) /\ good_result (scaled_potential sc P) rc (in_model_units M fs) E ys).
  { intros fuel Hf. destruct (F fuel Hf) as (s' & Es). set (Q := scaled_potential sc P) in *.
    destruct (grouped_evaluation T T_dec fmt conv gsort msort H1 H2 H3 (pm_N M) rc P sc HP HG (in_model_units M fs) nsort fuel s' Hrc eq_refl U Hs Es
       (scaled_everywhere sc P rc _ _ He) (scaled_everywhere sc P rc _ _ Hn)) as (es & E & xs & ys & A & B & C & D).
    destruct (plain_result (pm_N M) rc Q (in_model_units M fs) nsort fuel s' HP Hrc eq_refl U Hs Es He) as (E' & xs' & B' & G1 & G2 & G3 & G4).
    assert (X : Some (E, xs) = Some (E', xs')) by exact (eq_trans (eq_sym B) B'). injection X as <- <-.
    exists es, E, ys. split; auto. split; auto. split; auto.
    assert (L : length ys = length xs) by (clear - D; induction D; cbn; auto). split; [congruence|]. split.
    - rewrite G3. f_equal. clear - D. induction D as [|x y l l' (_ & _ & _ & _ & X & _) _ IH]; cbn; auto. now rewrite X, IH.
    - intros S1 S2 S3 u Ef HEf. rewrite <- (work_same xs ys u D). now apply (G4 S1 S2 S3). }
  destruct (X f0 (Nat.le_refl _)) as (es & _ & _ & Ees & _). exists es. split; [exact Ees|]. exists f0. intros fuel Hf.
  destruct (X fuel Hf) as (es' & E & ys & Ees' & Ev & G). rewrite Ees in Ees'. injection Ees' as <-.
  exists (predicted M fs E ys). split.
  - unfold predictFile. rewrite Hr. now rewrite (predict_ok M fs HU HC _ E ys Ev).
  - split; [now apply prediction_good|]. intros S1 S2 S3. apply forces_good; auto. destruct S3 as [S3|S3]; [now left|right].
    intros e f Hf'. cbn [scaled_potential p_fs] in Hf'. apply in_map_iff in Hf' as (g & <- & Hg). cbn. eapply S3; eauto.
Qed.

(** ** Separate statements *)
Theorem prediction_energy em M P rc nsort lines fs rest : readFromFile em lines (newStructure (pm_N M)) = Some (fs, rest) ->
  proper_units M -> (fs_periodic fs = true -> det (fs_box fs) <> 0) -> sensible (pm_N M) rc P -> 0 <= rc -> is_sort nsort ->
  everywhere P rc (in_model_units M fs) evaluable ->
  exists fuel0, forall fuel, (fuel0 <= fuel)%nat -> exists q,
    predictFile em M (evaluateNNP nsort fuel (p_weight P) (setupMemoryAll (pm_N M) (map (p_fs P) (seq 0 (pm_N M)))) (p_net P) rc) lines = Some (fs, q) /\
    good_prediction M P rc fs q.
Proof.
  intros H1 H2 H3 H4 H5 H6 H7. destruct (prediction_plain em M P rc nsort lines fs rest H1 H2 H3 H4 H5 H6 H7) as (f0 & F).
  exists f0. intros fuel Hf. destruct (F fuel Hf) as (q & A & B & _). eauto.
Qed.
Theorem prediction_forces em M P rc nsort lines fs rest : readFromFile em lines (newStructure (pm_N M)) = Some (fs, rest) ->
  proper_units M -> (fs_periodic fs = true -> det (fs_box fs) <> 0) -> sensible (pm_N M) rc P -> 0 <= rc -> is_sort nsort ->
  everywhere P rc (in_model_units M fs) smooth_at -> regular_networks P rc (in_model_units M fs) ->
  (no_self_image (in_model_units M fs) rc \/ forall e f, In f (p_fs P e) -> radial (sf_kind f)) ->
  exists fuel0, forall fuel, (fuel0 <= fuel)%nat -> exists q,
    predictFile em M (evaluateNNP nsort fuel (p_weight P) (setupMemoryAll (pm_N M) (map (p_fs P) (seq 0 (pm_N M)))) (p_net P) rc) lines = Some (fs, q) /\
    good_prediction M P rc fs q /\ good_forces M P rc fs q.
Proof.
  intros H1 H2 H3 H4 H5 H6 H7 H8 H9.
  assert (H7' : everywhere P rc (in_model_units M fs) evaluable) by (intros i a e f X1 X2 X3; apply (H7 i a e f X1 X2 X3)).
  destruct (prediction_plain em M P rc nsort lines fs rest H1 H2 H3 H4 H5 H6 H7') as (f0 & F).
  exists f0. intros fuel Hf. destruct (F fuel Hf) as (q & A & B & C). exists q. auto.
Qed.
Theorem default_energy T (T_dec : forall x y : T, {x = y} + {x <> y}) fmt conv gsort msort em M P sc rc nsort lines fs rest :
  (forall l, Permutation l (gsort l)) -> (forall l, Permutation l (msort l)) -> conv <> 0 ->
  readFromFile em lines (newStructure (pm_N M)) = Some (fs, rest) ->
  proper_units M -> (fs_periodic fs = true -> det (fs_box fs) <> 0) ->
  sensible (pm_N M) rc (scaled_potential sc P) -> cached_and_grouped (text_of T fmt conv) fmt conv sc (pm_N M) P -> 0 <= rc -> is_sort nsort ->
  everywhere (scaled_potential sc P) rc (in_model_units M fs) evaluable -> everywhere (scaled_potential sc P) rc (in_model_units M fs) distinct_neighbors ->
  exists es, setupAll (text T) (text_dec T_dec) (text_of T fmt conv) gsort msort (pm_N M) true (map (p_fs P) (seq 0 (pm_N M))) = Some es /\
  exists fuel0, forall fuel, (fuel0 <= fuel)%nat -> exists q,
    predictFile em M (evaluateGroups nsort fuel (p_weight P) (setupScaling sc es) (p_net P) rc) lines = Some (fs, q) /\
    good_prediction M (scaled_potential sc P) rc fs q.
Proof.
  intros. destruct (prediction_default T T_dec fmt conv gsort msort em M P sc rc nsort lines fs rest) as (es & E & f0 & F); auto.
  exists es. split; auto. exists f0. intros fuel Hf. destruct (F fuel Hf) as (q & A & B & _). eauto.
Qed.
Theorem default_forces T (T_dec : forall x y : T, {x = y} + {x <> y}) fmt conv gsort msort em M P sc rc nsort lines fs rest :
  (forall l, Permutation l (gsort l)) -> (forall l, Permutation l (msort l)) -> conv <> 0 ->
  readFromFile em lines (newStructure (pm_N M)) = Some (fs, rest) ->
  proper_units M -> (fs_periodic fs = true -> det (fs_box fs) <> 0) ->
  sensible (pm_N M) rc (scaled_potential sc P) -> cached_and_grouped (text_of T fmt conv) fmt conv sc (pm_N M) P -> 0 <= rc -> is_sort nsort ->
  everywhere (scaled_potential sc P) rc (in_model_units M fs) smooth_at -> regular_networks (scaled_potential sc P) rc (in_model_units M fs) ->
  (no_self_image (in_model_units M fs) rc \/ forall e f, In f (p_fs P e) -> radial (sf_kind f)) ->
  exists es, setupAll (text T) (text_dec T_dec) (text_of T fmt conv) gsort msort (pm_N M) true (map (p_fs P) (seq 0 (pm_N M))) = Some es /\
  exists fuel0, forall fuel, (fuel0 <= fuel)%nat -> exists q,
    predictFile em M (evaluateGroups nsort fuel (p_weight P) (setupScaling sc es) (p_net P) rc) lines = Some (fs, q) /\
    good_prediction M (scaled_potential sc P) rc fs q /\ good_forces M (scaled_potential sc P) rc fs q.
Proof.
  intros H1 H2 H3 H4 H5 H6 H7 H8 H9 H10 S R1 R2.
  assert (S' : everywhere (scaled_potential sc P) rc (in_model_units M fs) evaluable) by (intros i a e f X1 X2 X3; apply (S i a e f X1 X2 X3)).
  destruct (prediction_default T T_dec fmt conv gsort msort em M P sc rc nsort lines fs rest) as (es & E & f0 & F); auto; [now apply smooth_distinct|].
  exists es. split; auto. exists f0. intros fuel Hf. destruct (F fuel Hf) as (q & A & B & C). exists q. auto.
Qed.
