(** Property C96: columns of the learning curve file. *)
From Coq Require Import Reals ZArith List Bool Ascii String.
From Verif Require Import Base.Vec3 Base.AssocMap Model.Strings Model.Printf Model.Settings Model.SymLines Model.DataFiles Model.Units Model.Errors Model.LearningCurve
  Spec.StringSpec Spec.PrintfSpec Spec.ErrorSpec Spec.LearningCurveSpec Proofs.LearningCurveProofs Proofs.LearningCurveExamples.
From Coq Require Import List.
Import ListNotations.
Local Open Scope R_scope.

(** The error metrics are those of the two data sets in training units (C39);
    the sets in physical units are converted copies. Every row has one number
    for each column name of the header, and it is the number the name promises;
    all metrics are there, in training units too if the data are normalized. *)
Theorem C96_columns : forall keys c D mean, (forall k, In k keys -> error_property k) ->
  Forall2 (fun k p => construct k (metrics k (train_internal D)) (metrics k (test_internal D)) = Done p) keys (cu_props c) ->
  (cu_normalize c = true -> 0 < cu_energy c /\ 0 < cu_length c /\ 0 < cu_charge c /\
    Forall2 (fun s t => toPhysicalUnits mean (cu_energy c) (cu_length c) (cu_charge c) s = Some t) (train_internal D) (train_physical D) /\
    Forall2 (fun s t => toPhysicalUnits mean (cu_energy c) (cu_length c) (cu_charge c) s = Some t) (test_internal D) (test_physical D)) ->
  (cu_normalize c = false -> train_physical D = train_internal D /\ test_physical D = test_internal D) ->
  forall old, (Z.of_nat (cu_epoch c) < 2 ^ 31)%Z ->
  exists title sizes infos h row names vs,
    createFileHeader title sizes (lit "epoch" :: names) infos ch_hash = Done h /\
    writeLearningCurve c false old = Done (appendLines h ++ row ++ [ascii_of_nat 10]) /\
    writeLearningCurve c true old = Done (old ++ row ++ [ascii_of_nat 10]) /\
    ~ In (ascii_of_nat 10) row /\ is_words row (print_d (cu_epoch c) :: map (print_E 8) vs) /\
    Forall2 (promised D keys) names vs /\
    (forall k m test, In k keys -> metric_of k m -> In (column_name k m test true) names /\ (cu_normalize c = true -> In (column_name k m test false) names)).
Proof. exact curve_file. Qed.
Print Assumptions C96_columns.

(** A column name decides which number it promises. *)
Theorem C96_name_decides : forall D keys name v v', (forall k, In k keys -> error_property k) ->
  promised D keys name v -> promised D keys name v' -> v = v'.
Proof. exact name_decides. Qed.
Print Assumptions C96_name_decides.

(** The numbers are written with a relative error below 5e-9. *)
Theorem C96_precision : forall v, double v -> Rabs (decimal_value (print_E 8 v) - v) <= 5 / 10 ^ 9 * Rabs v.
Proof. exact curve_precision. Qed.
Print Assumptions C96_precision.

(** A property without metrics (neither energies, forces nor charges) does not
    exist. *)
Theorem C96_known_properties : forall k train test p, construct k train test = Done p -> error_property k.
Proof. exact construct_known. Qed.
Print Assumptions C96_known_properties.

Example C96_example : Forall2 (fun k p => construct k (metrics k (train_internal ex_sets)) (metrics k (test_internal ex_sets)) = Done p)
    [lit "energy"; lit "force"] (cu_props ex_curve) /\
  cu_normalize ex_curve = true /\ cu_energy ex_curve = 2 /\ cu_length ex_curve = 4 /\ cu_charge ex_curve = 1 /\
  Forall2 (fun s t => toPhysicalUnits 3 2 4 1 s = Some t) (train_internal ex_sets) (train_physical ex_sets) /\
  Forall2 (fun s t => toPhysicalUnits 3 2 4 1 s = Some t) (test_internal ex_sets) (test_physical ex_sets) /\
  promised ex_sets [lit "energy"; lit "force"] (lit "MAE_Etrain_iu") 2 /\ promised ex_sets [lit "energy"; lit "force"] (lit "MAE_Etrain_pu") 1.
Proof. exact ex_curve_ok. Qed.
