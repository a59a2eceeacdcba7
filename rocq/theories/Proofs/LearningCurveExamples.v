(** Examples and further facts about the learning curve. *)
From Coq Require Import Reals Lra ZArith Ascii String Bool Arith Lia.
From Coq Require Import List.
From Verif Require Import Base.Vec3 Base.SumR Base.AssocMap Model.Strings Model.Printf Model.Settings Model.SymLines Model.DataFiles Model.Units
  Model.Errors Model.LearningCurve Spec.PrintfSpec Spec.ErrorSpec Spec.LearningCurveSpec
  Proofs.StringProofs Proofs.PrintfProofs Proofs.ErrorProofs Proofs.LearningCurveProofs.
From Coq Require Import List.
Import ListNotations.
Local Open Scope R_scope.

Lemma curve_precision v : double v -> Rabs (decimal_value (print_E 8 v) - v) <= 5 / 10 ^ 9 * Rabs v.
Proof. intros H. apply (relative_error 8 v); [lia|auto]. Qed.
Lemma construct_known k train test p : construct k train test = Done p -> error_property k.
Proof.
  unfold construct, tiny_plural. destruct (str_eqb k (lit "energy")) eqn:A; [apply str_eqb_true in A; subst; intros _; now left|].
  destruct (str_eqb k (lit "force")) eqn:B; [apply str_eqb_true in B; subst; intros _; right; now left|].
  destruct (str_eqb k (lit "charge")) eqn:C; [apply str_eqb_true in C; subst; intros _; right; right; now left|]. discriminate.
Qed.

Definition ex_train : list qstructure := [ex_err_struct 1 2; ex_err_struct 5 1].
Definition ex_test : list qstructure := [ex_err_struct 3 3].
Definition to_ph (s : qstructure) : qstructure := match toPhysicalUnits 3 2 4 1 s with Some t => t | None => s end.
Definition ex_sets : data_sets := mkSets ex_train ex_test (map to_ph ex_train) (map to_ph ex_test).
Definition ex_prop (k t q : string) : cproperty :=
  mkCP (lit k) (lit t) (lit q) (metric_keys (lit k)) (metrics (lit k) ex_train) (metrics (lit k) ex_test).
Definition ex_curve : curve := mkCurve [ex_prop "energy" "E" "energies"; ex_prop "force" "F" "forces"] true 2 4 1 7.
Lemma to_ph_ok e k : toPhysicalUnits 3 2 4 1 (ex_err_struct e k) = Some (to_ph (ex_err_struct e k)).
Proof.
  unfold to_ph. destruct (toPhysicalUnits 3 2 4 1 (ex_err_struct e k)) eqn:E; auto. exfalso. revert E.
  unfold toPhysicalUnits, ex_err_struct. cbn [qs_atoms].
  assert (X : exists l, omap (atom_toPhysical 2 4 1) (map (fun i => ex_err_atom (INR i)) (seq 0 k)) = Some l).
  { generalize (seq 0 k). induction l as [|i l [m IH]]; [now exists []|]. cbn [map omap]. fold (omap (atom_toPhysical 2 4 1)). rewrite IH. cbn. eauto. }
  destruct X as [l ->]. discriminate.
Qed.
Lemma ex_curve_ok : Forall2 (fun k p => construct k (metrics k (train_internal ex_sets)) (metrics k (test_internal ex_sets)) = Done p)
    [lit "energy"; lit "force"] (cu_props ex_curve) /\
  cu_normalize ex_curve = true /\ cu_energy ex_curve = 2 /\ cu_length ex_curve = 4 /\ cu_charge ex_curve = 1 /\
  Forall2 (fun s t => toPhysicalUnits 3 2 4 1 s = Some t) (train_internal ex_sets) (train_physical ex_sets) /\
  Forall2 (fun s t => toPhysicalUnits 3 2 4 1 s = Some t) (test_internal ex_sets) (test_physical ex_sets) /\
  promised ex_sets [lit "energy"; lit "force"] (lit "MAE_Etrain_iu") 2 /\ promised ex_sets [lit "energy"; lit "force"] (lit "MAE_Etrain_pu") 1.
Proof.
  assert (T : Forall2 (fun s t => toPhysicalUnits 3 2 4 1 s = Some t) ex_train (map to_ph ex_train)) by (repeat constructor; apply to_ph_ok).
  assert (M : mae (energy_deviations ex_train) = 2).
  { unfold mae, mean, energy_deviations, ex_train. cbn [map rsum List.length qs_energyRef qs_energy ex_err_struct INR].
    rewrite (Rabs_pos_eq (2 - 1)), (Rabs_left (2 - 5)) by lra. lra. }
  split; [repeat constructor|]. split; [reflexivity|]. split; [reflexivity|]. split; [reflexivity|]. split; [reflexivity|].
  split; [exact T|]. split; [repeat constructor; apply to_ph_ok|]. split.
  - exists (lit "energy"), (lit "MAE"), false, false. split; [now left|]. split; [unfold metric_of; cbn; tauto|]. split; [reflexivity|].
    change (Some (mae (energy_deviations ex_train)) = Some 2). now rewrite M.
  - exists (lit "energy"), (lit "MAE"), false, true. split; [now left|]. split; [unfold metric_of; cbn; tauto|]. split; [reflexivity|].
    cbn [the_set ex_sets train_physical]. rewrite (metrics_converted 3 2 4 1 ltac:(lra) ltac:(lra) ltac:(lra) _ ex_train _ T).
    change (Some (conv 2 4 1 (lit "energy") * mae (energy_deviations ex_train)) = Some 1). rewrite M. unfold conv. cbn. f_equal. lra.
Qed.
