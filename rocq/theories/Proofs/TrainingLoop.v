(** The training loop in closed form (C81, C82, C84). *)
From Coq Require Import Reals ZArith Lia Ascii String Bool Arith Permutation.
From Coq Require Import List.
From Verif Require Import Base.AssocMap Model.Strings Model.Printf Model.Settings Model.SymLines Model.NetworkSetup Model.DataFiles
  Model.Updaters Model.Selection Model.UpdatePlan Model.TrainingSetup Spec.TrainingSpec
  Proofs.SymLineProofs Proofs.NetworkSetupProofs Proofs.EpochProofs Proofs.TrainingSchedule Proofs.TrainingSelection.
Import ListNotations.
Local Open Scope nat_scope.

Definition prop_at (n : nat) (p : tprop) : tprop := set_mode (mode_after (tr_schedule p) (tr_mode p) n) p.
Lemma prop_at_0 p : prop_at 0 p = p.
Proof. now destruct p. Qed.
Lemma prop_at_S n p : checkSelectionMode (S n) (prop_at n p) = prop_at (S n) p.
Proof.
  unfold checkSelectionMode, prop_at. cbn [mode_after set_mode tr_schedule].
  destruct (mget Z.eqb (Z.of_nat (S n)) (tr_schedule p)); reflexivity.
Qed.

Section Loop.
Variables (zs : list nat) (shuffle : nat -> list nat -> list nat) (inv : nat -> matrix -> matrix)
  (kobs : nat -> nat -> observation) (gobs : nat -> nat -> R * vector).
Hypothesis shuffles : forall e l, Permutation (shuffle e l) l.
Variable t0 : training.
Hypothesis start : t_epoch t0 = 0.

Fixpoint updaters_at (us : list updater_obj) (n : nat) : list updater_obj :=
  match n with O => us | S n => updateAll inv kobs gobs n (updaters_at us n) end.
Definition props_at (n : nat) : list tprop := map (prop_at n) (t_props t0).
Definition schedule_at (e : nat) : list nat := setEpochSchedule (shuffle e) (map (fun p => Z.to_nat (tr_updates p)) (t_props t0)).
Definition epoch_steps (e : nat) : list step := map (fun i => mkStep e (nth i (props_at e) (new_property Energy))) (schedule_at e).
Definition steps_at (n : nat) : list step := flat_map epoch_steps (seq 1 n).
Definition epoch_orders (e : nat) : list ordering :=
  map (fun p => mkOrdering e (tr_key p) (match tr_mode p with SM_SORT => Sorted | _ => Shuffled end)) (props_at e).
Definition epoch_writes (e : nat) : list write := epochFiles zs t0 true e ++ [mkWrite (timing_name t0) (negb (Nat.eqb e 1)) e].
Definition writes_at (n : nat) : list write := epochFiles zs t0 false 0 ++ flat_map epoch_writes (seq 1 n).
Definition training_at (n : nat) : training :=
  with_epoch n (with_updaters (updaters_at (t_updaters t0) (List.length (steps_at n))) (with_props (props_at n) t0)).
Definition state_at (n : nat) : loop_state := mkLoop (training_at n) (steps_at n) (flat_map epoch_orders (seq 1 n)) (writes_at n).

Lemma schedule_range e i : In i (schedule_at e) -> i < List.length (t_props t0).
Proof.
  intro H. unfold schedule_at in H. apply (count_occ_In Nat.eq_dec) in H. rewrite schedule_counts in H by apply shuffles.
  destruct (Nat.lt_ge_cases i (List.length (t_props t0))) as [|G]; [assumption|].
  rewrite nth_overflow in H by now rewrite map_length. lia.
Qed.

Lemma run_schedule sched : forall t steps orders writes us,
  t_updaters t = updaters_at us (List.length steps) -> (forall i, In i sched -> i < List.length (t_props t)) ->
  foldo (updateStep inv kobs gobs) sched (mkLoop t steps orders writes) =
  Done (mkLoop (with_updaters (updaters_at us (List.length steps + List.length sched)) t)
         (steps ++ map (fun i => mkStep (t_epoch t) (nth i (t_props t) (new_property Energy))) sched) orders writes).
Proof.
  induction sched as [|i sched IH]; intros t steps orders writes us U R.
  - cbn. rewrite Nat.add_0_r, app_nil_r. f_equal. destruct t; cbn in *. now rewrite <- U.
  - cbn [foldo]. unfold updateStep at 1. cbn [lo_training lo_steps lo_orders lo_writes].
    rewrite (nth_error_nth' _ (new_property Energy)) by (apply R; now left). cbn [throwing bindo].
    rewrite (IH _ _ _ _ us).
    + cbn [with_updaters t_props t_epoch]. do 2 f_equal; [|now rewrite <- app_assoc].
      rewrite app_length. cbn [List.length]. unfold with_updaters. cbn. f_equal. f_equal. lia.
    + cbn [with_updaters t_updaters]. rewrite U, app_length. cbn [List.length]. rewrite Nat.add_1_r. reflexivity.
    + intros j Hj. cbn. apply R. now right.
Qed.

Lemma files_same b n e : epochFiles zs (training_at n) b e = epochFiles zs t0 b e.
Proof.
  unfold epochFiles, training_at. cbn [with_epoch with_updaters with_props t_props]. f_equal.
  unfold compareFiles, props_at. rewrite !flat_map_concat_map, map_map. reflexivity.
Qed.
Lemma seq_S_r n : seq 1 (S n) = seq 1 n ++ [S n].
Proof. rewrite seq_S. reflexivity. Qed.

Lemma one_pass n : pass zs shuffle inv kobs gobs (state_at n) = Done (state_at (S n)).
Proof.
  unfold pass. cbn [state_at lo_training lo_steps lo_orders lo_writes].
  set (t := with_props _ _).
  assert (P : t_props t = props_at (S n)).
  { unfold t. cbn. unfold props_at. rewrite map_map. apply map_ext. intro p. apply prop_at_S. }
  assert (E : t_epoch t = S n) by reflexivity.
  assert (Sc : setEpochSchedule (shuffle (S n)) (map (fun p => Z.to_nat (tr_updates p)) (t_props t)) = schedule_at (S n)).
  { unfold schedule_at. rewrite P. unfold props_at. rewrite map_map. reflexivity. }
  change (t_epoch (with_epoch (S (t_epoch (training_at n))) (training_at n))) with (S n). rewrite Sc.
  rewrite (run_schedule _ t _ _ _ (t_updaters t0)).
  2: reflexivity.
  2: { intros i Hi. rewrite P. unfold props_at. rewrite map_length. now apply (schedule_range (S n)). }
  cbn [bindo lo_training lo_steps lo_orders lo_writes]. rewrite E, P.
  assert (T : steps_at n ++ map (fun i => mkStep (S n) (nth i (props_at (S n)) (new_property Energy))) (schedule_at (S n)) = steps_at (S n)).
  { unfold steps_at. rewrite seq_S_r, flat_map_app. cbn [flat_map]. now rewrite app_nil_r. }
  assert (L : List.length (steps_at n) + List.length (schedule_at (S n)) = List.length (steps_at (S n))) by (rewrite <- T, app_length, map_length; reflexivity).
  rewrite T, L.
  assert (Q : with_updaters (updaters_at (t_updaters t0) (List.length (steps_at (S n)))) t = training_at (S n)).
  { unfold training_at. unfold with_updaters, with_epoch, with_props. cbn. f_equal. exact P. }
  rewrite Q, files_same. unfold state_at. f_equal. f_equal.
  - now rewrite seq_S_r, flat_map_app; cbn [flat_map]; rewrite app_nil_r.
  - unfold writes_at. rewrite seq_S_r, flat_map_app; cbn [flat_map]. rewrite app_nil_r, <- app_assoc. reflexivity.
Qed.

Lemma state_0 : state_at 0 = mkLoop t0 [] [] (epochFiles zs t0 false (t_epoch t0)).
Proof.
  unfold state_at, training_at, writes_at. cbn [seq flat_map steps_at List.length updaters_at]. rewrite app_nil_r, start.
  f_equal. unfold with_epoch, with_updaters, with_props, props_at. cbn.
  replace (map (prop_at 0) (t_props t0)) with (t_props t0); [rewrite <- start; now destruct t0|].
  rewrite <- (map_id (t_props t0)) at 1. apply map_ext. intro p. symmetry. apply prop_at_0.
Qed.
Hypothesis epochs : (0 <= t_numEpochs t0)%Z.
Lemma passes_from k : forall n fuel, n + k = Z.to_nat (t_numEpochs t0) ->
  passes zs shuffle inv kobs gobs fuel (state_at n) = if Nat.ltb fuel k then None else Some (Done (state_at (n + k))).
Proof.
  induction k as [|k IH]; intros n fuel H.
  - assert (A : advance (training_at n) = false) by (unfold advance; cbn; apply Z.ltb_ge; lia).
    destruct fuel; cbn [passes state_at lo_training]; rewrite A, Nat.add_0_r; reflexivity.
  - assert (A : advance (training_at n) = true) by (unfold advance; cbn; apply Z.ltb_lt; lia).
    destruct fuel as [|fuel]; cbn [passes state_at lo_training]; rewrite A; [reflexivity|].
    rewrite one_pass, IH by lia. change (Nat.ltb (S fuel) (S k)) with (Nat.ltb fuel k). now rewrite Nat.add_succ_r.
Qed.
Lemma loop_closed fuel : loop zs shuffle inv kobs gobs fuel t0 =
  if Nat.ltb fuel (Z.to_nat (t_numEpochs t0)) then None else Some (Done (state_at (Z.to_nat (t_numEpochs t0)))).
Proof. unfold loop. rewrite <- state_0. now apply passes_from. Qed.

(** Updates of one epoch. *)
Lemma count_steps e i p : nth_error (t_props t0) i = Some p -> NoDup (map tr_key (t_props t0)) ->
  forall l, (forall j, In j l -> j < List.length (t_props t0)) ->
  List.length (filter (fun sp => (Nat.eqb (sp_epoch sp) e && property_eqb (tr_key p) (tr_key (sp_prop sp)))%bool)
    (map (fun j => mkStep e (nth j (props_at e) (new_property Energy))) l)) = count_occ Nat.eq_dec l i.
Proof.
  intros Hp N. induction l as [|j l IH]; intro R; [reflexivity|]. cbn [map filter sp_epoch sp_prop count_occ]. rewrite Nat.eqb_refl. cbn [andb].
  assert (Hj : j < List.length (t_props t0)) by (apply R; now left).
  assert (K : tr_key (nth j (props_at e) (new_property Energy)) = tr_key (nth j (t_props t0) (new_property Energy))).
  { unfold props_at. rewrite (nth_indep _ _ (prop_at e (new_property Energy))) by now rewrite map_length. rewrite map_nth. reflexivity. }
  rewrite K. specialize (IH (fun k Hk => R k (or_intror Hk))).
  assert (Hi : i < List.length (t_props t0)) by (apply nth_error_Some; congruence).
  assert (Ei : nth i (t_props t0) (new_property Energy) = p) by now apply nth_error_nth.
  destruct (Nat.eq_dec j i) as [->|D].
  - rewrite Ei. assert (X : property_eqb (tr_key p) (tr_key p) = true) by now apply property_eqb_eq. rewrite X. cbn. now rewrite IH.
  - destruct (property_eqb (tr_key p) (tr_key (nth j (t_props t0) (new_property Energy)))) eqn:X; [|exact IH]. exfalso. apply property_eqb_eq in X.
    apply D. pose proof (proj1 (NoDup_nth (map tr_key (t_props t0)) Energy) N) as N2. rewrite map_length in N2.
    assert (Y : forall k, k < List.length (t_props t0) -> nth k (map tr_key (t_props t0)) Energy = tr_key (nth k (t_props t0) (new_property Energy))).
    { intros k Hk. rewrite <- (map_nth tr_key). apply nth_indep. now rewrite map_length. }
    apply N2; [assumption | assumption|]. rewrite !Y, Ei by assumption. now symmetry.
Qed.
Lemma filter_other_epoch e e' k : e' <> e ->
  filter (fun sp => (Nat.eqb (sp_epoch sp) e && property_eqb k (tr_key (sp_prop sp)))%bool) (epoch_steps e') = [].
Proof.
  intro D. unfold epoch_steps. induction (schedule_at e') as [|i l IH]; [reflexivity|]. cbn [map filter sp_epoch].
  apply Nat.eqb_neq in D. rewrite D. exact IH.
Qed.
Lemma epoch_updates n e p i : 1 <= e <= n -> nth_error (t_props t0) i = Some p -> NoDup (map tr_key (t_props t0)) ->
  number_of_updates (steps_at n) e (tr_key p) = Z.to_nat (tr_updates p).
Proof.
  intros He Hp N. unfold number_of_updates, steps_at.
  assert (Sp : seq 1 n = seq 1 (e - 1) ++ [e] ++ seq (S e) (n - e)).
  { replace n with ((e - 1) + (1 + (n - e))) at 1 by lia. rewrite seq_app. f_equal.
    replace (1 + (e - 1)) with e by lia. reflexivity. }
  rewrite Sp, !flat_map_app, !filter_app, !app_length.
  assert (Z0 : forall l, (forall x, In x l -> x <> e) ->
    filter (fun sp => (Nat.eqb (sp_epoch sp) e && property_eqb (tr_key p) (tr_key (sp_prop sp)))%bool) (flat_map epoch_steps l) = []).
  { induction l as [|x l IH]; intro H; [reflexivity|]. cbn [flat_map]. rewrite filter_app, filter_other_epoch, IH; auto using in_eq, in_cons. }
  rewrite (Z0 (seq 1 (e - 1))), (Z0 (seq (S e) (n - e))) by (intros x Hx; apply in_seq in Hx; lia). cbn [flat_map List.length]. rewrite app_nil_r. cbn [List.length Nat.add]. rewrite ?Nat.add_0_r.
  unfold epoch_steps. rewrite (count_steps e i p Hp N) by (intros j; apply schedule_range). unfold schedule_at. rewrite schedule_counts by apply shuffles.
  rewrite <- (nth_error_nth _ _ 0 (map_nth_error (fun q => Z.to_nat (tr_updates q)) _ _ Hp)). reflexivity.
Qed.
Lemma step_in n sp : In sp (steps_at n) -> 1 <= sp_epoch sp <= n /\ exists p, In p (t_props t0) /\ sp_prop sp = prop_at (sp_epoch sp) p.
Proof.
  intro H. unfold steps_at in H. apply in_flat_map in H. destruct H as (e & He & H). apply in_seq in He.
  unfold epoch_steps in H. apply in_map_iff in H. destruct H as (i & <- & Hi). cbn [sp_epoch sp_prop]. split; [lia|].
  apply schedule_range in Hi. exists (nth i (t_props t0) (new_property Energy)). split; [now apply nth_In|].
  unfold props_at. rewrite (nth_indep _ _ (prop_at e (new_property Energy))) by now rewrite map_length. now rewrite map_nth.
Qed.
Lemma order_in n o : In o (flat_map epoch_orders (seq 1 n)) <-> 1 <= or_epoch o <= n /\ exists p, In p (t_props t0) /\ or_key o = tr_key p /\
  or_how o = match mode_after (tr_schedule p) (tr_mode p) (or_epoch o) with SM_SORT => Sorted | _ => Shuffled end.
Proof.
  rewrite in_flat_map. split.
  - intros (e & He & H). apply in_seq in He. unfold epoch_orders, props_at in H. rewrite map_map in H. apply in_map_iff in H.
    destruct H as (p & <- & Hp). cbn. split; [lia|]. exists p. auto.
  - intros (He & p & Hp & K & M). exists (or_epoch o). split; [apply in_seq; lia|]. unfold epoch_orders, props_at. rewrite map_map.
    apply in_map_iff. exists p. split; [|exact Hp]. destruct o as [e k h]. cbn in *. now subst.
Qed.
End Loop.
