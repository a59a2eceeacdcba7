(** Examples for C81-C84 and what does not hold. *)
From Coq Require Import Reals Lra ZArith Lia Ascii String Bool Arith Permutation.
From Flocq Require Import Core.
From Coq Require Import List.
From Verif Require Import Base.AssocMap Model.Strings Model.Printf Model.Settings Model.SymLines Model.NetworkSetup Model.DataFiles
  Model.Updaters Model.Selection Model.UpdatePlan Model.TrainingSetup Spec.StringSpec Spec.TrainingSpec
  Proofs.SymLineProofs Proofs.NetworkSetupProofs Proofs.NetworkSetupMain Proofs.SymLineExamples Proofs.EwaldExamples Proofs.TrainingSchedule Proofs.TrainingSelection
  Proofs.TrainingLoop Proofs.TrainingFiles Proofs.TrainingMain Proofs.TrainingTheorems Proofs.TrainingResults Proofs.TrainingUpdaters.
Import ListNotations.
Local Open Scope R_scope.

(** A 2G training with forces and the Kalman filter. *)
Definition short_text : str := join [ch_lf] (map lit
  ["use_short_forces"; "updater_type 1"; "parallel_mode 0"; "jacobian_mode 1"; "update_strategy 0"; "selection_mode 2 3 0"; "selection_mode_force 1";
   "rmse_threshold 0.5"; "epochs 4"; "write_weights_epoch 2 1"; "write_trainpoints 3"; "energy_fraction 0.5"; "force_energy_ratio 2";
   "task_batch_size_energy 1"; "task_batch_size_force 1"; "kalman_type 0"; "kalman_epsilon 1"; "kalman_q0 1"; "kalman_qtau 0.5"; "kalman_qmin 0"; "kalman_eta 1"]%string).
Definition short_settings : settings := fst (loadFile settings_init short_text).
Lemma short_loaded : loadFile settings_init short_text = (short_settings, 0%nat).
Proof. vm_compute. reflexivity. Qed.
Definition short_counts (k : property) : counts := match k with Energy => mkCounts 10 10 | Force => mkCounts 40 40 | Charge => mkCounts 0 0 end.
Definition short_sur : surroundings := mkSur 0 1 [2; 3]%nat (fun _ _ _ => 0) short_counts.
Definition energy_prop : tprop :=
  mkTrain Energy (lit "RMSEpa") [(0%Z, SM_THRESHOLD); (3%Z, SM_RANDOM)] SM_THRESHOLD (atof (lit "0.5")) 0 3 0 (atof (lit "0.5")) 1 1 5.
Definition force_prop : tprop :=
  mkTrain Force (lit "RMSE") [(0%Z, SM_SORT)] SM_SORT (atof (lit "0.5")) 0 0 0 (INR 10 * atof (lit "2") / INR 40) 1 1 20.

Lemma size_of x z : x = IZR z -> (0 <= z < 2 ^ 64)%Z -> to_size_t x = Done z.
Proof.
  intros -> H. unfold to_size_t. rewrite Ztrunc_IZR. replace (Z.leb 0 z && Z.ltb z (2 ^ 64))%bool with true; [reflexivity|].
  symmetry. apply andb_true_iff. split; [apply Z.leb_le | apply Z.ltb_lt]; lia.
Qed.
Lemma some_number {A} (o : outcome A) (a b : A) : o = Done a -> a = b -> o = Done b.
Proof. congruence. Qed.
Ltac look SS :=
  repeat (match goal with
          | |- context [has SS ?k] => let v := eval vm_compute in (has SS k) in
               let H := fresh in assert (H : has SS k = v) by (vm_compute; reflexivity); rewrite H; clear H
          | |- context [get_int SS ?k] => let v := eval vm_compute in (get_int SS k) in
               let H := fresh in assert (H : get_int SS k = v) by (vm_compute; reflexivity); rewrite H; clear H
          | |- context [get SS ?k] => let v := eval vm_compute in (get SS k) in
               let H := fresh in assert (H : get SS k = v) by (vm_compute; reflexivity); rewrite H; clear H
          | |- context [get_real SS ?k] => unfold get_real
          | |- context [readSchedule ?v] => let w := eval vm_compute in (readSchedule v) in
               let H := fresh in assert (H : readSchedule v = w) by (vm_compute; reflexivity); rewrite H; clear H
          end; cbn [bindo fst snd andb negb orb]).
Ltac proj := cbn [map in_scope property_eqb compare_keyword tr_key tr_metric tr_schedule tr_mode tr_threshold tr_trials tr_every tr_always tr_fraction tr_batch tr_patterns tr_updates
  foldo mapo bindo fst snd andb orb negb throwing].
Ltac outputs SS :=
  repeat (match goal with
          | |- context [fileOutput SS ?k ?o] => let v := eval vm_compute in (fileOutput SS k o) in
               let H := fresh in assert (H : fileOutput SS k o = v) by (vm_compute; reflexivity); rewrite H; clear H
          end; proj).
Lemma short_setup : exists t, setupTraining short_settings HDNNP_2G 1 short_sur = Done t /\ t_props t = [energy_prop; force_prop] /\
  t_weights t = (2%Z, 1%Z) /\ List.length (t_updaters t) = 1%nat.
Proof.
  unfold setupTraining, setStage. look short_settings. cbn [is_2G negb andb].
  unfold forceWeight_of. cbn [is_2G orb]. look short_settings.
  unfold metric_of. look short_settings. cbn [map new_property set_metric tr_key].
  change (updater_type_of 1) with (Done UT_KF). change (parallel_of 0) with (Done PM_TRAIN_RK0). change (jacobian_of 1) with (Done JM_TASK).
  change (strategy_of 0) with (Done US_COMBINED). cbn [bindo].
  unfold setupSelectionModes, setupSelectionMode. look short_settings.
  unfold apply_to, set_metric, new_property, set_schedule, set_threshold, set_trials.
  proj. repeat (look short_settings; proj).
  change (mget Z.eqb 0%Z [(0%Z, SM_THRESHOLD); (3%Z, SM_RANDOM)]) with (Some SM_THRESHOLD). change (mget Z.eqb 0%Z [(0%Z, SM_SORT)]) with (Some SM_SORT).
  unfold setupFileOutput. proj. outputs short_settings.
  unfold setupUpdatePlan. proj. unfold epochFraction. proj. cbn [member existsb]. proj. look short_settings.
  change (su_counts short_sur Energy) with (mkCounts 10 10). change (su_counts short_sur Force) with (mkCounts 40 40). change (su_numProcs short_sur) with 1%nat.
  change (to_size 1) with 1%Z. cbn [n_train n_cands Nat.eqb Z.eqb]. proj.
  rewrite (size_of _ 5) by (try lia; change (atof ["0"%char; "."%char; "5"%char]) with (atof (lit "0.5")); rewrite atof_05; rewrite !INR_IZR_INZ; cbn [Z.of_nat Pos.of_succ_nat Pos.succ]; field).
  rewrite (size_of _ 20) by (try lia; change (atof ["2"%char]) with (atof (lit "2")); rewrite atof_2; rewrite !INR_IZR_INZ; cbn [Z.of_nat Pos.of_succ_nat Pos.succ]; field).
  proj. unfold makeUpdaters. look short_settings. change (kalman_of 0) with (Done KT_STANDARD). change (Nat.eqb (su_rank short_sur) 0) with true.
  match goal with |- context [numWeightsPerUpdater ?y] => change (numWeightsPerUpdater y) with [5%nat] end.
  cbn [List.length seq nth_error]. proj. cbn [new_kalman Nat.ltb Nat.leb]. proj. unfold kalmanParameters. look short_settings. proj.
  eexists. split; [reflexivity|]. split; [reflexivity | split; reflexivity].
Qed.
Lemma short_int k z : get_int short_settings k = Done z -> given_int short_settings k z.
Proof. intro H. apply get_int_given in H. exact H. Qed.
Lemma short_run inv kobs gobs : exists t x,
  training_run short_settings HDNNP_2G 1 short_sur [1; 8]%nat (fun _ l => l) inv kobs gobs 4 t x /\ t_props t = [energy_prop; force_prop] /\
  List.length (t_updaters t) = 1%nat.
Proof.
  destruct short_setup as (t & E & P & _ & L). exists t.
  destruct (run_exists _ _ _ _ [1; 8]%nat (fun _ l => l) inv kobs gobs 4 _ E) as (x & _ & X); [apply short_int; vm_compute; reflexivity | intros; apply Permutation_refl|].
  exists x. split; [|split; assumption]. split; [exact E|]. split; [apply short_int; vm_compute; reflexivity|]. split; [intros; apply Permutation_refl|].
  exists 4%nat. rewrite X. reflexivity.
Qed.

(** First stage of a 4G training with gradient descent. *)
Definition charge_text : str := join [ch_lf] (map lit
  ["updater_type 0"; "parallel_mode 1"; "jacobian_mode 0"; "update_strategy 1"; "epochs 2"; "task_batch_size_charge 0"; "charge_fraction 0.5";
   "gradient_type 0"; "gradient_eta 0.5"]%string).
Definition charge_settings : settings := fst (loadFile settings_init charge_text).
Lemma charge_loaded : loadFile settings_init charge_text = (charge_settings, 0%nat).
Proof. vm_compute. reflexivity. Qed.
Definition charge_sur : surroundings := mkSur 1 2 [2; 3]%nat (fun _ _ _ => 0) (fun k => match k with Charge => mkCounts 16 8 | _ => mkCounts 0 0 end).
Definition charge_prop : tprop := mkTrain Charge (lit "RMSE") [] SM_RANDOM 0 0 0 0 (atof (lit "0.5")) 0 4 1.
Lemma charge_setup : exists t, setupTraining charge_settings HDNNP_4G 1 charge_sur = Done t /\ t_props t = [charge_prop] /\
  List.length (t_updaters t) = 2%nat.
Proof.
  unfold setupTraining, setStage. look charge_settings. cbn [is_2G negb andb]. proj.
  unfold forceWeight_of. cbn [is_2G orb Nat.eqb]. look charge_settings.
  unfold metric_of. look charge_settings. cbn [map new_property set_metric tr_key Nat.eqb orb].
  change (updater_type_of 0) with (Done UT_GD). change (parallel_of 1) with (Done PM_TRAIN_ALL). change (jacobian_of 0) with (Done JM_SUM).
  change (strategy_of 1) with (Done US_ELEMENT). cbn [bindo].
  unfold setupSelectionModes, setupSelectionMode. unfold set_metric, new_property. proj. repeat (look charge_settings; proj).
  unfold setupFileOutput. proj. outputs charge_settings.
  unfold setupUpdatePlan. proj. unfold epochFraction. proj. cbn [member existsb]. proj. look charge_settings.
  change (su_counts charge_sur Charge) with (mkCounts 16 8). change (su_numProcs charge_sur) with 2%nat.
  change (to_size 0) with 0%Z. cbn [n_train n_cands Nat.eqb Z.eqb]. proj.
  rewrite (size_of _ 4) by (try lia; change (atof ["0"%char; "."%char; "5"%char]) with (atof (lit "0.5")); rewrite atof_05; rewrite !INR_IZR_INZ; cbn [Z.of_nat Pos.of_succ_nat Pos.succ]; field).
  proj. unfold makeUpdaters. look charge_settings. change (descent_of 0) with (Done DT_FIXED). change (Nat.eqb (su_rank charge_sur) 0) with false.
  match goal with |- context [numWeightsPerUpdater ?y] => change (numWeightsPerUpdater y) with [2%nat; 3%nat] end.
  cbn [List.length seq nth_error orb]. proj. cbn [new_descent Nat.ltb Nat.leb]. proj. unfold descentParameters. look charge_settings. proj.
  eexists. split; [reflexivity|]. split; reflexivity.
Qed.
(** The check that separate updates of the elements are only for 2G potentials
    comes before the strategy is read. *)
Theorem element_strategy : exists s e t, loadFile settings_init charge_text = (s, 0%nat) /\ setupTraining s HDNNP_4G 1 e = Done t /\
  given_int s (lit "update_strategy") 1%Z.
Proof.
  destruct charge_setup as (t & E & _). exists charge_settings, charge_sur, t. split; [exact charge_loaded|]. split; [exact E|].
  apply get_int_given. vm_compute. reflexivity.
Qed.
(** The ratio of forces to energies is only obtained if all energies are used. *)
Theorem ratio_fails : exists s e t pE pF r, setupTraining s HDNNP_2G 1 e = Done t /\ In pE (t_props t) /\ In pF (t_props t) /\ tr_key pE = Energy /\ tr_key pF = Force /\
  given_real s (lit "force_energy_ratio") r /\ 0 < r /\
  (tr_updates pF * tr_patterns pF)%Z = (4 * (tr_updates pE * tr_patterns pE))%Z /\ r = 2 /\ (0 < tr_updates pE * tr_patterns pE)%Z.
Proof.
  destruct short_setup as (t & E & P & _). exists short_settings, short_sur, t, energy_prop, force_prop, 2. split; [exact E|]. rewrite P.
  split; [left; reflexivity|]. split; [right; left; reflexivity|]. split; [reflexivity|]. split; [reflexivity|].
  split; [exists (lit "2"); split; [vm_compute; reflexivity | symmetry; apply atof_2]|]. split; [lra|]. repeat split; vm_compute; reflexivity.
Qed.

(** What the theorems say about this training. *)
Lemma short_given k v : getValue short_settings k = Some v -> given short_settings k v.
Proof. intro H. exact H. Qed.
Example short_modes : wanted_mode short_settings Energy 2 SM_THRESHOLD /\ wanted_mode short_settings Energy 3 SM_RANDOM /\ wanted_mode short_settings Force 3 SM_SORT.
Proof.
  assert (En : entries_of (split (lit "2 3 0") ch_space) [(0%Z, 2%Z); (3%Z, 0%Z)]).
  { change (split (lit "2 3 0") ch_space) with ([lit "2"] ++ [lit "3"; lit "0"]). change [(0%Z, 2%Z); (3%Z, 0%Z)] with ([(0%Z, 2%Z)] ++ [(3%Z, 0%Z)]).
    apply EO_more; [apply EO_first| |]; vm_compute; reflexivity. }
  assert (Ef : effective short_settings "selection_mode" Energy (Some (lit "2 3 0"))).
  { right. split; vm_compute; reflexivity. }
  split; [|split].
  - exists (Some (lit "2 3 0")). split; [exact Ef|]. exists [(0%Z, 2%Z); (3%Z, 0%Z)], 0%nat, 0%Z, 2%Z. split; [exact En|]. split; [|split; [reflexivity | right; right; split; reflexivity]].
    exists 0%Z, 2%Z. split; [reflexivity|]. split; [lia|]. intros [|[|j]] b m E B; cbn in E; [injection E as <- <-; lia | injection E as <- <-; lia | destruct j; discriminate].
  - exists (Some (lit "2 3 0")). split; [exact Ef|]. exists [(0%Z, 2%Z); (3%Z, 0%Z)], 1%nat, 3%Z, 0%Z. split; [exact En|]. split; [|split; [reflexivity | left; split; reflexivity]].
    exists 3%Z, 0%Z. split; [reflexivity|]. split; [lia|]. intros [|[|j]] b m E B; cbn in E; [injection E as <- <-; lia | injection E as <- <-; lia | destruct j; discriminate].
  - exists (Some (lit "1")). split; [left; vm_compute; reflexivity|]. exists [(0%Z, 1%Z)], 0%nat, 0%Z, 1%Z. split; [|split; [|split; [reflexivity | right; left; split; reflexivity]]].
    + apply (EO_first (lit "1") 1%Z). vm_compute. reflexivity.
    + exists 0%Z, 1%Z. split; [reflexivity|]. split; [lia|]. intros [|j] b m E B; cbn in E; [injection E as <- <-; lia | destruct j; discriminate].
Qed.
Lemma short_not_two : ~ first_of_two HDNNP_2G 1.
Proof. intros (H & _). now apply H. Qed.
Example short_order inv kobs gobs t x : training_run short_settings HDNNP_2G 1 short_sur [1; 8]%nat (fun _ l => l) inv kobs gobs 4 t x ->
  exists o, In o (lo_orders x) /\ or_epoch o = 3%nat /\ or_key o = Force /\ or_how o = Sorted.
Proof.
  intro H. destruct (order_theorem _ _ _ _ _ _ _ _ _ _ _ _ H) as (A & B). destruct (A 3%nat Force) as (o & Ho & E & K); [lia | split; [exact short_not_two | vm_compute; reflexivity]|].
  exists o. split; [exact Ho|]. split; [exact E|]. split; [exact K|]. destruct (B o Ho) as (_ & _ & m & W & S3). apply S3. rewrite E, K in W.
  eapply wanted_unique; [exact W | apply short_modes].
Qed.
Example short_weights inv kobs gobs t x f0 : training_run short_settings HDNNP_2G 1 short_sur [1; 8]%nat (fun _ l => l) inv kobs gobs 4 t x ->
  let f := write_files (lo_writes x) f0 in
  holds_epochs f (lit "weights.008.000004.out") [4%nat] /\ holds_epochs f (lit "weights.001.000001.out") [1%nat] /\ unchanged f0 f (lit "weights.008.000003.out").
Proof.
  intros H f. assert (A : forall n Z, (n <= 4)%nat -> In Z [1; 8]%nat -> if (Nat.even n || Nat.leb n 1)%bool then holds_epochs f (weights_file HDNNP_2G 1 Z n) [n] else unchanged f0 f (weights_file HDNNP_2G 1 Z n)).
  { intros n Z Hn HZ. destruct (weights_files _ _ _ _ _ _ _ _ _ _ _ _ H f0 n Z Hn HZ) as ((yes & K & W) & _). fold f in W.
    destruct K as [(K & _)|(v & G & K)]; [vm_compute in K; discriminate|].
    assert (v = lit "2 1") by (assert (G' : given short_settings (lit "write_weights_epoch") (lit "2 1")) by (vm_compute; reflexivity); unfold given in *; congruence). subst v.
    change (words_of (lit "2 1")) with [lit "2"; lit "1"] in K. cbn [asks] in K. destruct K as (z & b & Ez & Eb & K).
    assert (Z2 : atoi (lit "2") = Done 2%Z) by (vm_compute; reflexivity). assert (Z1 : atoi (lit "1") = Done 1%Z) by (vm_compute; reflexivity).
    assert (z = 2%Z) by congruence. assert (b = 1%Z) by congruence. subst z b. specialize (K ltac:(lia) ltac:(lia)).
    assert (T : (Nat.even n || Nat.leb n 1)%bool = yes).
    { apply eq_true_iff_eq. rewrite K, orb_true_iff, Nat.even_spec, Nat.leb_le. split.
      - intros [(m & ->)|L]; split; try lia. left. exists (Z.of_nat m). lia.
      - intros (_ & [(m & M)|L]); [left; exists (Z.to_nat m); lia | right; lia]. }
    rewrite T. exact W. }
  split; [|split].
  - apply (A 4%nat 8%nat); [lia | right; left; reflexivity].
  - apply (A 1%nat 1%nat); [lia | left; reflexivity].
  - apply (A 3%nat 8%nat); [lia | right; left; reflexivity].
Qed.
Lemma updates_short t : t_props t = [energy_prop; force_prop] -> updates_per_epoch t = 25.
Proof. intro E. unfold updates_per_epoch. rewrite E. cbn. lra. Qed.
Example short_noise inv kobs gobs t x : training_run short_settings HDNNP_2G 1 short_sur [1; 8]%nat (fun _ l => l) inv kobs gobs 4 t x ->
  t_props t = [energy_prop; force_prop] -> forall k0 k, kalman_at t 0 k0 -> kalman_at (lo_training x) 0 k -> k_q k = exp (-2) /\ k_eta k = 1.
Proof.
  intros H P k0 k K0 K. pose proof (updates_short t P) as U.
  assert (G : forall kw w r, getValue short_settings kw = Some w -> r = atof w -> given_real short_settings kw r) by (intros kw w r A B; exists w; split; assumption).
  assert (A0 : atof (lit "0") = 0) by number.
  split.
  - pose proof (exp_pos (-2)) as PX. replace (-2) with (- (INR 4 * / 2)) by (cbn; lra). rewrite <- (Rmult_1_l (exp _)).
    refine (noise_theorem _ _ _ _ _ _ _ _ _ _ _ _ H _ 0%nat k0 k K0 K 1 (/ 2) 0 _ _ _ _ _ _); try lra.
    + apply (G _ (lit "1")); [vm_compute; reflexivity | symmetry; apply atof_1].
    + apply (G _ (lit "0.5")); [vm_compute; reflexivity | symmetry; apply atof_05].
    + apply (G _ (lit "0")); [vm_compute; reflexivity | now symmetry].
    + replace (- (INR 4 * / 2)) with (-2) by (cbn; lra). lra.
  - refine (proj2 (rate_theorem _ _ _ _ _ _ _ _ _ _ _ _ H _ _ 0%nat k0 k K0 K 1 _ _) _); try lra.
    + apply short_int. vm_compute. reflexivity.
    + apply (G _ (lit "1")); [vm_compute; reflexivity | symmetry; apply atof_1].
    + left. vm_compute. reflexivity.
Qed.
Example short_patterns inv kobs gobs t x : training_run short_settings HDNNP_2G 1 short_sur [1; 8]%nat (fun _ l => l) inv kobs gobs 4 t x ->
  number_of_updates (lo_steps x) 2 Energy = 5%nat.
Proof.
  intro H. destruct (patterns _ _ _ _ _ _ _ _ _ _ _ _ H ltac:(cbn; lia) Energy 1%Z) as (f & u & Wf & Nu & _ & B); [exact short_not_two | apply short_int; vm_compute; reflexivity | lia|].
  cbn [wanted_fraction] in Wf. destruct Wf as (w & Gw & ->).
  assert (w = lit "0.5") by (assert (G' : given short_settings (lit "energy_fraction") (lit "0.5")) by (vm_compute; reflexivity); unfold given in *; congruence). subst w.
  rewrite atof_05 in B. destruct (B ltac:(lra)) as (B1 & _). specialize (B1 ltac:(lia)). rewrite Nu by lia.
  change (n_train (su_counts short_sur Energy)) with 10%nat in B1. change (su_numProcs short_sur) with 1%nat in B1. rewrite !INR_IZR_INZ in B1. cbn [Z.of_nat Pos.of_succ_nat Pos.succ] in B1.
  assert (IZR (Z.of_nat u) <= 5 < IZR (Z.of_nat u) + 1) as (L1 & L2) by lra. apply le_IZR in L1. rewrite <- plus_IZR in L2. apply lt_IZR in L2. lia.
Qed.
