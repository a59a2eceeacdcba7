(** What setupTraining establishes (C81-C84). *)
From Coq Require Import Reals Lra ZArith Lia Ascii String Bool Arith Permutation.
From Coq Require Import List.
From Verif Require Import Base.AssocMap Model.Strings Model.Printf Model.Settings Model.SymLines Model.NetworkSetup Model.DataFiles
  Model.Updaters Model.Selection Model.UpdatePlan Model.TrainingSetup Spec.TrainingSpec
  Proofs.SymLineProofs Proofs.NetworkSetupProofs Proofs.NetworkSetupMain Proofs.TrainingSchedule Proofs.TrainingSelection
  Proofs.TrainingLoop Proofs.TrainingFiles.
Import ListNotations.
Local Open Scope nat_scope.

Lemma mapo_pairs A B (f : A -> outcome B) : forall l r, mapo f l = Done r -> Forall2 (fun a b => f a = Done b) l r.
Proof.
  induction l as [|a l IH]; intros r H; cbn [mapo] in H; [apply done_inj in H; subst; constructor|].
  apply bindo_done in H. destruct H as (b & B0 & H). apply bindo_done in H. destruct H as (r' & R & H). apply done_inj in H. subst r. constructor; auto.
Qed.
Lemma Forall2_trans3 A (P Q : A -> A -> Prop) (R : A -> A -> Prop) l1 l2 l3 :
  (forall a b c, P a b -> Q b c -> R a c) -> Forall2 P l1 l2 -> Forall2 Q l2 l3 -> Forall2 R l1 l3.
Proof.
  intros H F. revert l3. induction F as [|a b l1 l2 Pab F IH]; intros l3 G; inversion G; subst; constructor; eauto.
Qed.
Lemma Forall2_keys (P : tprop -> tprop -> Prop) l l' : (forall a b, P a b -> tr_key b = tr_key a) -> Forall2 P l l' -> map tr_key l' = map tr_key l.
Proof. intros H F. induction F as [|a b l l' Pab F IH]; [reflexivity|]. cbn. now rewrite IH, (H _ _ Pab). Qed.
Lemma Forall2_right A B (P : A -> B -> Prop) l l' : Forall2 P l l' -> forall b, In b l' -> exists a, In a l /\ P a b.
Proof. intro F. induction F as [|a b l l' Pab F IH]; intros c []; [subst; eauto using in_eq|]. destruct (IH c) as (x & X & Y); auto. exists x. auto using in_cons. Qed.

(** A property at the end of the set-up. *)
Definition configured (s : settings) (numProcs : nat) (cs : property -> counts) (metric : property -> str) (ps : list tprop) (p : tprop) : Prop :=
  selected_as s p /\ tr_metric p = metric (tr_key p) /\
  fileOutput s (compare_keyword (tr_key p)) (0%Z, 0%Z) = Done (tr_every p, tr_always p) /\
  exists p0, tr_key p0 = tr_key p /\ setupUpdatePlan s numProcs cs ps p0 = Done p.
Lemma plan_inv s P cs ps p p' : setupUpdatePlan s P cs ps p = Done p' ->
  tr_key p' = tr_key p /\ tr_metric p' = tr_metric p /\ tr_schedule p' = tr_schedule p /\ tr_mode p' = tr_mode p /\ tr_threshold p' = tr_threshold p /\
  tr_trials p' = tr_trials p /\ tr_every p' = tr_every p /\ tr_always p' = tr_always p.
Proof.
  unfold setupUpdatePlan. intro H. apply bindo_done in H. destruct H as (f & _ & H). apply bindo_done in H. destruct H as (b & _ & H).
  apply bindo_done in H. destruct H as (n & _ & H). apply done_inj in H. subst p'. repeat split.
Qed.
Lemma output_inv s p p' : setupFileOutput s p = Done p' ->
  fileOutput s (compare_keyword (tr_key p)) (tr_every p, tr_always p) = Done (tr_every p', tr_always p') /\
  tr_key p' = tr_key p /\ tr_metric p' = tr_metric p /\ tr_schedule p' = tr_schedule p /\ tr_mode p' = tr_mode p /\ tr_threshold p' = tr_threshold p /\
  tr_trials p' = tr_trials p.
Proof.
  unfold setupFileOutput. intro H. apply bindo_done in H. destruct H as (o & O & H). apply done_inj in H. subst p'. cbn. rewrite O. destruct o. repeat split.
Qed.
Lemma member_keys k ps ps' : map tr_key ps = map tr_key ps' -> member k ps = member k ps'.
Proof.
  unfold member. revert ps'. induction ps as [|p ps IH]; intros [|p' ps'] H; try discriminate; [reflexivity|]. cbn in *. injection H as H1 H2. now rewrite H1, (IH ps').
Qed.
Lemma plan_same s P cs ps ps' p : map tr_key ps = map tr_key ps' -> setupUpdatePlan s P cs ps p = setupUpdatePlan s P cs ps' p.
Proof. intro H. unfold setupUpdatePlan, epochFraction. now rewrite (member_keys _ _ _ H). Qed.

Definition stage_keys (nnp : nnpType) (stage : nat) (forces : bool) : list property :=
  if (negb (is_2G nnp) && Nat.eqb stage 1)%bool then [Charge] else Energy :: (if forces then [Force] else []).
Lemma stage_nodup nnp stage b : NoDup (stage_keys nnp stage b).
Proof. unfold stage_keys. destruct (negb (is_2G nnp) && Nat.eqb stage 1)%bool; [|destruct b]; repeat constructor; cbn; intuition discriminate. Qed.

(** Everything the set-up leaves behind. *)
Record set_up (s : settings) (nnp : nnpType) (stage : nat) (e : surroundings) (t : training) : Prop := mkSetUp {
  su_nnp : t_nnp t = nnp; su_stage : t_stage t = stage; su_epoch : t_epoch t = 0;
  su_ok : nnp = HDNNP_2G \/ stage = 1 \/ stage = 2;
  su_forces : exists forces, keywordExists s (lit "use_short_forces") false = Some forces /\ map tr_key (t_props t) = stage_keys nnp stage forces /\
    t_nnId t = (if (negb (is_2G nnp) && Nat.eqb stage 1)%bool then lit "elec" else lit "short");
  su_metric : exists metric, metric_of s = Done metric /\ Forall (configured s (su_numProcs e) (su_counts e) metric (t_props t)) (t_props t);
  su_epochs : exists z, given_int s (lit "epochs") z /\ t_numEpochs t = to_size z;
  su_weights : fileOutput s (lit "write_weights_epoch") (0%Z, 0%Z) = Done (t_weights t);
  su_neurons : fileOutput s (lit "write_neuronstats") (0%Z, 0%Z) = Done (t_neurons t);
  su_type : exists z, given_int s (lit "updater_type") z /\ updater_type_of z = Done (t_type t);
  su_par : exists z, given_int s (lit "parallel_mode") z /\ parallel_of z = Done (t_parallel t);
  su_jac : exists z, given_int s (lit "jacobian_mode") z /\ jacobian_of z = Done (t_jacobian t);
  su_gd : t_type t = UT_GD -> t_jacobian t = JM_SUM;
  su_strat : exists z, given_int s (lit "update_strategy") z /\ strategy_of z = Done (t_strategy t);
  su_force : forceWeight_of s nnp stage = Done (t_useForces t, t_forceWeight t);
  su_repeated : t_useForces t = true -> absent s (lit "repeated_energy_update");
  su_updaters : makeUpdaters s (Nat.eqb (su_rank e) 0 || match t_parallel t with PM_TRAIN_ALL => true | PM_TRAIN_RK0 => false end)%bool (t_type t)
     (total_updates (t_props t)) (numWeightsPerUpdater (mkLayout (t_parallel t) (t_jacobian t) (t_strategy t) (is_4G nnp && Nat.eqb stage 1)%bool (su_conn e) []))
     (su_values e (t_strategy t)) = Done (t_updaters t) }.

Lemma setup_inv s nnp stage e t : setupTraining s nnp stage e = Done t -> set_up s nnp stage e t.
Proof.
  unfold setupTraining. intro H.
  apply bindo_done in H. destruct H as ((ks, id) & St & H). cbn [fst snd] in H.
  apply bindo_done in H. destruct H as ([] & _ & H).
  apply bindo_done in H. destruct H as ((uf, fw) & Fw & H). cbn [fst snd] in H.
  apply bindo_done in H. destruct H as (metric & Me & H).
  apply bindo_done in H. destruct H as (type & Ty & H). apply bindo_done in H. destruct H as (par & Pa & H). apply bindo_done in H. destruct H as (jac & Ja & H).
  apply bindo_done in H. destruct H as ([] & Gd & H). apply bindo_done in H. destruct H as ([] & _ & H).
  apply bindo_done in H. destruct H as (strat & Str & H).
  apply bindo_done in H. destruct H as (ps1 & P1 & H). apply bindo_done in H. destruct H as (rep & Rep & H). apply bindo_done in H. destruct H as ([] & Rc & H).
  apply bindo_done in H. destruct H as (mem & _ & H). apply bindo_done in H. destruct H as (ep & Ep & H). apply bindo_done in H. destruct H as (ps2 & P2 & H).
  apply bindo_done in H. destruct H as (wt & Wt & H). apply bindo_done in H. destruct H as (ne & Ne & H). apply bindo_done in H. destruct H as (tl & _ & H).
  apply bindo_done in H. destruct H as (ps3 & P3 & H). apply bindo_done in H. destruct H as (us & Us & H). apply done_inj in H. subst t.
  unfold setStage in St. apply bindo_done in St. destruct St as (forces & Hf & St). unfold has in Hf. apply throwing_done in Hf.
  assert (KS : ks = stage_keys nnp stage forces /\ id = (if (negb (is_2G nnp) && Nat.eqb stage 1)%bool then lit "elec" else lit "short") /\ (nnp = HDNNP_2G \/ stage = 1 \/ stage = 2)).
  { unfold stage_keys. destruct nnp; cbn [is_2G negb andb].
    - apply done_inj in St. apply pair_equal_spec in St. destruct St as (<- & <-). auto.
    - destruct (Nat.eqb_spec stage 1) as [->|]; [apply done_inj in St; apply pair_equal_spec in St; destruct St as (<- & <-); auto|].
      destruct (Nat.eqb_spec stage 2) as [->|]; [|discriminate]. apply done_inj in St; apply pair_equal_spec in St; destruct St as (<- & <-); auto.
    - destruct (Nat.eqb_spec stage 1) as [->|]; [apply done_inj in St; apply pair_equal_spec in St; destruct St as (<- & <-); auto|].
      destruct (Nat.eqb_spec stage 2) as [->|]; [|discriminate]. apply done_inj in St; apply pair_equal_spec in St; destruct St as (<- & <-); auto. }
  destruct KS as (EK & EI & OK). clear St.
  set (ps0 := map (fun p => set_metric (metric (tr_key p)) p) (map new_property ks)) in *.
  assert (K0 : map tr_key ps0 = ks) by (unfold ps0; rewrite !map_map; cbn; apply map_id).
  assert (Fr : Forall fresh ps0). { unfold ps0. rewrite map_map. apply Forall_forall. intros p Hp. apply in_map_iff in Hp. destruct Hp as (k & <- & _). repeat split. }
  assert (M0 : Forall (fun p => tr_metric p = metric (tr_key p) /\ tr_every p = 0%Z /\ tr_always p = 0%Z) ps0).
  { unfold ps0. rewrite map_map. apply Forall_forall. intros p Hp. apply in_map_iff in Hp. destruct Hp as (k & <- & _). repeat split. }
  assert (N0 : NoDup (map tr_key ps0)) by (rewrite K0, EK; apply stage_nodup).
  pose proof (selection_setup _ _ _ N0 Fr P1) as F1. pose proof (mapo_pairs _ _ _ _ _ P2) as F2. pose proof (mapo_pairs _ _ _ _ _ P3) as F3.
  assert (K1 : map tr_key ps1 = map tr_key ps0) by (eapply Forall2_keys; [|exact F1]; intros a b X; apply X).
  assert (K2 : map tr_key ps2 = map tr_key ps1) by (eapply Forall2_keys; [|exact F2]; intros a b X; apply output_inv in X; apply X).
  assert (K3 : map tr_key ps3 = map tr_key ps2) by (eapply Forall2_keys; [|exact F3]; intros a b X; apply plan_inv in X; apply X).
  constructor; cbn [t_nnp t_stage t_epoch t_props t_nnId t_numEpochs t_weights t_neurons t_type t_parallel t_jacobian t_strategy t_useForces t_forceWeight t_updaters]; auto.
  - exists forces. split; [exact Hf|]. split; [congruence | exact EI].
  - exists metric. split; [exact Me|]. apply Forall_forall. intros p3 H3.
    destruct (Forall2_right _ _ _ _ _ F3 _ H3) as (p2 & H2 & E3). destruct (Forall2_right _ _ _ _ _ F2 _ H2) as (p1 & H1 & E2).
    destruct (Forall2_right _ _ _ _ _ F1 _ H1) as (p0 & H0 & (E1 & Sel)). rewrite Forall_forall in M0. destruct (M0 _ H0) as (A & B & C).
    pose proof (plan_inv _ _ _ _ _ _ E3) as (Q1 & Q2 & Q3 & Q4 & Q5 & Q6 & Q7 & Q8). pose proof (output_inv _ _ _ E2) as (R0 & R1 & R2 & R3 & R4 & R5 & R6).
    destruct E1 as (T1 & T2 & T3 & T4). unfold configured. split; [|split; [|split]].
    + unfold selected_as in *. rewrite Q1, Q3, Q4, Q5, Q6, R1, R3, R4, R5, R6. exact Sel.
    + rewrite Q2, R2, T2, A, Q1, R1, T1. reflexivity.
    + rewrite Q1, R1, Q7, Q8, <- R0, T3, T4, B, C. reflexivity.
    + exists p2. split; [now rewrite Q1|]. rewrite <- E3. apply plan_same. congruence.
  - exists ep. split; [now apply get_int_given | reflexivity].
  - apply bindo_done in Ty. destruct Ty as (z & Z & Ty). exists z. split; [now apply get_int_given | exact Ty].
  - apply bindo_done in Pa. destruct Pa as (z & Z & Pa). exists z. split; [now apply get_int_given | exact Pa].
  - apply bindo_done in Ja. destruct Ja as (z & Z & Ja). exists z. split; [now apply get_int_given | exact Ja].
  - intros ->. destruct jac; [reflexivity | discriminate | discriminate].
  - apply bindo_done in Str. destruct Str as (z & Z & Str). exists z. split; [now apply get_int_given | exact Str].
  - intros ->. destruct rep; [discriminate|]. now apply has_false.
Qed.

(** The loop of such a training. *)
Lemma epochs_value s z z' : given_int s (lit "epochs") z -> given_int s (lit "epochs") z' -> z = z'.
Proof. intros (w & G & A) (w' & G' & A'). unfold given in *. congruence. Qed.
Lemma given_bound s k z : given_int s k z -> (- 2 ^ 31 <= z < 2 ^ 31)%Z.
Proof. intros (w & _ & A). now apply atoi_bound in A. Qed.

Lemma run_state s nnp stage e zs shuffle inv kobs gobs z t x : training_run s nnp stage e zs shuffle inv kobs gobs z t x ->
  set_up s nnp stage e t /\ t_numEpochs t = Z.of_nat z /\ x = state_at zs shuffle inv kobs gobs t z /\ (Z.of_nat z < 2 ^ 31)%Z /\ (forall n l, Permutation (shuffle n l) l).
Proof.
  intros (H & Gz & Sh & fuel & L). pose proof (setup_inv _ _ _ _ _ H) as U. split; [exact U|].
  destruct (su_epochs _ _ _ _ _ U) as (z' & G' & E). pose proof (epochs_value _ _ _ Gz G') as <-. pose proof (given_bound _ _ _ Gz) as B.
  rewrite to_size_id in E by lia. assert (E0 : (0 <= t_numEpochs t)%Z) by lia. split; [exact E|]. rewrite (loop_closed zs shuffle inv kobs gobs Sh t (su_epoch _ _ _ _ _ U)) in L.
  destruct (Nat.ltb fuel (Z.to_nat (t_numEpochs t))); [discriminate|]. injection L as L. rewrite E, Nat2Z.id in L. split; [now symmetry|]. split; [lia | exact Sh].
Qed.
Lemma run_exists s nnp stage e zs shuffle inv kobs gobs z t : setupTraining s nnp stage e = Done t -> given_int s (lit "epochs") (Z.of_nat z) ->
  (forall n l, Permutation (shuffle n l) l) ->
  exists x, t_epoch (lo_training x) = z /\ forall fuel, loop zs shuffle inv kobs gobs fuel t = if Nat.ltb fuel z then None else Some (Done x).
Proof.
  intros H Gz Sh. pose proof (setup_inv _ _ _ _ _ H) as U.
  destruct (su_epochs _ _ _ _ _ U) as (z' & G' & E). pose proof (epochs_value _ _ _ Gz G') as <-. pose proof (given_bound _ _ _ Gz) as B.
  rewrite to_size_id in E by lia. assert (E0 : (0 <= t_numEpochs t)%Z) by lia. exists (state_at zs shuffle inv kobs gobs t z). split; [reflexivity|]. intro fuel.
  rewrite (loop_closed zs shuffle inv kobs gobs Sh t (su_epoch _ _ _ _ _ U)), E, Nat2Z.id. reflexivity.
Qed.
