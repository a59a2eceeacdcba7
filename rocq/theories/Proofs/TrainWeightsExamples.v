From Coq Require Import List Arith Reals Bool Lia Lra.
From Verif Require Import Base.Loop Model.SymFunctions Spec.NetworkSpec Model.NeuralNetwork Model.UpdatePlan Spec.UpdatePlanSpec
  Model.TrainWeights Spec.TrainWeightsSpec Proofs.NetLayout Proofs.UpdatePlanProofs Proofs.TrainWeightsProofs Proofs.NumericWeightProofs.
Import ListNotations.
Local Open Scope nat_scope.

(** Every parameter of every updater belongs to an element. *)
Lemma parameter_cover y u p : u < numUpdaters y -> p < width y u ->
  exists i j, i < numElements y /\ j < slots y i /\ updater y i = u /\ position y i j = p.
Proof.
  unfold numUpdaters, width, updater, position. destruct (l_strat y).
  - intros Hu. assert (u = 0) by lia. subst u. clear Hu. intros Hp.
    assert (K : forall n, p < list_sum (map (slots y) (seq 0 n)) ->
              exists i j, i < n /\ j < slots y i /\ list_sum (map (slots y) (seq 0 i)) + j = p).
    { induction n as [|n IH]; intros Hn; [cbn in Hn; lia|].
      rewrite seq_S, map_app, list_sum_app in Hn. cbn [map list_sum fold_right] in Hn.
      destruct (Nat.lt_ge_cases p (list_sum (map (slots y) (seq 0 n)))) as [L|L].
      - destruct (IH L) as (i & j & A & B & C). exists i, j. repeat split; auto.
      - exists n, (p - list_sum (map (slots y) (seq 0 n))). cbn in Hn. repeat split; lia. }
    destruct (K _ Hp) as (i & j & A & B & C). exists i, j. auto.
  - intros Hu Hp. exists u, p. auto.
Qed.

(** Memory as initialized. *)
Lemma memory_initialized st h es : (forall e, In e es -> well_formed (te_nn e)) -> initialized (initializeWeightsMemory st h es).
Proof.
  intros G. split; [exact G|]. unfold initializeWeightsMemory, layout_of. cbn [tr_weights tr_strat tr_hardness tr_elements].
  rewrite map_map. cbn [wv_size]. rewrite map_id.
  assert (L : length (numWeightsPerUpdater (layoutOf st h es)) = numUpdaters (layoutOf st h es)).
  { unfold numWeightsPerUpdater, weightsMemory, numUpdaters. destruct st; cbn [layoutOf l_strat].
    - destruct (fold_left _ _ _); reflexivity.
    - rewrite snoc_all. reflexivity. }
  apply nth_ext with (d := 0) (d' := 0); [now rewrite map_length, seq_length|].
  intros n Hn. rewrite L in Hn. pose proof (width_at (layoutOf st h es) n Hn) as W. unfold natAt in W.
  rewrite (nth_error_nth _ n 0 W).
  assert (Hs : nth_error (seq 0 (numUpdaters (layoutOf st h es))) n = Some n).
  { rewrite (nth_error_nth' _ 0) by (now rewrite seq_length). f_equal. now rewrite seq_nth. }
  now rewrite (nth_error_nth _ n 0 (map_nth_error (width (layoutOf st h es)) n _ Hs)).
Qed.

(** Sizes of the vectors after a round trip. *)
Lemma round_trip_sizes t t1 t2 : initialized t -> setWeights t = Some t1 -> getWeights t1 = Some t2 ->
  map wv_size (tr_weights t2) = map wv_size (tr_weights t).
Proof.
  intros I E1 E2.
  destruct (setWeights_effect t I) as (t' & H1 & H2 & H3 & H4 & H5 & H6). rewrite E1 in H1. injection H1 as <-.
  destruct (initialized_after t t1 I) as [I1 Y1]; auto.
  { now rewrite H4. } { intros i' e' He'. destruct (H6 i' e' He') as (e2 & A & B & _). eauto. }
  destruct (getWeights_effect t1 I1) as (t' & G1 & G2 & G3 & G4 & G5 & G6). rewrite E2 in G1. injection G1 as <-. congruence.
Qed.

(** Numeric derivatives always leave changed networks behind. *)
Lemma numeric_changes_networks quantity delta n t t' rows : tr_strat t = US_COMBINED -> tr_hardness t = false -> initialized t ->
  (forall i e, element_is t i e -> entries_are_network t i (te_nn e)) ->
  0 < n -> tr_elements t <> [] -> delta <> 0%R ->
  dPdcN quantity delta n t = Some (t', rows) -> ~ same_networks t t'.
Proof.
  intros C H I Con Hn Ne Hd D Same.
  assert (P : 0 < parameters t).
  { destruct (init_combined t C I) as (w & E & Z). rewrite <- (parameters_size t w C I E), Z.
    destruct (tr_elements t) as [|e es] eqn:Ee; [congruence|]. change (total (tr_hardness t) (e :: es)) with (slot (tr_hardness t) e + total (tr_hardness t) es).
    assert (G : well_formed (te_nn e)) by (apply I; rewrite Ee; now left). pose proof (wf_conn _ G). unfold slot. lia. }
  destruct (numeric quantity delta n t C H I) as (t1 & rows1 & D1 & _ & _ & _ & Last). rewrite D in D1. injection D1 as <- <-.
  specialize (Last Hn P). destruct Last as [L Last].
  destruct (parameter_cover (layout_of t) 0 (parameters t - 1)) as (i & j & Hi & Hj & Up & Pos).
  { unfold numUpdaters, layout_of. rewrite C. cbn. lia. } { fold (parameters t). lia. }
  unfold layout_of in Hi. rewrite numElements_layout in Hi.
  destruct (nth_error (tr_elements t) i) as [e|] eqn:He; [|apply nth_error_None in He; lia].
  unfold layout_of in Hj. rewrite (layout_slots _ _ _ _ _ He), C, H in Hj. unfold slot in Hj. rewrite Nat.add_0_r in Hj.
  destruct (Last i e He) as (e' & He' & Hh & S1 & S2 & S3 & S4 & Wt & Bs). destruct (Con i e He) as [C1 C2].
  assert (SN : same_network (te_nn e') (te_nn e)).
  { clear - Same He He'. unfold same_networks in Same. revert i He He'. induction Same as [|a b l l' X _ IH]; intros [|i] He He'; try discriminate; cbn in *.
    - injection He as <-. injection He' as <-. apply X.
    - eapply IH; eauto. }
  destruct SN as (_ & _ & _ & _ & W & B).
  assert (Wf : well_formed (te_nn e)) by (apply I; eapply nth_error_In; exact He). pose proof (wf_layers _ Wf) as HL.
  rewrite (numConnections_block _ HL) in Hj.
  destruct (position_cover (te_nn e) (numLayers (te_nn e) - 1) j Hj) as [(l & a & k & Hl & Ha & Hk & ->)|(l & k & Hl & Hk & ->)].
  - pose proof (Wt l a k ltac:(lia) Ha Hk) as Q. cbv zeta in Q. rewrite Pos in Q. unfold shift in Q. rewrite Nat.eqb_refl in Q.
    pose proof (entry_fun _ _ _ _ _ (C1 l a k ltac:(lia) Ha Hk) Q). rewrite W in H0 by (rewrite ?S1, ?S2; auto; lia). lra.
  - pose proof (Bs l k ltac:(lia) Hk) as Q. cbv zeta in Q. rewrite Pos in Q. unfold shift in Q. rewrite Nat.eqb_refl in Q.
    pose proof (entry_fun _ _ _ _ _ (C2 l k ltac:(lia) Hk) Q). rewrite B in H0 by (rewrite ?S1, ?S2; auto; lia). lra.
Qed.

(** ** Example: two elements, networks 2-3-1 and 1-1-1, hardness fitted. *)
Definition exNet (a b : nat) (v : R) : network :=
  mkNetwork 3 (fun l => match l with 0 => a | 1 => b | _ => 1 end) (fun _ => AF_TANH) false
    (fun _ _ => mkNeuron 0 0 0 0 0 v 0 0 0 0 0 (fun _ => v)).
Definition exElements : list telement := [mkTElement (exNet 2 3 5) 4; mkTElement (exNet 1 1 7) 9].
Lemma exElements_wf : forall e, In e exElements -> well_formed (te_nn e).
Proof.
  intros e [<-|[<-|[]]]; split; cbn [te_nn exNet numLayers numNeurons]; try lia; intros [|[|[|l]]]; lia.
Qed.
Definition exTrainer (st : updateStrategy) (h : bool) : trainer := initializeWeightsMemory st h exElements.
Lemma exTrainer_ok : initialized (exTrainer US_COMBINED true) /\ hardness_fitted (exTrainer US_COMBINED true) /\
  initialized (exTrainer US_ELEMENT false) /\
  (forall e, In e exElements -> (0 <= te_hardness e)%R) /\ parameters (exTrainer US_COMBINED true) = 19 /\
  map wv_size (tr_weights (exTrainer US_ELEMENT false)) = [13; 4] /\
  (exists t1 t2, getWeights (exTrainer US_COMBINED true) = Some t1 /\ setWeights t1 = Some t2) /\
  (exists t1 t2, setWeights (exTrainer US_COMBINED true) = Some t1 /\ getWeights t1 = Some t2).
Proof.
  assert (I : initialized (exTrainer US_COMBINED true)) by (apply memory_initialized, exElements_wf).
  split; [exact I|]. split; [split; reflexivity|]. split; [apply memory_initialized, exElements_wf|].
  split; [intros e [<-|[<-|[]]]; cbn [te_hardness]; lra|]. split; [reflexivity|]. split; [reflexivity|].
  split.
  - destruct (get_weights _ I) as (t1 & A & _ & B & _). destruct (set_weights _ B) as (t2 & C & _). eauto.
  - destruct (set_weights _ I) as (t1 & A & _ & B & _). destruct (get_weights _ B) as (t2 & C & _). eauto.
Qed.
Lemma numeric_refuted : exists quantity delta t t' rows, tr_strat t = US_COMBINED /\ initialized t /\
  (forall i e, element_is t i e -> entries_are_network t i (te_nn e)) /\
  dPdcN quantity delta 1 t = Some (t', rows) /\ ~ same_networks t t'.
Proof.
  destruct (get_weights (exTrainer US_COMBINED false)) as (t & G1 & G2 & G3 & G4); [apply memory_initialized, exElements_wf|].
  assert (G5 : tr_strat t = US_COMBINED /\ tr_hardness t = false).
  { destruct (getWeights_effect (exTrainer US_COMBINED false)) as (t' & A & B & C & _); [apply memory_initialized, exElements_wf|].
    rewrite G1 in A. injection A as <-. rewrite B, C. split; reflexivity. }
  destruct G5 as [G5 G6].
  destruct (numeric (fun _ _ => 0%R) 1 1 t G5 G6 G3) as (t' & rows & D & _).
  exists (fun _ _ => 0%R), 1%R, t, t', rows.
  assert (Con : forall i e, element_is t i e -> entries_are_network t i (te_nn e)).
  { intros i e He. unfold element_is in He. rewrite G2 in He. now destruct (G4 i e He). }
  repeat (split; [assumption|]).
  eapply numeric_changes_networks; eauto; try lia; try lra. rewrite G2. discriminate.
Qed.
