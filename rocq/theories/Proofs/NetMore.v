(** Further facts on NeuralNetwork: textbook forward pass, clamping, output of
    the connection file, modification schemes. *)
From Coq Require Import Reals Lra List Arith Lia Bool FunctionalExtensionality.
From Coquelicot Require Import Coquelicot.
From Coq Require Import List.
From Verif Require Import Base.RealBase Base.SumR Base.Loop Model.NeuralNetwork Spec.NetworkSpec
  Proofs.NetLayout Proofs.NetForward Proofs.NetGrad Proofs.NetReverse Proofs.NetSecond Proofs.NetProofs.
Import ListNotations.
Local Open Scope R_scope.

Lemma unclamped_set net : well_formed net -> forall e, same_shape e net -> every_neuron unclamped e -> acts_set net.
Proof.
  intros [_ Hwf] e (E1 & E2 & E3 & _) Hr l Hl E.
  specialize (Hr l O). rewrite E1, E2, E3 in Hr. specialize (Hr Hl (Hwf l ltac:(lia))). rewrite E in Hr. exact Hr.
Qed.
Lemma output_feed_forward net G k : well_formed net -> every_neuron unclamped (evaluate net G) ->
  (k < numNeurons net (numLayers net - 1))%nat ->
  getOutput (evaluate net G) k =
  forward (numNeurons net) (fun l => documented_activation (actFun net l)) (weight net) (bias net)
          (normalizeNeurons net) G (numLayers net - 1) k.
Proof.
  intros Hwf Hu Hk. pose proof (unclamped_set net Hwf _ (evaluate_shape net G) Hu) as Hact.
  destruct Hwf as [H3 Hpos]. destruct (numLayers net) as [|LT] eqn:EL; [lia|].
  replace (S LT - 1)%nat with LT in * by lia.
  rewrite (ev_output net G LT EL ltac:(lia) Hact) by auto.
  assert (H : forall l k, (l <= LT)%nat -> (k < numNeurons net l)%nat ->
    VAL (numNeurons net) (actFun net) (net_nrm net) (weight net) (bias net) G l k =
    forward (numNeurons net) (fun l => documented_activation (actFun net l)) (weight net) (bias net)
          (normalizeNeurons net) G l k).
  { induction l as [|l IH]; intros q Hl Hq; [reflexivity|]. rewrite VAL_S. rewrite act_documented.
    - rewrite PRE_S. cbn [forward]. f_equal. unfold net_nrm, Rdiv. replace (S l - 1)%nat with l by lia.
      f_equal.
      + f_equal. apply sumn_ext. intros j Hj. rewrite IH by (auto; lia). reflexivity.
      + destruct (normalizeNeurons net); [reflexivity|field].
    - rewrite <- (ev_x net G LT EL ltac:(lia) Hact) by (auto; lia).
      destruct (evaluate_shape net G) as (S1 & S2 & S3 & _). specialize (Hu (S l) q). rewrite S1, S2, S3, EL in Hu.
      apply Hu; auto. lia. }
  apply H; auto.
Qed.

(** The clamped logistic function jumps. *)
Definition jump_net : network :=
  mkNetwork 3 (fun _ => 1%nat) (fun l => if Nat.eqb l 1 then AF_LOGISTIC else AF_IDENTITY) false
    (fun _ _ => mkNeuron 0 0 0 0 0 0 0 0 0 0 0 (fun _ => 1)).
Lemma jump_wf : well_formed jump_net.
Proof. split; [simpl; lia|]. intros. simpl. lia. Qed.
Lemma jump_acts : acts_set jump_net.
Proof. intros l Hl. simpl. destruct (Nat.eqb l 1); discriminate. Qed.
Lemma jump_out G : getOutput (evaluate jump_net G) 0 = act_f AF_LOGISTIC (G 0%nat).
Proof.
  rewrite (ev_output jump_net G 2 eq_refl ltac:(lia) jump_acts) by (simpl; lia).
  unfold VAL, net_nrm. simpl. unfold weight, bias, sumn. simpl.
  change (act_f AF_IDENTITY) with (fun x : R => x). cbv beta.
  replace ((1 * G 0%nat + 0 + 0) * 1) with (G 0%nat) by ring. ring.
Qed.
Lemma logistic_jump : ~ continuous (act_f AF_LOGISTIC) 35.
Proof.
  intros H.
  assert (H1 : is_lim (act_f AF_LOGISTIC) 35 (act_f AF_LOGISTIC 35)).
  { apply is_lim_continuity. apply continuity_pt_filterlim. exact H. }
  set (v := act_f AF_LOGISTIC 35) in *.
  assert (Hv : v < 1).
  { unfold v, act_f, activate, EXP_LIMIT. destruct (Rlt_dec 35 35); [lra|]. destruct (Rlt_dec 35 (-(35))); [lra|].
    pose proof (exp_pos (-(35))). apply (Rmult_lt_reg_r (1 + exp (-(35)))); [lra|]. field_simplify; lra. }
  apply is_lim_spec in H1. simpl in H1. assert (He : 0 < 1 - v) by lra.
  destruct (H1 (mkposreal _ He)) as [d Hd].
  specialize (Hd (35 + d / 2)).
  assert (Hb : ball 35 d (35 + d / 2)).
  { unfold ball; simpl; unfold AbsRing_ball, abs, minus, plus, opp; simpl.
    replace (35 + d / 2 + - (35)) with (d / 2) by ring. pose proof (cond_pos d). rewrite Rabs_right; lra. }
  pose proof (cond_pos d).
  assert (Hne : 35 + d / 2 <> 35) by lra.
  specialize (Hd Hb Hne). simpl in Hd.
  assert (E1 : act_f AF_LOGISTIC (35 + d / 2) = 1).
  { unfold act_f, activate, EXP_LIMIT. destruct (Rlt_dec 35 (35 + d / 2)); [reflexivity|lra]. }
  rewrite E1 in Hd. rewrite Rabs_right in Hd by lra. lra.
Qed.
Lemma clamp_not_differentiable : exists net G k, well_formed net /\ (k < numNeurons net 0)%nat /\
  actFun net 1 = AF_LOGISTIC /\ n_x (neurons (evaluate net G) 1 0) = 35 /\
  ~ ex_derive (fun t => getOutput (evaluate net (upd G k t)) 0) (G k).
Proof.
  exists jump_net, (fun _ => 35), O. split; [apply jump_wf|]. split; [simpl; lia|]. split; [reflexivity|]. split.
  - rewrite (ev_x jump_net (fun _ => 35) 2 eq_refl ltac:(lia) jump_acts) by (simpl; lia).
    unfold PRE, net_nrm, weight, bias, sumn. simpl. ring.
  - intros H. apply logistic_jump. apply (ex_derive_continuous (act_f AF_LOGISTIC) 35).
    apply (ex_derive_ext (fun t => getOutput (evaluate jump_net (upd (fun _ => 35) 0 t)) 0)); [|exact H].
    intros t. rewrite jump_out. now rewrite upd_same.
Qed.

(** Rows of the connection file. *)
Lemma writeConnections_spec net (a0 : nat -> R) : (1 <= numLayers net)%nat ->
  map row_value (writeConnections net) = map (getConnections net a0) (seq 0 (numConnections net)) /\
  map row_index (writeConnections net) = seq 1 (numConnections net).
Proof.
  intros HL. set (N := numNeurons net). set (c := getConnections net a0).
  destruct (getConnections_positions net a0 HL) as [Cw Cb]. fold c N in Cw, Cb.
  rewrite (numConnections_block net HL). fold N.
  unfold writeConnections.
  match goal with |- context [for_range _ _ ?F _] => set (body := F) end.
  set (I := fun (q : nat) (st : nat * list conn_row) => fst st = q /\
    map row_value (snd st) = map c (seq 0 q) /\ map row_index (snd st) = seq 1 q).
  cut (I (block_start N (numLayers net - 1)) (for_range 1 (numLayers net) body (0%nat, []))). { unfold I. intros (?&?&?). auto. }
  apply (for_range_inv (fun i => I (block_start N (i - 1)))); [auto| |].
  { unfold I; simpl. auto. }
  intros i st Hi HI. destruct i as [|i]; [lia|].
  replace (S i - 1)%nat with i in HI by lia. replace (S (S i) - 1)%nat with (S i) by lia. cbn [block_start].
  assert (Hstep : forall q s r, I q s -> row_value r = c q -> row_index r = S q -> I (S q) (S (fst s), snd s ++ [r])).
  { intros q s r (E & A & B) Hr Hi'. unfold I; cbn [fst snd]. rewrite E. split; auto.
    rewrite !map_app, A, B, !seq_S, map_app. simpl. rewrite Hr, Hi'. auto. }
  unfold body. rewrite prev_is. fold N. cbv zeta.
  match goal with |- I _ (for_up _ _ ?X) => assert (HW : I (block_start N i + N i * N (S i))%nat X) end.
  { apply (for_up_inv (fun j => I (block_start N i + j * N (S i))%nat)); [simpl; now rewrite Nat.add_0_r|].
    intros j s Hj Hs.
    replace (block_start N i + S j * N (S i))%nat with (block_start N i + j * N (S i) + N (S i))%nat by lia.
    apply (for_up_inv (fun k => I (block_start N i + j * N (S i) + k)%nat)); [now rewrite Nat.add_0_r|].
    intros k s' Hk Hs'. rewrite Nat.add_succ_r. pose proof Hs' as (E & _). apply Hstep; auto.
    - cbn [row_value]. symmetry. apply (Cw i j k); auto. lia.
    - cbn [row_index]. now rewrite E. }
  revert HW. match goal with |- I _ ?X -> _ => generalize X end. intros s Hs.
  apply (for_up_inv (fun k => I (block_start N i + N i * N (S i) + k)%nat)); [now rewrite Nat.add_0_r|].
  intros k s' Hk Hs'. rewrite Nat.add_succ_r. pose proof Hs' as (E & _). apply Hstep; auto.
  - cbn [row_value]. symmetry. apply (Cb i k); auto. lia.
  - cbn [row_index]. now rewrite E.
Qed.

(** Preconditioning of the output layer. *)
Lemma precondition_spec mean sigma net net' : (1 <= numLayers net)%nat ->
  modifyConnections2 MS_PRECONDITIONOUTPUT mean sigma net = Some net' ->
  let o := (numLayers net - 1)%nat in
  same_shape net' net /\
  (forall l k, l <> o -> neurons net' l k = neurons net l k) /\
  (forall k j, (k < numNeurons net o)%nat -> (j < prevNeurons net o)%nat ->
     n_weights (neurons net' o k) j = n_weights (neurons net o k) j * sigma) /\
  (forall k, (k < numNeurons net o)%nat -> n_bias (neurons net' o k) = n_bias (neurons net o k) + mean).
Proof.
  intros HL H o. unfold modifyConnections2 in H. unfold outputLayer in H. fold o in H. injection H as <-.
  cut ((fun i s => same_shape s net /\
    (forall l k, l <> o -> neurons s l k = neurons net l k) /\
    (forall k j, (k < i)%nat -> (j < prevNeurons net o)%nat -> n_weights (neurons s o k) j = n_weights (neurons net o k) j * sigma) /\
    (forall k, (k < i)%nat -> n_bias (neurons s o k) = n_bias (neurons net o k) + mean) /\
    (forall k, (i <= k)%nat -> neurons s o k = neurons net o k)) (numNeurons net o)
    (for_up (numNeurons net o) (fun i s =>
         let s := for_up (prevNeurons net o) (fun j s =>
           set_neuron s o i (fun n => with_weight j (n_weights n j * sigma) n)) s in
         set_neuron s o i (fun n => with_bias (n_bias n + mean) n)) net)).
  { intros (A & B & C & D & _). split; [exact A|]. split; [exact B|]. split; [exact C|exact D]. }
  apply for_up_inv.
  { split; [apply same_shape_refl|]. repeat split; auto; intros; lia. }
  intros i s Hi (A & B & C & D & E).
  assert (HW : (fun j s' => same_shape s' net /\
     (forall l k, (l <> o \/ k <> i) -> neurons s' l k = neurons s l k) /\
     n_bias (neurons s' o i) = n_bias (neurons s o i) /\
     (forall j', (j' < j)%nat -> n_weights (neurons s' o i) j' = n_weights (neurons net o i) j' * sigma) /\
     (forall j', (j <= j')%nat -> n_weights (neurons s' o i) j' = n_weights (neurons net o i) j')) (prevNeurons net o)
     (for_up (prevNeurons net o) (fun j s => set_neuron s o i (fun n => with_weight j (n_weights n j * sigma) n)) s)).
  { apply for_up_inv.
    { split; [auto|]. split; [auto|]. split; [auto|]. split; [intros; lia|]. intros. now rewrite E by lia. }
    intros j s' Hj (P & Q & Rb & T & U). split; [auto|]. split.
    { intros l k Hne. destruct (Nat.eq_dec l o) as [->|Hl]; [|rewrite set_neuron_layer; auto].
      rewrite set_neuron_other; [auto|]. destruct Hne; auto. }
    rewrite set_neuron_same. simpl. split; [exact Rb|]. split.
    - intros j' Hj'. destruct (Nat.eq_dec j' j) as [->|Hne]; [rewrite upd_same, U by lia; auto|].
      rewrite upd_other by auto. apply T. lia.
    - intros j' Hj'. rewrite upd_other by lia. apply U. lia. }
  revert HW. match goal with |- _ _ ?X -> _ => generalize X end. intros s' (P & Q & Rb & T & U). cbv beta zeta.
  split; [auto|]. split.
  { intros l k Hl. rewrite set_neuron_layer by auto. rewrite Q by auto. auto. }
  split. { intros k j Hk Hj. destruct (Nat.eq_dec k i) as [->|Hne].
    - rewrite set_neuron_same. simpl. apply T; auto.
    - rewrite set_neuron_other by auto. rewrite Q by auto. apply C; auto; lia. }
  split. { intros k Hk. destruct (Nat.eq_dec k i) as [->|Hne].
    - rewrite set_neuron_same. simpl. rewrite Rb. now rewrite E by lia.
    - rewrite set_neuron_other by auto. rewrite Q by auto. apply D; lia. }
  intros k Hk. rewrite set_neuron_other by lia. rewrite Q by (right; lia). apply E. lia.
Qed.

(** Effect on the output of a network with identity output activation. *)
Lemma precondition_output mean sigma net net' G k : well_formed net -> acts_set net ->
  normalizeNeurons net = false -> actFun net (numLayers net - 1) = AF_IDENTITY ->
  modifyConnections2 MS_PRECONDITIONOUTPUT mean sigma net = Some net' ->
  (k < numNeurons net (numLayers net - 1))%nat ->
  let b := bias net (numLayers net - 2) k in
  getOutput (evaluate net' G) k = sigma * (getOutput (evaluate net G) k - b) + b + mean.
Proof.
  intros [H3 Hpos] Hact Hn Hid H Hk b.
  destruct (precondition_spec mean sigma net net' ltac:(lia) H) as ((E1 & E2 & E3 & E4) & F1 & F2 & F3).
  destruct (numLayers net) as [|LT] eqn:EL; [lia|]. replace (S LT - 1)%nat with LT in * by lia.
  assert (Hact' : acts_set net') by (intros l; rewrite E1, E3, <- EL; apply Hact).
  rewrite (ev_output net' G LT E1 ltac:(lia) Hact') by (rewrite E2; auto).
  rewrite (ev_output net G LT EL ltac:(lia) Hact) by auto.
  assert (EV : forall l q, (l < LT)%nat -> (q < numNeurons net l)%nat ->
     VAL (numNeurons net') (actFun net') (net_nrm net') (weight net') (bias net') G l q =
     VAL (numNeurons net) (actFun net) (net_nrm net) (weight net) (bias net) G l q).
  { intros l q Hl Hq. assert (En : net_nrm net' = net_nrm net) by (unfold net_nrm; rewrite E2, E4; reflexivity).
    rewrite E2, E3, En. apply (VAL_ext _ _ _ (LT - 1)); auto; try lia.
    - intros l' j' k' Hl' _ _. unfold weight. rewrite F1 by lia. reflexivity.
    - intros l' k' Hl' _. unfold bias. rewrite F1 by lia. reflexivity. }
  destruct LT as [|m]; [lia|]. rewrite !VAL_S, !PRE_S. rewrite E3, Hid, E2.
  change (act_f AF_IDENTITY) with (fun x : R => x). cbv beta.
  unfold net_nrm. rewrite E4, Hn. unfold b. replace (S (S m) - 2)%nat with m by lia.
  unfold bias at 2. rewrite F3 by auto. change (n_bias (neurons net (S m) k)) with (bias net m k).
  assert (ES : sumn (numNeurons net m) (fun j => weight net' m j k *
      VAL (numNeurons net) (actFun net) (fun _ => 1) (weight net') (bias net') G m j) =
    sumn (numNeurons net m) (fun j => weight net m j k *
      VAL (numNeurons net) (actFun net) (fun _ => 1) (weight net) (bias net) G m j) * sigma).
  { rewrite <- sumn_scal_r. apply sumn_ext. intros j Hj.
    specialize (EV m j ltac:(lia) Hj). unfold net_nrm in EV. rewrite E4, Hn, E2, E3 in EV. rewrite EV.
    unfold weight at 1. rewrite F2; [|auto|unfold prevNeurons; now rewrite Nat.sub_1_r].
    change (n_weights (neurons net (S m) k) j) with (weight net m j k). ring. }
  rewrite ES. ring.
Qed.

(** Nguyen-Widrow: the final loop halves weights of output neuron 0 only, and
    as many of them as there are output neurons. *)
Definition nw_net : network :=
  mkNetwork 3 (fun l => if Nat.eqb l 1 then 2%nat else 1%nat) (fun _ => AF_IDENTITY) false
    (fun _ _ => mkNeuron 0 0 0 0 0 0 0 0 0 0 0 (fun _ => 1)).
Lemma nguyen_widrow_output : exists net net', well_formed net /\
  modifyConnections MS_NGUYENWIDROW net = Some net' /\
  exists j j', (j < prevNeurons net (outputLayer net))%nat /\ (j' < prevNeurons net (outputLayer net))%nat /\
  n_weights (neurons net (outputLayer net) 0) j = 1 /\ n_weights (neurons net (outputLayer net) 0) j' = 1 /\
  n_weights (neurons net' (outputLayer net) 0) j = / 2 /\ n_weights (neurons net' (outputLayer net) 0) j' = 1.
Proof.
  exists nw_net. eexists. split. { split; [simpl; lia|]. intros l _. simpl. destruct (Nat.eqb l 1); lia. }
  split; [reflexivity|]. exists 0%nat, 1%nat.
  split; [simpl; lia|]. split; [simpl; lia|]. split; [reflexivity|]. split; [reflexivity|]. split.
  - simpl. unfold upd; simpl. ring.
  - simpl. unfold upd; simpl. reflexivity.
Qed.

(** Zeroing the biases / output weights. *)
Lemma zero_bias_spec net net' : modifyConnections MS_ZEROBIAS net = Some net' ->
  same_shape net' net /\ (forall l k, n_weights (neurons net' l k) = n_weights (neurons net l k)) /\
  (forall l k, (l < numLayers net)%nat -> (k < numNeurons net l)%nat -> n_bias (neurons net' l k) = 0).
Proof.
  intros H. injection H as <-.
  apply (for_up_inv (fun i s => same_shape s net /\ (forall l k, n_weights (neurons s l k) = n_weights (neurons net l k)) /\
    (forall l k, (l < i)%nat -> (k < numNeurons net l)%nat -> n_bias (neurons s l k) = 0))).
  { split; [apply same_shape_refl|]. split; auto. intros; lia. }
  intros i s Hi (A & B & C).
  cut ((fun j s' => same_shape s' net /\ (forall l k, n_weights (neurons s' l k) = n_weights (neurons net l k)) /\
    (forall l k, (l < i)%nat -> (k < numNeurons net l)%nat -> n_bias (neurons s' l k) = 0) /\
    (forall k, (k < j)%nat -> n_bias (neurons s' i k) = 0)) (numNeurons net i)
    (for_up (numNeurons net i) (fun j s => set_neuron s i j (with_bias 0)) s)).
  { intros (P & Q & T & U). split; [exact P|]. split; [exact Q|]. intros l k Hl Hk.
    destruct (Nat.eq_dec l i) as [->|]; [apply U; auto|apply T; auto; lia]. }
  apply for_up_inv.
  { split; auto. split; auto. split; auto. intros; lia. }
  intros j s' Hj (P & Q & T & U). split; [auto|]. split.
  { intros l k. destruct (Nat.eq_dec l i) as [->|Hl]; [|rewrite set_neuron_layer; auto].
    destruct (Nat.eq_dec k j) as [->|Hk]; [rewrite set_neuron_same; simpl; auto|rewrite set_neuron_other; auto]. }
  split. { intros l k Hl Hk. rewrite set_neuron_layer by lia. auto. }
  intros k Hk. destruct (Nat.eq_dec k j) as [->|Hne]; [now rewrite set_neuron_same|rewrite set_neuron_other by auto; apply U; lia].
Qed.

(** Statistics over any history of evaluations. *)
Lemma evaluate_stats net G l k : (l < numLayers net)%nat -> (k < numNeurons net l)%nat ->
  let n := neurons net l k in let n' := neurons (evaluate net G) l k in
  let v := seen (evaluate net G) l k in
  n_count n' = S (n_count n) /\ n_sum n' = n_sum n + v /\ n_sum2 n' = n_sum2 n + v * v /\
  n_min n' = Rmin v (n_min n) /\ n_max n' = Rmax v (n_max n).
Proof.
  intros Hl Hk. cbv zeta. unfold evaluate, propagate.
  destruct (setInput_spec G net) as (I0 & I2 & I3 & I4).
  destruct I0 as (E1 & E2 & E3 & E4).
  set (St := fun v (n n' : neuron) => n_count n' = S (n_count n) /\ n_sum n' = n_sum n + v /\ n_sum2 n' = n_sum2 n + v * v /\
     n_min n' = Rmin v (n_min n) /\ n_max n' = Rmax v (n_max n)).
  assert (H : (fun i s => same_shape s net /\
     ((l < i)%nat -> St (seen s l k) (neurons net l k) (neurons s l k)) /\
     ((i <= l)%nat -> neurons s l k = neurons net l k)) (numLayers (setInput G net))
     (for_range 1 (numLayers (setInput G net)) propagateLayer (setInput G net))).
  { apply for_range_inv.
    - rewrite E1; lia.
    - split; [repeat split; auto|]. split.
      + intros Hl0. assert (l = 0)%nat by lia. subst l. unfold seen. simpl Nat.eqb. cbv iota.
        rewrite I3 by auto. unfold St, with_stats, with_value; simpl. auto.
      + intros Hl1. now rewrite I2 by lia.
    - intros i s Hi (A & B & C).
      destruct (propagateLayer_spec i s ltac:(lia)) as (Q1 & Q2 & Q3 & Q4).
      destruct A as (F1 & F2 & F3 & F4).
      split; [eapply same_shape_trans; [exact Q1|repeat split; auto]|]. split.
      + intros Hli. destruct (Nat.eq_dec l i) as [->|Hne].
        * assert (EN : neurons (propagateLayer i s) i k = new_neuron s i k) by (apply Q3; now rewrite F2).
          unfold seen. replace (Nat.eqb i 0) with false by (symmetry; apply Nat.eqb_neq; lia).
          rewrite EN. unfold St, new_neuron. rewrite C by lia.
          destruct (activate (actFun s i) (preact s i k)) as [[[? ?] ?]|]; simpl; auto.
        * unfold seen. rewrite Q2 by auto. apply B. lia.
      + intros Hli. rewrite Q2 by lia. apply C. lia. }
  destruct H as (_ & H & _). apply H. rewrite E1; auto.
Qed.
Lemma reset_stats net l k : (l < numLayers net)%nat -> (k < numNeurons net l)%nat ->
  let n := neurons (resetNeuronStatistics net) l k in
  n_count n = 0%nat /\ n_sum n = 0 /\ n_sum2 n = 0 /\ n_min n = nn_dbl_max /\ n_max n = - nn_dbl_max.
Proof.
  intros Hl Hk. cbv zeta. unfold resetNeuronStatistics.
  set (Z := fun n => n_count n = 0%nat /\ n_sum n = 0 /\ n_sum2 n = 0 /\ n_min n = nn_dbl_max /\ n_max n = - nn_dbl_max).
  match goal with |- context [for_up _ ?F net] => set (body := F) end.
  assert (H : (fun i s => same_shape s net /\ ((l < i)%nat -> Z (neurons s l k))) (numLayers net) (for_up (numLayers net) body net)).
  { apply for_up_inv; [split; [apply same_shape_refl|intros; lia]|].
    intros i s Hi [A B]. unfold body.
    assert (HH : (fun j s' => same_shape s' net /\ ((l < i)%nat -> Z (neurons s' l k)) /\ ((l = i /\ k < j)%nat -> Z (neurons s' l k)))
       (numNeurons s i) (for_up (numNeurons s i) (fun j s => set_neuron s i j (fun n =>
      mkNeuron 0 (n_x n) (n_value n) (n_dfdx n) (n_d2fdx2 n) (n_bias n) (n_dxdG n)
               nn_dbl_max (- nn_dbl_max) 0 0 (n_weights n))) s)).
    { apply for_up_inv; [split; [auto|split; [auto|intros; lia]]|].
      intros j s' Hj (P & Q & T). split; [auto|]. split.
      - intros Hli. rewrite set_neuron_layer by lia. auto.
      - intros [-> Hkj]. destruct (Nat.eq_dec k j) as [->|Hne].
        + rewrite set_neuron_same. unfold Z; simpl; auto.
        + rewrite set_neuron_other by auto. apply T. lia. }
    destruct A as (F1 & F2 & _). destruct HH as (P & Q & T). split; [exact P|]. intros Hli.
    destruct (Nat.eq_dec l i) as [->|Hne]; [apply T; rewrite F2; auto|apply Q; lia]. }
  destruct H as [_ H]. apply H; auto.
Qed.
Lemma trace_shape net Gs : same_shape (fold_left evaluate Gs net) net.
Proof. revert net. induction Gs as [|G Gs IH]; intros net; simpl; [apply same_shape_refl|].
  eapply same_shape_trans; [apply IH|apply evaluate_shape]. Qed.
Lemma history_stats Gs : forall net l k, (l < numLayers net)%nat -> (k < numNeurons net l)%nat ->
  let n := neurons net l k in let n' := neurons (fold_left evaluate Gs net) l k in
  let vs := seen_values net Gs l k in
  n_count n' = (n_count n + length Gs)%nat /\ n_sum n' = n_sum n + rsum vs /\
  n_sum2 n' = n_sum2 n + rsum (map (fun v => v * v) vs) /\
  n_min n' = fold_left Rmin vs (n_min n) /\ n_max n' = fold_left Rmax vs (n_max n).
Proof.
  induction Gs as [|G Gs IH]; intros net l k Hl Hk; cbv zeta.
  - simpl. rewrite Nat.add_0_r, !Rplus_0_r. auto.
  - destruct (evaluate_shape net G) as (E1 & E2 & _).
    destruct (IH (evaluate net G) l k) as (A & B & C & D & E); [now rewrite E1|now rewrite E2|].
    destruct (evaluate_stats net G l k Hl Hk) as (A' & B' & C' & D' & E').
    cbn [fold_left seen_values map rsum length].
    rewrite A, B, C, D, E, A', B', C', D', E'. repeat split; try lia; try ring.
    + f_equal. apply Rmin_comm.
    + f_equal. apply Rmax_comm.
Qed.
Lemma fold_min_spec vs : forall m, let r := fold_left Rmin vs m in r <= m /\ (forall v, In v vs -> r <= v) /\ (r = m \/ In r vs).
Proof.
  induction vs as [|v vs IH]; intros m; cbv zeta; simpl; [repeat split; auto; try lra; intros ? []|].
  destruct (IH (Rmin m v)) as (A & B & C). pose proof (Rmin_l m v). pose proof (Rmin_r m v). split; [lra|]. split.
  - intros w [->|Hw]; [lra|auto].
  - destruct C as [C|C]; [|auto]. rewrite C. unfold Rmin. destruct (Rle_dec m v); auto.
Qed.
Lemma fold_max_spec vs : forall m, let r := fold_left Rmax vs m in m <= r /\ (forall v, In v vs -> v <= r) /\ (r = m \/ In r vs).
Proof.
  induction vs as [|v vs IH]; intros m; cbv zeta; simpl; [repeat split; auto; try lra; intros ? []|].
  destruct (IH (Rmax m v)) as (A & B & C). pose proof (Rmax_l m v). pose proof (Rmax_r m v). split; [lra|]. split.
  - intros w [->|Hw]; [lra|auto].
  - destruct C as [C|C]; [|auto]. rewrite C. unfold Rmax. destruct (Rle_dec m v); auto.
Qed.
Lemma statistics_history net Gs l k : (l < numLayers net)%nat -> (k < numNeurons net l)%nat -> Gs <> [] ->
  let n := neurons (fold_left evaluate Gs (resetNeuronStatistics net)) l k in
  let vs := seen_values (resetNeuronStatistics net) Gs l k in
  (forall v, In v vs -> - nn_dbl_max <= v <= nn_dbl_max) ->
  n_count n = length vs /\ n_sum n = rsum vs /\ n_sum2 n = rsum (map (fun v => v * v) vs) /\
  (In (n_min n) vs /\ forall v, In v vs -> n_min n <= v) /\ (In (n_max n) vs /\ forall v, In v vs -> v <= n_max n).
Proof.
  intros Hl Hk Hne. cbv zeta. intros Hb.
  destruct (reset_stats net l k Hl Hk) as (A & B & C & D & E).
  assert (Hsh : same_shape (resetNeuronStatistics net) net).
  { unfold resetNeuronStatistics. apply (for_up_inv (fun _ s => same_shape s net)); [apply same_shape_refl|].
    intros i s Hi HA. apply (for_up_inv (fun _ s => same_shape s net)); [auto|]. intros; auto. }
  destruct Hsh as (S1 & S2 & _).
  destruct (history_stats Gs (resetNeuronStatistics net) l k) as (A' & B' & C' & D' & E'); [now rewrite S1|now rewrite S2|].
  rewrite A', B', C', D', E', A, B, C, D, E.
  assert (Hlen : forall m, length (seen_values m Gs l k) = length Gs).
  { clear. induction Gs; intros m; simpl; auto. }
  rewrite Hlen, !Rplus_0_l. split; [auto|]. split; [auto|]. split; [auto|].
  destruct (fold_min_spec (seen_values (resetNeuronStatistics net) Gs l k) nn_dbl_max) as (M1 & M2 & M3).
  destruct (fold_max_spec (seen_values (resetNeuronStatistics net) Gs l k) (- nn_dbl_max)) as (N1 & N2 & N3).
  destruct (seen_values (resetNeuronStatistics net) Gs l k) as [|v vs] eqn:EV.
  { exfalso. specialize (Hlen (resetNeuronStatistics net)). rewrite EV in Hlen. destruct Gs; [congruence|discriminate]. }
  split; split; auto.
  - destruct M3 as [M3|M3]; [|auto]. specialize (M2 v (or_introl eq_refl)). specialize (Hb v (or_introl eq_refl)).
    assert (v = nn_dbl_max) by lra. left. rewrite M3. auto.
  - destruct N3 as [N3|N3]; [|auto]. specialize (N2 v (or_introl eq_refl)). specialize (Hb v (or_introl eq_refl)).
    assert (v = - nn_dbl_max) by lra. left. rewrite N3. auto.
Qed.
