From Coq Require Import List Arith Reals Bool Lia Lra.
From Verif Require Import Base.Loop Model.SymFunctions Spec.NetworkSpec Model.NeuralNetwork Model.UpdatePlan Spec.UpdatePlanSpec
  Model.TrainWeights Spec.TrainWeightsSpec Proofs.NetLayout Proofs.UpdatePlanProofs.
Import ListNotations.
Local Open Scope nat_scope.

(** ** Networks *)
Lemma wf_layers net : well_formed net -> 1 <= numLayers net.
Proof. intros [H _]. lia. Qed.
Lemma wf_conn net : well_formed net -> 1 <= numConnections net.
Proof.
  intros [H1 H2]. rewrite (numConnections_block net) by lia.
  pose proof (block_mono net 1 (numLayers net - 1) ltac:(lia)) as M. cbn [block_start] in M.
  specialize (H2 1 ltac:(lia)). lia.
Qed.
Lemma numConnections_shape a b : same_shape a b -> numConnections a = numConnections b.
Proof.
  intros (E1 & E2 & _). unfold numConnections, numWeights, numBiases, prevNeurons. now rewrite E1, E2.
Qed.
Lemma shape_set c net : 1 <= numLayers net -> same_shape (setConnections c net) net.
Proof. intros H. now destruct (setConnections_spec net c H). Qed.
Lemma numConnections_set c net : 1 <= numLayers net -> numConnections (setConnections c net) = numConnections net.
Proof. intros H. apply numConnections_shape, shape_set, H. Qed.
Lemma wf_shape a b : same_shape a b -> well_formed b -> well_formed a.
Proof. intros (E1 & E2 & _) [H1 H2]. split; [lia|]. intros l Hl. rewrite E2. apply H2. lia. Qed.

(** Connection p of a network. *)
Definition conn (net : network) (p : nat) : R := getConnections net (fun _ => 0%R) p.
Lemma conn_any net a0 p : 1 <= numLayers net -> p < numConnections net -> getConnections net a0 p = conn net p.
Proof.
  intros HL Hp. unfold conn.
  destruct (getConnections_positions net a0 HL) as [W1 B1].
  destruct (getConnections_positions net (fun _ => 0%R) HL) as [W2 B2].
  pose proof Hp as Hp'. rewrite (numConnections_block net HL) in Hp'.
  destruct (position_cover net (numLayers net - 1) p Hp') as [(l & j & k & Hl & Hj & Hk & ->)|(l & k & Hl & Hk & ->)].
  - rewrite W1, W2; auto; lia.
  - rewrite B1, B2; auto; lia.
Qed.
Lemma conn_weight net l j k : 1 <= numLayers net -> S l < numLayers net -> j < numNeurons net l -> k < numNeurons net (S l) ->
  conn net (weight_position (numNeurons net) l j k) = weight net l j k.
Proof. intros. unfold conn. destruct (getConnections_positions net (fun _ => 0%R) H) as [W _]. now apply W. Qed.
Lemma conn_bias net l k : 1 <= numLayers net -> S l < numLayers net -> k < numNeurons net (S l) ->
  conn net (bias_position (numNeurons net) l k) = bias net l k.
Proof. intros. unfold conn. destruct (getConnections_positions net (fun _ => 0%R) H) as [_ B]. now apply B. Qed.
Lemma weight_pos_lt net l j k : 1 <= numLayers net -> S l < numLayers net -> j < numNeurons net l -> k < numNeurons net (S l) ->
  weight_position (numNeurons net) l j k < numConnections net.
Proof.
  intros. rewrite (numConnections_block net) by assumption.
  pose proof (weight_in_block net l j k H1 H2). pose proof (block_mono net (S l) (numLayers net - 1) ltac:(lia)). lia.
Qed.
Lemma bias_pos_lt net l k : 1 <= numLayers net -> S l < numLayers net -> k < numNeurons net (S l) ->
  bias_position (numNeurons net) l k < numConnections net.
Proof.
  intros. rewrite (numConnections_block net) by assumption.
  pose proof (bias_in_block net l k H1). pose proof (block_mono net (S l) (numLayers net - 1) ltac:(lia)). lia.
Qed.
Lemma same_network_conn a b : 1 <= numLayers a -> same_shape a b -> (forall p, p < numConnections a -> conn a p = conn b p) ->
  same_network a b.
Proof.
  intros HL HS H. pose proof HS as (E1 & E2 & E3 & E4). repeat split; auto.
  - intros l j k Hl Hj Hk. rewrite <- (conn_weight a l j k), <- (conn_weight b l j k); try (rewrite <- ?E1, <- ?E2; assumption).
    rewrite <- E2. apply H. now apply weight_pos_lt.
  - intros l k Hl Hk. rewrite <- (conn_bias a l k), <- (conn_bias b l k); try (rewrite <- ?E1, <- ?E2; assumption).
    rewrite <- E2. apply H. now apply bias_pos_lt.
Qed.
Lemma conn_set net c p : 1 <= numLayers net -> p < numConnections net -> conn (setConnections c net) p = c p.
Proof. intros. now apply set_get. Qed.

(** ** One element *)
Definition slot (h : bool) (e : telement) : nat := numConnections (te_nn e) + (if h then 1 else 0).
Definition good (e : telement) : Prop := well_formed (te_nn e).

Lemma readNetwork_spec nn w pos : well_formed nn -> pos + numConnections nn <= wv_size w ->
  exists w', readNetwork nn w pos = Some w' /\ wv_size w' = wv_size w /\
    (forall p, p < pos \/ pos + numConnections nn <= p -> wv_at w' p = wv_at w p) /\
    (forall j, j < numConnections nn -> wv_at w' (pos + j) = conn nn j).
Proof.
  intros Wf Hp. pose proof (wf_conn nn Wf). pose proof (wf_layers nn Wf). unfold readNetwork.
  destruct (Nat.ltb_spec pos (wv_size w)); [|lia]. destruct (Nat.leb_spec (pos + numConnections nn) (wv_size w)); [|lia].
  eexists. split; [reflexivity|]. cbn [wv_size wv_at]. split; [reflexivity|]. split.
  - intros p [Hq|Hq].
    + destruct (Nat.leb_spec pos p); [lia|reflexivity].
    + destruct (Nat.leb_spec pos p); [|lia]. rewrite getConnections_frame by lia. f_equal. lia.
  - intros j Hj. destruct (Nat.leb_spec pos (pos + j)); [|lia]. replace (pos + j - pos) with j by lia. now apply conn_any.
Qed.
Lemma writeNetwork_spec nn w pos : well_formed nn -> pos + numConnections nn <= wv_size w ->
  writeNetwork nn w pos = Some (setConnections (fun k => wv_at w (pos + k)) nn).
Proof.
  intros Wf Hp. pose proof (wf_conn nn Wf). unfold writeNetwork.
  destruct (Nat.ltb_spec pos (wv_size w)); [|lia]. destruct (Nat.leb_spec (pos + numConnections nn) (wv_size w)); [|lia]. reflexivity.
Qed.

(** ** All elements in one vector *)
Definition start (h : bool) (es : list telement) (i : nat) : nat := list_sum (firstn i (map (slot h) es)).
Definition total (h : bool) (es : list telement) : nat := list_sum (map (slot h) es).
Lemma start_S h e es i : start h (e :: es) (S i) = slot h e + start h es i.
Proof. reflexivity. Qed.
Lemma start_total h es : forall i e, nth_error es i = Some e -> start h es i + slot h e <= total h es.
Proof.
  induction es as [|a es IH]; intros [|i] e H; try discriminate.
  - injection H as ->. unfold start, total. cbn. lia.
  - cbn in H. specialize (IH i e H). rewrite start_S. change (total h (a :: es)) with (slot h a + total h es). lia.
Qed.

Lemma get_loop h : forall es pos w, (forall e, In e es -> good e) -> pos + total h es <= wv_size w ->
  exists w', ofold (getOne h) es (pos, w) = Some (pos + total h es, w') /\ wv_size w' = wv_size w /\
    (forall p, p < pos \/ pos + total h es <= p -> wv_at w' p = wv_at w p) /\
    (forall i e, nth_error es i = Some e ->
       (forall j, j < numConnections (te_nn e) -> wv_at w' (pos + start h es i + j) = conn (te_nn e) j) /\
       (h = true -> wv_at w' (pos + start h es i + numConnections (te_nn e)) = sqrt (te_hardness e))).
Proof.
  induction es as [|a es IH]; intros pos w G Hp.
  - exists w. cbn [ofold]. unfold total. cbn [map list_sum fold_right]. rewrite Nat.add_0_r. repeat split; auto.
    + destruct i; discriminate.
    + destruct i; discriminate.
  - change (total h (a :: es)) with (slot h a + total h es) in *. unfold slot in Hp.
    destruct (readNetwork_spec (te_nn a) w pos) as (w1 & R1 & S1 & F1 & C1); [apply G; now left|lia|].
    set (nc := numConnections (te_nn a)) in *.
    assert (exists w2, getOne h a (pos, w) = Some (pos + slot h a, w2) /\ wv_size w2 = wv_size w /\
              (forall p, p < pos \/ pos + slot h a <= p -> wv_at w2 p = wv_at w p) /\
              (forall j, j < nc -> wv_at w2 (pos + j) = conn (te_nn a) j) /\
              (h = true -> wv_at w2 (pos + nc) = sqrt (te_hardness a))) as (w2 & R2 & S2 & F2 & C2 & H2).
    { cbn [getOne]. rewrite R1. cbv iota zeta. fold nc. unfold slot. fold nc. destruct h.
      - unfold wv_set. destruct (Nat.ltb_spec (pos + nc) (wv_size w1)); [|lia].
        eexists. split; [f_equal; f_equal; lia|]. cbn [wv_size wv_at]. split; [exact S1|]. split; [|split].
        + intros p Hq. destruct (Nat.eqb_spec p (pos + nc)); [lia|]. apply F1. lia.
        + intros j Hj. destruct (Nat.eqb_spec (pos + j) (pos + nc)); [lia|]. now apply C1.
        + intros _. now rewrite Nat.eqb_refl.
      - exists w1. split; [f_equal; f_equal; lia|]. split; [exact S1|]. split; [|split]; auto.
        + intros p Hq. apply F1. lia.
        + discriminate. }
    cbn [ofold]. rewrite R2.
    destruct (IH (pos + slot h a) w2) as (w3 & R3 & S3 & F3 & C3).
    { intros e He. apply G. now right. } { unfold slot in *. fold nc. lia. }
    exists w3. rewrite R3. split; [f_equal; f_equal; lia|]. split; [lia|]. split.
    + intros p Hq. rewrite F3 by lia. apply F2. lia.
    + intros [|i] e He.
      * injection He as <-. unfold start. cbn [firstn map list_sum fold_right]. rewrite Nat.add_0_r. fold nc. split.
        -- intros j Hj. rewrite F3 by (unfold slot; fold nc; lia). now apply C2.
        -- intros Hh. rewrite F3 by (unfold slot; fold nc; rewrite Hh; lia). now apply H2.
      * cbn in He. rewrite start_S. specialize (C3 i e He).
        replace (pos + (slot h a + start h es i)) with (pos + slot h a + start h es i) by lia. exact C3.
Qed.

Fixpoint setAll (h : bool) (w : wvector) (pos : nat) (es : list telement) : list telement :=
  match es with
  | [] => []
  | e :: es =>
      mkTElement (setConnections (fun k => wv_at w (pos + k)) (te_nn e))
                 (if h then (wv_at w (pos + numConnections (te_nn e)) ^ 2)%R else te_hardness e)
        :: setAll h w (pos + slot h e) es
  end.
Lemma set_loop h w : forall es pos done, (forall e, In e es -> good e) -> pos + total h es <= wv_size w ->
  ofold (setOne h w) es (pos, done) = Some (pos + total h es, done ++ setAll h w pos es).
Proof.
  induction es as [|a es IH]; intros pos done G Hp.
  - cbn [ofold setAll]. unfold total. cbn [map list_sum fold_right]. rewrite Nat.add_0_r, app_nil_r. reflexivity.
  - change (total h (a :: es)) with (slot h a + total h es) in *. cbn [ofold]. unfold setOne at 1.
    assert (Wf : well_formed (te_nn a)) by (apply G; now left).
    rewrite writeNetwork_spec; [|exact Wf|unfold slot in Hp; lia]. cbv iota zeta.
    rewrite numConnections_set by (now apply wf_layers).
    assert (G' : forall e, In e es -> good e) by (intros e He; apply G; now right).
    cbn [setAll]. destruct h.
    + unfold wv_get. destruct (Nat.ltb_spec (pos + numConnections (te_nn a)) (wv_size w)); [|unfold slot in Hp; lia].
      unfold slot in *. replace (S (pos + numConnections (te_nn a))) with (pos + (numConnections (te_nn a) + 1)) by lia.
      rewrite IH; [|exact G'|lia]. rewrite <- app_assoc. f_equal. f_equal. lia.
    + replace (pos + numConnections (te_nn a)) with (pos + slot false a) by (unfold slot; lia).
      rewrite IH; [|exact G'|lia]. rewrite <- app_assoc. f_equal. f_equal. lia.
Qed.
Lemma setAll_length h w es : forall pos, length (setAll h w pos es) = length es.
Proof. induction es; intros; cbn; auto. Qed.
Lemma setAll_nth h w : forall es pos i e, nth_error es i = Some e ->
  nth_error (setAll h w pos es) i =
    Some (mkTElement (setConnections (fun k => wv_at w (pos + start h es i + k)) (te_nn e))
                     (if h then (wv_at w (pos + start h es i + numConnections (te_nn e)) ^ 2)%R else te_hardness e)).
Proof.
  induction es as [|a es IH]; intros pos [|i] e H; try discriminate.
  - injection H as ->. cbn [setAll nth_error]. unfold start. cbn [firstn list_sum fold_right map]. now rewrite Nat.add_0_r.
  - cbn in H. cbn [setAll nth_error]. rewrite (IH _ i e H), start_S.
    now replace (pos + (slot h a + start h es i)) with (pos + slot h a + start h es i) by lia.
Qed.
Lemma setAll_good h w es : forall pos, (forall e, In e es -> good e) -> forall e, In e (setAll h w pos es) -> good e.
Proof.
  induction es as [|a es IH]; intros pos G e He; [contradiction|]. cbn [setAll] in He. destruct He as [<-|He].
  - unfold good. cbn [te_nn]. assert (Wf : well_formed (te_nn a)) by (apply G; now left).
    eapply wf_shape; [apply shape_set; now apply wf_layers|exact Wf].
  - eapply IH; [|exact He]. intros x Hx. apply G. now right.
Qed.
Lemma setAll_slots h w h' es : forall pos, (forall e, In e es -> good e) -> map (slot h') (setAll h w pos es) = map (slot h') es.
Proof.
  induction es as [|a es IH]; intros pos G; [reflexivity|]. cbn [setAll map]. f_equal.
  - unfold slot. cbn [te_nn]. rewrite numConnections_set; [reflexivity|]. apply wf_layers, G. now left.
  - apply IH. intros x Hx. apply G. now right.
Qed.
Lemma setAll_conns h w es : forall pos, (forall e, In e es -> good e) ->
  map (fun e => numConnections (te_nn e)) (setAll h w pos es) = map (fun e => numConnections (te_nn e)) es.
Proof.
  induction es as [|a es IH]; intros pos G; [reflexivity|]. cbn [setAll map]. f_equal.
  - cbn [te_nn]. rewrite numConnections_set; [reflexivity|]. apply wf_layers, G. now left.
  - apply IH. intros x Hx. apply G. now right.
Qed.
Lemma cover h : forall es p, p < total h es -> exists i e j, nth_error es i = Some e /\ j < slot h e /\ p = start h es i + j.
Proof.
  induction es as [|a es IH]; intros p Hp; [unfold total in Hp; cbn in Hp; lia|].
  change (total h (a :: es)) with (slot h a + total h es) in Hp.
  destruct (Nat.lt_ge_cases p (slot h a)) as [L|L].
  - exists 0, a, p. repeat split; auto.
  - destruct (IH (p - slot h a) ltac:(lia)) as (i & e & j & H1 & H2 & H3). exists (S i), e, j. rewrite start_S. repeat split; auto. lia.
Qed.

(** ** Relation to the layout *)
Definition fit (t : trainer) : bool := match tr_strat t with US_COMBINED => tr_hardness t | US_ELEMENT => false end.
Lemma fit_iff t : hardness_fitted t <-> fit t = true.
Proof. unfold hardness_fitted, fit. destruct (tr_strat t); intuition congruence. Qed.

Lemma layout_slots st h es i e : nth_error es i = Some e ->
  slots (layoutOf st h es) i = slot (match st with US_COMBINED => h | US_ELEMENT => false end) e.
Proof.
  intros H. unfold slots, layoutOf, slot. cbn [l_conn l_strat l_hardness].
  rewrite (nth_error_nth _ i 0 (map_nth_error (fun e => numConnections (te_nn e)) i es H)). destruct st; reflexivity.
Qed.
Lemma map_slots st h es :
  map (slots (layoutOf st h es)) (seq 0 (length es)) = map (slot (match st with US_COMBINED => h | US_ELEMENT => false end)) es.
Proof.
  apply nth_ext with (d := 0) (d' := 0); [now rewrite !map_length, seq_length|].
  intros n Hn. rewrite map_length, seq_length in Hn.
  destruct (nth_error es n) as [e|] eqn:E; [|apply nth_error_None in E; lia].
  rewrite (nth_error_nth _ n 0 (map_nth_error (slot _) n es E)).
  assert (Hs : nth_error (seq 0 (length es)) n = Some n).
  { rewrite (nth_error_nth' _ 0) by (now rewrite seq_length). f_equal. now rewrite seq_nth. }
  rewrite (nth_error_nth _ n 0 (map_nth_error (slots _) n _ Hs)). now apply layout_slots.
Qed.
Lemma map_slots_firstn st h es i : i <= length es ->
  map (slots (layoutOf st h es)) (seq 0 i) = firstn i (map (slot (match st with US_COMBINED => h | US_ELEMENT => false end)) es).
Proof.
  intros Hi. rewrite <- map_slots, firstn_map. f_equal.
  replace (length es) with (i + (length es - i)) by lia. rewrite seq_app, firstn_app, seq_length, Nat.sub_diag. cbn.
  rewrite app_nil_r. symmetry. apply firstn_all2. now rewrite seq_length.
Qed.
Lemma numElements_layout st h es : numElements (layoutOf st h es) = length es.
Proof. unfold numElements, layoutOf. cbn. now rewrite map_length. Qed.

Lemma position_combined t i j : tr_strat t = US_COMBINED -> i <= length (tr_elements t) ->
  position (layout_of t) i j = start (tr_hardness t) (tr_elements t) i + j.
Proof.
  intros E Hi. unfold position, layout_of. rewrite E. cbn [layoutOf l_strat].
  rewrite (map_slots_firstn US_COMBINED) by exact Hi. reflexivity.
Qed.
Lemma position_element t i j : tr_strat t = US_ELEMENT -> position (layout_of t) i j = j.
Proof. intros E. unfold position, layout_of. rewrite E. reflexivity. Qed.
Lemma updater_combined t i : tr_strat t = US_COMBINED -> updater (layout_of t) i = 0.
Proof. intros E. unfold updater, layout_of. rewrite E. reflexivity. Qed.
Lemma updater_element t i : tr_strat t = US_ELEMENT -> updater (layout_of t) i = i.
Proof. intros E. unfold updater, layout_of. rewrite E. reflexivity. Qed.

Lemma init_combined t : tr_strat t = US_COMBINED -> initialized t ->
  exists w, tr_weights t = [w] /\ wv_size w = total (tr_hardness t) (tr_elements t).
Proof.
  intros E [_ S]. unfold layout_of in S. rewrite E in S. unfold numUpdaters in S. cbn [layoutOf l_strat] in S.
  cbn [seq map] in S. destruct (tr_weights t) as [|w [|]]; try discriminate. exists w. split; [reflexivity|].
  injection S as S. rewrite S. unfold width. cbn [l_strat].
  change (mkLayout PM_TRAIN_ALL JM_SUM US_COMBINED (tr_hardness t) (map (fun e => numConnections (te_nn e)) (tr_elements t)) [])
    with (layoutOf US_COMBINED (tr_hardness t) (tr_elements t)).
  rewrite numElements_layout, map_slots. reflexivity.
Qed.
Lemma init_element t : tr_strat t = US_ELEMENT -> initialized t ->
  map wv_size (tr_weights t) = map (fun e => numConnections (te_nn e)) (tr_elements t).
Proof.
  intros E [_ S]. rewrite S. unfold layout_of. rewrite E. unfold numUpdaters. cbn [layoutOf l_strat].
  change (mkLayout PM_TRAIN_ALL JM_SUM US_ELEMENT (tr_hardness t) (map (fun e => numConnections (te_nn e)) (tr_elements t)) [])
    with (layoutOf US_ELEMENT (tr_hardness t) (tr_elements t)).
  rewrite numElements_layout. unfold width. cbn [l_strat].
  change (map (slots (layoutOf US_ELEMENT (tr_hardness t) (tr_elements t))) (seq 0 (length (tr_elements t))) = map (fun e => numConnections (te_nn e)) (tr_elements t)).
  rewrite map_slots. apply map_ext. intros a. unfold slot. lia.
Qed.
Lemma layout_conns t t' : tr_strat t' = tr_strat t -> tr_hardness t' = tr_hardness t ->
  map (fun e => numConnections (te_nn e)) (tr_elements t') = map (fun e => numConnections (te_nn e)) (tr_elements t) ->
  layout_of t' = layout_of t.
Proof. intros E1 E2 E3. unfold layout_of, layoutOf. now rewrite E1, E2, E3. Qed.

(** ** getEach, setEach *)
Lemma get_each : forall es ws, (forall e, In e es -> good e) -> map wv_size ws = map (fun e => numConnections (te_nn e)) es ->
  exists ws', getEach es ws = Some ws' /\ map wv_size ws' = map wv_size ws /\
    (forall i e, nth_error es i = Some e -> exists w', nth_error ws' i = Some w' /\ wv_size w' = numConnections (te_nn e) /\
       forall j, j < numConnections (te_nn e) -> wv_at w' j = conn (te_nn e) j).
Proof.
  induction es as [|a es IH]; intros [|w ws] G S; try discriminate.
  - exists []. repeat split. intros [|]; discriminate.
  - cbn [map] in S. injection S as S1 S2.
    destruct (readNetwork_spec (te_nn a) w 0) as (w1 & R1 & Z1 & F1 & C1); [apply G; now left|lia|].
    destruct (IH ws) as (ws' & R2 & Z2 & C2); [intros e He; apply G; now right|exact S2|].
    exists (w1 :: ws'). cbn [getEach]. rewrite R1, R2. split; [reflexivity|]. split; [cbn [map]; congruence|].
    intros [|i] e He; cbn in He.
    + injection He as <-. exists w1. split; [reflexivity|]. split; [lia|]. exact C1.
    + exact (C2 i e He).
Qed.
Lemma set_each : forall es ws, (forall e, In e es -> good e) -> map wv_size ws = map (fun e => numConnections (te_nn e)) es ->
  exists es', setEach es ws = Some es' /\ length es' = length es /\
    (forall i e, nth_error es i = Some e -> exists w, nth_error ws i = Some w /\ wv_size w = numConnections (te_nn e) /\
       nth_error es' i = Some (mkTElement (setConnections (fun k => wv_at w k) (te_nn e)) (te_hardness e))).
Proof.
  induction es as [|a es IH]; intros [|w ws] G S; try discriminate.
  - exists []. repeat split. intros [|]; discriminate.
  - cbn [map] in S. injection S as S1 S2.
    destruct (IH ws) as (es' & R2 & Z2 & C2); [intros e He; apply G; now right|exact S2|].
    cbn [setEach]. rewrite writeNetwork_spec by (try (apply G; now left); lia). rewrite R2.
    eexists. split; [reflexivity|]. split; [cbn; lia|].
    intros [|i] e He; cbn in He.
    + injection He as <-. exists w. split; [reflexivity|]. split; [lia|]. reflexivity.
    + exact (C2 i e He).
Qed.

(** ** Effect of getWeights and setWeights *)
Lemma getWeights_effect t : initialized t ->
  exists t', getWeights t = Some t' /\ tr_strat t' = tr_strat t /\ tr_hardness t' = tr_hardness t /\
    tr_elements t' = tr_elements t /\ map wv_size (tr_weights t') = map wv_size (tr_weights t) /\
    forall i e, element_is t i e ->
      (forall j, j < numConnections (te_nn e) -> entry_is t' i j (conn (te_nn e) j)) /\
      (fit t = true -> entry_is t' i (numConnections (te_nn e)) (sqrt (te_hardness e))).
Proof.
  intros I. pose proof I as [G _]. destruct (tr_strat t) eqn:E.
  - destruct (init_combined t E I) as (w & Ew & Sw).
    destruct (get_loop (tr_hardness t) (tr_elements t) 0 w G) as (w' & R & S' & _ & C); [lia|].
    assert (exists t', getWeights t = Some t' /\ tr_strat t' = US_COMBINED /\ tr_hardness t' = tr_hardness t /\
              tr_elements t' = tr_elements t /\ (tr_elements t = [] \/ tr_weights t' = [w']) /\ map wv_size (tr_weights t') = map wv_size (tr_weights t))
      as (t' & H1 & H2 & H3 & H4 & H5 & H6).
    { unfold getWeights. rewrite E, Ew. destruct (tr_elements t) as [|a es] eqn:Ee.
      - exists t. repeat split; auto. now rewrite Ew.
      - rewrite R. exists (with_weights t [w']). cbn. rewrite Ee. repeat split; auto. now rewrite S'. }
    exists t'. repeat (split; [assumption|]). intros i e He. unfold element_is in He.
    assert (Li : i < length (tr_elements t)) by (apply nth_error_Some; congruence).
    destruct H5 as [H5|H5]; [rewrite H5 in Li; cbn in Li; lia|].
    pose proof (start_total (tr_hardness t) _ _ _ He) as Bd. destruct (C i e He) as [C1 C2].
    assert (Pos : forall j, position (layout_of t') i j = start (tr_hardness t) (tr_elements t) i + j).
    { intros j. rewrite position_combined; rewrite ?H4, ?H3; auto. lia. }
    assert (Up : updater (layout_of t') i = 0) by now apply updater_combined.
    unfold fit. rewrite E. split.
    + intros j Hj. exists w'. rewrite Up, Pos, H5. split; [reflexivity|]. unfold slot in Bd. split; [lia|]. now apply C1.
    + intros Hf. exists w'. rewrite Up, Pos, H5. split; [reflexivity|]. unfold slot in Bd.
      replace (if tr_hardness t then 1 else 0) with 1 in Bd by (now rewrite Hf). split; [lia|]. now apply C2.
  - pose proof (init_element t E I) as S.
    destruct (get_each (tr_elements t) (tr_weights t) G S) as (ws' & R & S' & C).
    exists (with_weights t ws'). unfold getWeights. rewrite E, R. cbn [with_weights tr_strat tr_hardness tr_elements tr_weights].
    rewrite E. repeat (split; [auto; fail|]). intros i e He.
    destruct (C i e He) as (w' & N & Z & C1). unfold fit. rewrite E. split; [|discriminate].
    intros j Hj. exists w'.
    change (layout_of (with_weights t ws')) with (layout_of t). rewrite (updater_element t i E), (position_element t i j E).
    cbn [with_weights tr_weights]. repeat split; auto. lia.
Qed.

Lemma setWeights_effect t : initialized t ->
  exists t', setWeights t = Some t' /\ tr_strat t' = tr_strat t /\ tr_hardness t' = tr_hardness t /\
    tr_weights t' = tr_weights t /\ length (tr_elements t') = length (tr_elements t) /\
    forall i e, element_is t i e -> exists e', element_is t' i e' /\ same_shape (te_nn e') (te_nn e) /\
      (forall j, j < numConnections (te_nn e) -> entry_is t i j (conn (te_nn e') j)) /\
      (fit t = true -> exists x, entry_is t i (numConnections (te_nn e)) x /\ te_hardness e' = (x ^ 2)%R) /\
      (fit t = false -> te_hardness e' = te_hardness e).
Proof.
  intros I. pose proof I as [G _]. destruct (tr_strat t) eqn:E.
  - destruct (init_combined t E I) as (w & Ew & Sw).
    assert (exists t', setWeights t = Some t' /\ tr_strat t' = US_COMBINED /\ tr_hardness t' = tr_hardness t /\
              tr_weights t' = tr_weights t /\ tr_elements t' = setAll (tr_hardness t) w 0 (tr_elements t))
      as (t' & H1 & H2 & H3 & H4 & H5).
    { unfold setWeights. rewrite E, Ew. destruct (tr_elements t) as [|a es] eqn:Ee.
      - exists t. repeat split; auto.
      - rewrite set_loop; [|exact G|lia]. eexists. split; [reflexivity|]. cbn [with_elements tr_strat tr_hardness tr_weights tr_elements].
        repeat split; auto. }
    exists t'. do 4 (split; [assumption|]). split; [now rewrite H5, setAll_length|].
    intros i e He. unfold element_is in He.
    assert (Li : i < length (tr_elements t)) by (apply nth_error_Some; congruence).
    assert (Wf : good e) by (apply G; eapply nth_error_In; eauto). pose proof (wf_layers _ Wf) as HL.
    pose proof (start_total (tr_hardness t) _ _ _ He) as Bd. unfold slot in Bd.
    eexists. split; [unfold element_is; rewrite H5; apply setAll_nth; exact He|]. cbn [te_nn te_hardness]. split; [now apply shape_set|].
    rewrite ?Nat.add_0_l. unfold fit. rewrite E.
    assert (Pos : forall j, position (layout_of t) i j = start (tr_hardness t) (tr_elements t) i + j).
    { intros j. rewrite position_combined; auto. lia. }
    assert (Up : updater (layout_of t) i = 0) by now apply updater_combined.
    split; [|split].
    + intros j Hj. exists w. rewrite Up, Pos, Ew. split; [reflexivity|]. split; [lia|]. now rewrite conn_set.
    + intros Hf. replace (if tr_hardness t then 1 else 0) with 1 in Bd by (now rewrite Hf). eexists. split; [|rewrite Hf; reflexivity].
      exists w. rewrite Up, Pos, Ew. repeat split; [lia|]. rewrite ?Hf. reflexivity.
    + intros Hf. now rewrite Hf.
  - pose proof (init_element t E I) as S.
    destruct (set_each (tr_elements t) (tr_weights t) G S) as (es' & R & S' & C).
    exists (with_elements t es'). unfold setWeights. rewrite E, R. cbn [with_elements tr_strat tr_hardness tr_elements tr_weights].
    rewrite E. repeat (split; [auto; fail|]). intros i e He.
    destruct (C i e He) as (w & N & Z & C1). unfold fit. rewrite E.
    assert (Wf : good e) by (apply G; eapply nth_error_In; eauto). pose proof (wf_layers _ Wf) as HL.
    eexists. split; [exact C1|]. cbn [te_nn te_hardness]. split; [now apply shape_set|]. split; [|split; [discriminate|auto]].
    intros j Hj. exists w. rewrite (updater_element t i E), (position_element t i j E). split; [exact N|]. split; [lia|]. now rewrite conn_set.
Qed.

Lemma entry_fun t i j x y : entry_is t i j x -> entry_is t i j y -> x = y.
Proof. intros (w & A & _ & B) (w' & A' & _ & B'). congruence. Qed.
Lemma entry_transfer t t' i j x : layout_of t' = layout_of t -> tr_weights t' = tr_weights t -> entry_is t i j x -> entry_is t' i j x.
Proof. intros E1 E2 (w & A & B & C). exists w. rewrite E1, E2. auto. Qed.
Lemma elements_conns t t' : length (tr_elements t') = length (tr_elements t) ->
  (forall i e, element_is t i e -> exists e', element_is t' i e' /\ same_shape (te_nn e') (te_nn e)) ->
  map (fun e => numConnections (te_nn e)) (tr_elements t') = map (fun e => numConnections (te_nn e)) (tr_elements t).
Proof.
  intros L H. apply nth_ext with (d := 0) (d' := 0); [now rewrite !map_length|].
  intros n Hn. rewrite map_length in Hn.
  destruct (nth_error (tr_elements t) n) as [e|] eqn:E; [|apply nth_error_None in E; lia].
  destruct (H n e E) as (e' & E' & S). unfold element_is in E'.
  rewrite (nth_error_nth _ n 0 (map_nth_error (fun e => numConnections (te_nn e)) n _ E)).
  rewrite (nth_error_nth _ n 0 (map_nth_error (fun e => numConnections (te_nn e)) n _ E')). now apply numConnections_shape.
Qed.
Lemma element_back t t' i e' : length (tr_elements t') = length (tr_elements t) -> element_is t' i e' -> exists e, element_is t i e.
Proof.
  intros L H. unfold element_is in *. assert (i < length (tr_elements t')) by (apply nth_error_Some; congruence).
  destruct (nth_error (tr_elements t) i) eqn:E; [eauto|]. apply nth_error_None in E. lia.
Qed.
Lemma initialized_after t t' : initialized t -> tr_strat t' = tr_strat t -> tr_hardness t' = tr_hardness t ->
  map wv_size (tr_weights t') = map wv_size (tr_weights t) -> length (tr_elements t') = length (tr_elements t) ->
  (forall i e, element_is t i e -> exists e', element_is t' i e' /\ same_shape (te_nn e') (te_nn e)) ->
  initialized t' /\ layout_of t' = layout_of t.
Proof.
  intros [G S] E1 E2 E3 L H.
  assert (Y : layout_of t' = layout_of t) by (apply layout_conns; auto; now apply elements_conns).
  split; [|exact Y]. split; [|now rewrite Y, E3].
  intros e' He. apply In_nth_error in He. destruct He as [i Hi]. destruct (element_back t t' i e' L Hi) as [e He].
  destruct (H i e He) as (e2 & A & B). unfold element_is in A. assert (e2 = e') by congruence. subst e2.
  eapply wf_shape; [exact B|]. apply G. eapply nth_error_In; exact He.
Qed.

(** ** Theorems *)
Lemma entries_network t i e : well_formed (te_nn e) -> (forall j, j < numConnections (te_nn e) -> entry_is t i j (conn (te_nn e) j)) ->
  entries_are_network t i (te_nn e).
Proof.
  intros Wf H. pose proof (wf_layers _ Wf) as HL. split.
  - intros l j k Hl Hj Hk. rewrite <- conn_weight by assumption. apply H. now apply weight_pos_lt.
  - intros l k Hl Hk. rewrite <- conn_bias by assumption. apply H. now apply bias_pos_lt.
Qed.

Theorem get_weights t : initialized t ->
  exists t', getWeights t = Some t' /\ tr_elements t' = tr_elements t /\ initialized t' /\
    forall i e, element_is t i e ->
      entries_are_network t' i (te_nn e) /\
      (hardness_fitted t -> entry_is t' i (numConnections (te_nn e)) (sqrt (te_hardness e))).
Proof.
  intros I. destruct (getWeights_effect t I) as (t' & H1 & H2 & H3 & H4 & H5 & H6). exists t'. split; [assumption|]. split; [assumption|].
  split.
  - apply (initialized_after t); auto; [now rewrite H4|]. intros i e He. exists e. split; [unfold element_is in *; now rewrite H4|apply same_shape_refl].
  - intros i e He. destruct (H6 i e He) as [A B]. split.
    + apply entries_network; auto. apply I. eapply nth_error_In; exact He.
    + intros F. apply B. now apply fit_iff.
Qed.
Theorem set_weights t : initialized t ->
  exists t', setWeights t = Some t' /\ tr_weights t' = tr_weights t /\ initialized t' /\ length (tr_elements t') = length (tr_elements t) /\
    forall i e, element_is t i e -> exists e', element_is t' i e' /\ same_shape (te_nn e') (te_nn e) /\
      entries_are_network t' i (te_nn e') /\
      (hardness_fitted t -> exists x, entry_is t i (numConnections (te_nn e)) x /\ te_hardness e' = (x ^ 2)%R) /\
      (~ hardness_fitted t -> te_hardness e' = te_hardness e).
Proof.
  intros I. destruct (setWeights_effect t I) as (t' & H1 & H2 & H3 & H4 & H5 & H6). exists t'. do 2 (split; [assumption|]).
  destruct (initialized_after t t' I) as [I' Y]; auto.
  { now rewrite H4. } { intros i e He. destruct (H6 i e He) as (e' & A & B & _). eauto. }
  split; [assumption|]. split; [assumption|].
  intros i e He. destruct (H6 i e He) as (e' & A & B & C & D & F). exists e'. do 2 (split; [assumption|]). split; [|split].
  - apply entries_network; [apply I'; eapply nth_error_In; exact A|].
    intros j Hj. rewrite (numConnections_shape _ _ B) in Hj. apply (entry_transfer t); auto.
  - intros Hf. apply D. now apply fit_iff.
  - intros Hf. apply F. rewrite fit_iff in Hf. now destruct (fit t).
Qed.

Theorem get_after_set t t1 t2 : initialized t -> setWeights t = Some t1 -> getWeights t1 = Some t2 ->
  forall i e, element_is t i e -> forall j x, entry_is t i j x ->
    (j < numConnections (te_nn e) -> entry_is t2 i j x) /\
    (hardness_fitted t -> j = numConnections (te_nn e) -> entry_is t2 i j (Rabs x)).
Proof.
  intros I E1 E2 i e He j x Hx.
  destruct (setWeights_effect t I) as (t' & H1 & H2 & H3 & H4 & H5 & H6). rewrite E1 in H1. injection H1 as <-.
  destruct (initialized_after t t1 I) as [I1 Y1]; auto.
  { now rewrite H4. } { intros i' e' He'. destruct (H6 i' e' He') as (e2 & A & B & _). eauto. }
  destruct (getWeights_effect t1 I1) as (t' & G1 & G2 & G3 & G4 & G5 & G6). rewrite E2 in G1. injection G1 as <-.
  destruct (H6 i e He) as (e1 & A & B & C & D & _). destruct (G6 i e1 A) as [F1 F2]. pose proof (numConnections_shape _ _ B) as N. split.
  - intros Hj. specialize (C j Hj). rewrite (entry_fun _ _ _ _ _ Hx C). apply F1. lia.
  - intros Hf ->. apply fit_iff in Hf. destruct (D Hf) as (y & D1 & D2). rewrite (entry_fun _ _ _ _ _ Hx D1).
    rewrite N in F2. assert (Fit1 : fit t1 = true) by (unfold fit in *; now rewrite H2, H3). specialize (F2 Fit1).
    rewrite D2 in F2. replace (y ^ 2)%R with (Rsqr y) in F2 by (unfold Rsqr; ring). now rewrite sqrt_Rsqr_abs in F2.
Qed.

Lemma set_after_get_elements t t1 t2 : initialized t -> getWeights t = Some t1 -> setWeights t1 = Some t2 ->
  (hardness_fitted t -> forall e, In e (tr_elements t) -> (0 <= te_hardness e)%R) -> same_networks t t2.
Proof.
  intros I E1 E2 Hh.
  destruct (getWeights_effect t I) as (t' & H1 & H2 & H3 & H4 & H5 & H6). rewrite E1 in H1. injection H1 as <-.
  destruct (initialized_after t t1 I) as [I1 Y1]; auto; [now rewrite H4| |].
  { intros i e He. exists e. split; [unfold element_is in *; now rewrite H4|apply same_shape_refl]. }
  destruct (setWeights_effect t1 I1) as (t' & G1 & G2 & G3 & G4 & G5 & G6). rewrite E2 in G1. injection G1 as <-.
  unfold same_networks.
  assert (Hpt : forall i e e', nth_error (tr_elements t) i = Some e -> nth_error (tr_elements t2) i = Some e' ->
            same_network (te_nn e') (te_nn e) /\ te_hardness e' = te_hardness e).
  { intros i e e' He He'. destruct (H6 i e He) as [A1 A2].
    assert (He1 : element_is t1 i e) by (unfold element_is; now rewrite H4).
    destruct (G6 i e He1) as (e2 & B1 & B2 & B3 & B4 & B5). unfold element_is in B1. assert (e2 = e') by congruence. subst e2.
    assert (Wf : well_formed (te_nn e)) by (apply I; eapply nth_error_In; exact He). split.
    - apply same_network_conn; [apply wf_layers; eapply wf_shape; eauto|exact B2|].
      intros p Hp. rewrite (numConnections_shape _ _ B2) in Hp. eapply entry_fun; [apply B3; exact Hp|]. now apply A1.
    - destruct (fit t) eqn:Ft.
      + assert (Ft1 : fit t1 = true) by (unfold fit in *; now rewrite H2, H3). destruct (B4 Ft1) as (x & X1 & X2).
        rewrite (entry_fun _ _ _ _ _ X1 (A2 eq_refl)) in X2. rewrite X2.
        simpl. rewrite Rmult_1_r. apply sqrt_def. apply Hh; [now apply fit_iff|]. eapply nth_error_In; exact He.
      + assert (Ft1 : fit t1 = false) by (unfold fit in *; now rewrite H2, H3). now apply B5. }
  rewrite H4 in G5. clear - Hpt G5. revert G5 Hpt. generalize (tr_elements t) (tr_elements t2). intros l. induction l as [|a l IH]; intros [|b l'] L H; try discriminate; constructor.
  - exact (H 0 a b eq_refl eq_refl).
  - apply IH; [now injection L|]. intros i. exact (H (S i)).
Qed.
