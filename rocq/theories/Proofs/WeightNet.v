(** Networks with one parameter replaced, and networks in the state left by earlier evaluations. *)
From Coq Require Import Reals Lra Arith Lia Bool FunctionalExtensionality.
From Coquelicot Require Import Coquelicot.
From Coq Require Import List.
From Verif Require Import Base.RealBase Base.SumR Base.Loop Model.NeuralNetwork Spec.NetworkSpec Spec.TrainWeightsSpec Spec.WeightSpec
  Proofs.NetLayout Proofs.NetForward Proofs.NetGrad Proofs.NetProofs Proofs.NetExamples Proofs.ForceNet.
Import ListNotations.
Local Open Scope R_scope.

(** Writing back what is there changes nothing. *)
Lemma upd_eta {A} (a : nat -> A) i : upd a i (a i) = a.
Proof. extensionality j. unfold upd. destruct (Nat.eqb_spec j i); subst; auto. Qed.
Lemma set_weight_id net i k j v : v = n_weights (neurons net i k) j -> set_neuron net i k (with_weight j v) = net.
Proof.
  intros ->. unfold set_neuron, with_weight. rewrite upd_eta. destruct net as [a b c d f]. cbn. f_equal.
  replace (mkNeuron _ _ _ _ _ _ _ _ _ _ _ _) with (f i k) by (destruct (f i k); reflexivity). now rewrite !upd_eta.
Qed.
Lemma set_bias_id net i k v : v = n_bias (neurons net i k) -> set_neuron net i k (with_bias v) = net.
Proof.
  intros ->. unfold set_neuron, with_bias. destruct net as [a b c d f]. cbn. f_equal.
  replace (mkNeuron _ _ _ _ _ _ _ _ _ _ _ _) with (f i k) by (destruct (f i k); reflexivity). now rewrite !upd_eta.
Qed.
Lemma set_connections_id net c : (1 <= numLayers net)%nat ->
  (forall l j k, (S l < numLayers net)%nat -> (j < numNeurons net l)%nat -> (k < numNeurons net (S l))%nat ->
     c (weight_position (numNeurons net) l j k) = weight net l j k) ->
  (forall l k, (S l < numLayers net)%nat -> (k < numNeurons net (S l))%nat -> c (bias_position (numNeurons net) l k) = bias net l k) ->
  setConnections c net = net.
Proof.
  intros HL Hw Hb. set (N := numNeurons net) in *. unfold setConnections.
  match goal with |- context [for_range _ _ ?F _] => set (body := F) end.
  set (I := fun (q : nat) (st : nat * network) => st = (q, net)).
  cut (I (block_start N (numLayers net - 1)) (for_range 1 (numLayers net) body (0%nat, net))). { unfold I. intros ->. reflexivity. }
  apply (for_range_inv (fun i => I (block_start N (i - 1)))); [auto|reflexivity|].
  intros i st Hi HI. destruct i as [|i]; [lia|].
  replace (S i - 1)%nat with i in HI by lia. replace (S (S i) - 1)%nat with (S i) by lia. cbn [block_start].
  unfold body. rewrite prev_is. fold N.
  cbv zeta. match goal with |- I _ (for_up _ _ ?X) => assert (HW : I (block_start N i + N i * N (S i))%nat X) end.
  { apply (for_up_inv (fun j => I (block_start N i + j * N (S i))%nat)); [simpl; now rewrite Nat.add_0_r|].
    intros j s Hj Hs.
    replace (block_start N i + S j * N (S i))%nat with (block_start N i + j * N (S i) + N (S i))%nat by lia.
    apply (for_up_inv (fun k => I (block_start N i + j * N (S i) + k)%nat)); [now rewrite Nat.add_0_r|].
    intros k s' Hk Hs'. rewrite Nat.add_succ_r. unfold I in *. rewrite Hs'. cbn [fst snd]. f_equal. apply set_weight_id.
    apply (Hw i j k); auto. lia. }
  revert HW. match goal with |- I _ ?X -> _ => generalize X end. intros s Hs.
  apply (for_up_inv (fun k => I (block_start N i + N i * N (S i) + k)%nat)); [now rewrite Nat.add_0_r|].
  intros k s' Hk Hs'. rewrite Nat.add_succ_r. unfold I in *. rewrite Hs'. cbn [fst snd]. f_equal. apply set_bias_id.
  apply (Hb i k); auto. lia.
Qed.

(** ** Networks with the same weights *)
Lemma sn_refl a : same_network a a.
Proof. repeat split; auto. Qed.
Lemma sn_sym a b : same_network a b -> same_network b a.
Proof.
  intros (E1 & E2 & E3 & E4 & W & B). repeat split; auto; rewrite <- E1, <- E2; intros; symmetry; auto.
Qed.
Lemma sn_trans a b c : same_network a b -> same_network b c -> same_network a c.
Proof.
  intros (E1 & E2 & E3 & E4 & W & B) (F1 & F2 & F3 & F4 & V & C). repeat split; try congruence; intros.
  - rewrite W by auto. apply V; congruence.
  - rewrite B by auto. apply C; congruence.
Qed.
Lemma sn_shape a b : same_network a b -> same_shape a b.
Proof. intros (E1 & E2 & E3 & E4 & _). repeat split; auto. Qed.
Lemma alike_sn a b : alike a b -> same_network a b.
Proof. intros ((E1 & E2 & E3 & E4) & W & B). repeat split; auto. Qed.
Lemma shape_wf a b : same_shape a b -> well_formed b -> well_formed a.
Proof. intros (E1 & E2 & _) [H1 H2]. split; rewrite E1; auto. now rewrite E2. Qed.
Lemma shape_acts a b : same_shape a b -> acts_set b -> acts_set a.
Proof. intros (E1 & E2 & E3 & _) H l. rewrite E1, E3. auto. Qed.
Lemma shape_connections a b : same_shape a b -> numConnections a = numConnections b.
Proof.
  intros (E1 & E2 & _). unfold numConnections, numWeights, numBiases, prevNeurons. now rewrite E1, E2.
Qed.
Lemma sn_evaluate a b G : same_network a b -> well_formed b -> acts_set b -> same_network (evaluate a G) b.
Proof.
  intros H Hb Ha. eapply sn_trans; [|exact H]. apply alike_sn, alike_evaluate.
  - eapply shape_wf; eauto. now apply sn_shape.
  - eapply shape_acts; eauto. now apply sn_shape.
Qed.

Section Same.
Variables (a b : network) (G H : nat -> R).
Hypothesis Hab : same_network a b.
Hypothesis Hb : well_formed b.
Hypothesis Hact : acts_set b.
Hypothesis HG : forall k, (k < numNeurons b 0)%nat -> G k = H k.
Let LT := (numLayers b - 1)%nat.
Lemma sn_ideal : numNeurons a = numNeurons b /\ actFun a = actFun b /\ net_nrm a = net_nrm b /\ numLayers a = S LT /\ numLayers b = S LT /\
  (2 <= LT)%nat /\ acts_set a /\ (0 < numNeurons b LT)%nat.
Proof.
  pose proof (sn_shape _ _ Hab) as HS. pose proof (shape_acts _ _ HS Hact) as Ha. destruct HS as (E1 & E2 & E3 & E4).
  destruct Hb as [H3 Hpos]. unfold LT. repeat split; auto; try lia.
  - unfold net_nrm. now rewrite E2, E4.
  - apply Hpos. lia.
Qed.
Lemma sn_W : (forall l j k, (l < LT)%nat -> (j < numNeurons b l)%nat -> (k < numNeurons b (S l))%nat -> weight a l j k = weight b l j k) /\
  (forall l k, (l < LT)%nat -> (k < numNeurons b (S l))%nat -> bias a l k = bias b l k).
Proof.
  destruct Hab as (E1 & E2 & _ & _ & W & B). unfold LT. split; intros; [apply W|apply B]; rewrite ?E1, ?E2; auto; lia.
Qed.
Lemma sn_output : getOutput (evaluate a G) 0 = getOutput (evaluate b H) 0.
Proof.
  destruct sn_ideal as (E2 & E3 & E4 & EL & EL' & H2 & Ha & H0).
  rewrite (ev_output a G LT EL H2 Ha) by (rewrite E2; auto).
  rewrite (ev_output b H LT EL' H2 Hact) by auto. rewrite E2, E3, E4.
  destruct sn_W as (W & B). apply (VAL_ext (numNeurons b) (actFun b) (net_nrm b) LT); auto.
Qed.
Lemma sn_DEdG k : (k < numNeurons b 0)%nat -> calculateDEdG (evaluate a G) k = calculateDEdG (evaluate b H) k.
Proof.
  intros Hk. destruct sn_ideal as (E2 & E3 & E4 & EL & EL' & H2 & Ha & H0).
  rewrite (ev_DEdG a G LT EL H2 Ha k) by (rewrite E2; auto).
  rewrite (ev_DEdG b H LT EL' H2 Hact k) by auto. rewrite E2, E3, E4.
  destruct sn_W as (W & B). apply (YY_ext (numNeurons b) (actFun b) (net_nrm b) LT); auto.
Qed.
Lemma sn_regular : every_neuron regular (evaluate b H) -> every_neuron regular (evaluate a G).
Proof.
  intros HR. destruct sn_ideal as (E2 & E3 & E4 & EL & EL' & H2 & Ha & H0).
  destruct (evaluate_shape a G) as (S1 & S2 & S3 & _). destruct (evaluate_shape b H) as (T1 & T2 & T3 & _).
  intros l k Hl Hk. rewrite S1, EL in Hl. rewrite S2, E2 in Hk. rewrite S3, E3.
  rewrite (ev_x a G LT EL H2 Ha) by (rewrite ?E2; auto; lia). rewrite E2, E3, E4.
  destruct sn_W as (W & B).
  rewrite (PRE_ext (numNeurons b) (actFun b) (net_nrm b) LT _ (weight b) _ (bias b) G H) by (auto; lia).
  rewrite <- (ev_x b H LT EL' H2 Hact) by (auto; lia). rewrite <- T3. apply HR; [rewrite T1, EL'; auto|now rewrite T2].
Qed.
End Same.

(** ** Derivatives with respect to one parameter *)
Lemma tuned_shape net p t net' : tuned_network net p t net' -> same_shape net' net.
Proof. intros ((E1 & E2 & E3 & E4) & _). repeat split; auto. Qed.
Lemma tuned_set net p t net' a0 : (1 <= numLayers net)%nat -> tuned_network net p t net' ->
  same_network net' (setConnections (upd (getConnections net a0) p t) net).
Proof.
  intros HL ((E1 & E2 & E3 & E4) & W & B).
  destruct (setConnections_spec net (upd (getConnections net a0) p t) HL) as ((S1 & S2 & S3 & S4) & S5 & S6 & _).
  destruct (getConnections_positions net a0 HL) as (P1 & P2).
  repeat split; try congruence; rewrite E1, E2; intros.
  - rewrite W, S5 by auto. unfold upd. now rewrite P1.
  - rewrite B, S6 by auto. unfold upd. now rewrite P2.
Qed.
Lemma set_tuned net p t a0 : (1 <= numLayers net)%nat -> tuned_network net p t (setConnections (upd (getConnections net a0) p t) net).
Proof.
  intros HL.
  destruct (setConnections_spec net (upd (getConnections net a0) p t) HL) as ((S1 & S2 & S3 & S4) & S5 & S6 & _).
  destruct (getConnections_positions net a0 HL) as (P1 & P2).
  split; [repeat split; auto|]. split; intros.
  - rewrite S5 by auto. unfold upd. now rewrite P1.
  - rewrite S6 by auto. unfold upd. now rewrite P2.
Qed.
Lemma tuned_value net p w a0 : (1 <= numLayers net)%nat -> (p < numConnections net)%nat -> tuned_network net p w net -> w = getConnections net a0 p.
Proof.
  intros HL Hp (_ & W & B). rewrite (numConnections_block net HL) in Hp. destruct (getConnections_positions net a0 HL) as (P1 & P2).
  destruct (position_cover net _ p Hp) as [(l & j & k & A & A' & A'' & E)|(l & k & A & A' & E)]; subst p.
  - rewrite P1 by (auto; lia). specialize (W l j k ltac:(lia) A' A''). rewrite Nat.eqb_refl in W. auto.
  - rewrite P2 by (auto; lia). specialize (B l k ltac:(lia) A'). rewrite Nat.eqb_refl in B. auto.
Qed.
Lemma value_tuned net p a0 : (1 <= numLayers net)%nat -> tuned_network net p (getConnections net a0 p) net.
Proof.
  intros HL. destruct (getConnections_positions net a0 HL) as (P1 & P2). split; [repeat split; auto|]. split; intros.
  - destruct (Nat.eqb_spec (weight_position (numNeurons net) l j k) p) as [E|]; auto. rewrite <- E, P1; auto.
  - destruct (Nat.eqb_spec (bias_position (numNeurons net) l k) p) as [E|]; auto. rewrite <- E, P2; auto.
Qed.
Lemma same_position a b p t a' b' : same_network a b -> tuned_network a p t a' -> tuned_network b p t b' -> same_network a' b'.
Proof.
  intros (E1 & E2 & E3 & E4 & W & B) ((F1 & F2 & F3 & F4) & W1 & B1) ((G1 & G2 & G3 & G4) & W2 & B2).
  repeat split; try congruence; rewrite F1, F2; intros.
  - rewrite W1 by auto. rewrite W2 by (rewrite <- ?E1, <- ?E2; auto). rewrite E2, (W l j k) by auto. reflexivity.
  - rewrite B1 by auto. rewrite B2 by (rewrite <- ?E1, <- ?E2; auto). rewrite E2, (B l k) by auto. reflexivity.
Qed.

Section Tuning.
Variables (a b : network) (G H : nat -> R) (p : nat) (w : R) (bt : R -> network).
Hypothesis Hab : same_network a b.
Hypothesis Hb : well_formed b.
Hypothesis Hact : acts_set b.
Hypothesis Hone : numNeurons b (numLayers b - 1) = 1%nat.
Hypothesis HG : forall k, (k < numNeurons b 0)%nat -> G k = H k.
Hypothesis Hp : (p < numConnections b)%nat.
Hypothesis Hreg : every_neuron regular (evaluate b H).
Hypothesis Hw : tuned_network b p w b.
Hypothesis Hbt : forall t, tuned_network b p t (bt t).
Let c := getConnections a (fun _ => 0).
Let at' (t : R) := setConnections (upd c p t) a.
Lemma tuning_facts : well_formed a /\ (1 <= numLayers a)%nat /\ (p < numConnections a)%nat /\ numNeurons a (numLayers a - 1) = 1%nat /\
  w = c p /\ setConnections c a = a /\ every_neuron regular (evaluate (setConnections c a) G) /\
  forall t, same_network (at' t) (bt t) /\ well_formed (bt t) /\ acts_set (bt t) /\ numNeurons (bt t) = numNeurons b.
Proof.
  pose proof (sn_shape _ _ Hab) as HS. assert (Wa := shape_wf _ _ HS Hb). assert (La : (1 <= numLayers a)%nat) by (destruct Wa; lia).
  pose proof (shape_connections _ _ HS) as EC. pose proof HS as (E1 & E2 & _).
  assert (Id : setConnections c a = a).
  { apply set_connections_id; auto; intros; unfold c; now apply getConnections_positions. }
  split; auto. split; auto. split; [now rewrite EC|]. split; [now rewrite E1, E2|]. split.
  { rewrite (tuned_value b p w (fun _ => 0)); auto; [|destruct Hb; lia]. unfold c.
    assert (Lb : (1 <= numLayers b)%nat) by (destruct Hb; lia).
    rewrite (numConnections_block b Lb) in Hp. destruct (getConnections_positions a (fun _ => 0) La) as (P1 & P2).
    destruct (getConnections_positions b (fun _ => 0) Lb) as (Q1 & Q2). destruct Hab as (_ & _ & _ & _ & W & B).
    destruct (position_cover b _ p Hp) as [(l & j & k & A & A' & A'' & ->)|(l & k & A & A' & ->)].
    - rewrite Q1 by (auto; lia). rewrite <- E2, P1 by (rewrite ?E1, ?E2; auto; lia). symmetry. apply W; rewrite ?E1, ?E2; auto; lia.
    - rewrite Q2 by (auto; lia). rewrite <- E2, P2 by (rewrite ?E1, ?E2; auto; lia). symmetry. apply B; rewrite ?E1, ?E2; auto; lia. }
  split; auto. split. { rewrite Id. eapply sn_regular; eauto. }
  intros t. pose proof (tuned_shape _ _ _ _ (Hbt t)) as HT. split.
  - eapply same_position; [exact Hab| |apply Hbt]. now apply set_tuned.
  - split; [eapply shape_wf; eauto|]. split; [eapply shape_acts; eauto|]. apply HT.
Qed.
Lemma tuned_energy a0 : is_derive (fun t => getOutput (evaluate (bt t) H) 0) w (calculateDEdc (evaluate a G) a0 p).
Proof.
  destruct tuning_facts as (Wa & La & Pa & Oa & Ew & Id & Ra & T).
  apply (is_derive_ext (fun t => getOutput (evaluate (at' t) G) 0)).
  { intros t. destruct (T t) as (T1 & T2 & T3 & T4). apply sn_output; auto. rewrite T4. auto. }
  assert (X := dEdc_is_output_gradient a c G p a0 Wa Oa Pa Ra). rewrite Id in X. rewrite Ew. exact X.
Qed.
Lemma tuned_force g g' a0 : (forall k, (k < numNeurons b 0)%nat -> g k = g' k) ->
  is_derive (fun t => - sumn (numNeurons b 0) (fun i => calculateDEdG (evaluate (bt t) H) i * g' i)) w (calculateDFdc (evaluate a G) g a0 p).
Proof.
  intros Hg. destruct tuning_facts as (Wa & La & Pa & Oa & Ew & Id & Ra & T). pose proof (sn_shape _ _ Hab) as (_ & E2 & _).
  apply (is_derive_ext (fun t => - sumn (numNeurons a 0) (fun i => calculateDEdG (evaluate (at' t) G) i * g i))).
  { intros t. destruct (T t) as (T1 & T2 & T3 & T4). rewrite E2. f_equal. apply sumn_ext. intros i Hi. rewrite Hg by auto. f_equal.
    apply sn_DEdG; auto; rewrite T4; auto. }
  assert (X := dFdc_is_gradient a c G p g a0 Wa Oa Pa Ra). rewrite Id in X. rewrite Ew. exact X.
Qed.
End Tuning.
