(** Layout of the connection vector of NeuralNetwork (C14). *)
From Coq Require Import Reals Lra List Arith Lia Bool.
From Verif Require Import Base.SumR Base.Loop Model.NeuralNetwork Spec.NetworkSpec.
Import ListNotations.

Section Layout.
Variable net : network.
Let N := numNeurons net.
Let L := numLayers net.

Lemma weightOffset_block i : weightOffset net i = block_start N i.
Proof. induction i; simpl; auto. rewrite IHi. unfold N. lia. Qed.
Lemma biasOffset_block i : biasOffset net i = block_start N i + N i * N (S i).
Proof. unfold biasOffset. rewrite weightOffset_block, Nat.add_1_r. fold N. lia. Qed.

Lemma numConnections_block : 1 <= L -> numConnections net = block_start N (L - 1).
Proof.
  intros HL. unfold numConnections, numWeights, numBiases.
  apply (for_range_inv (fun i s => s +
     for_range 1 i (fun i s => s + numNeurons net i) 0 = block_start N (i - 1)) 1 L
     (fun i s => s + numNeurons net i * prevNeurons net i)).
  - lia.
  - reflexivity.
  - intros i s Hi IH.
    unfold for_range in *. replace (S i - 1) with (S (i - 1)) by lia. cbn [for_up block_start].
    replace (1 + (i - 1)) with i by lia. unfold prevNeurons.
    replace (S (i - 1)) with i by lia. rewrite <- IH. unfold N. lia.
Qed.
Lemma numBiases_sum : 1 <= L -> numBiases net = biasOnlyOffset net (L - 1).
Proof.
  intros HL. unfold numBiases.
  apply (for_range_inv (fun i s => s = biasOnlyOffset net (i - 1))); [exact HL|reflexivity|].
  intros i s Hi ->. replace (S i - 1) with (S (i - 1)) by lia. simpl. now replace (S (i - 1)) with i by lia.
Qed.

Lemma block_mono l l' : l <= l' -> block_start N l <= block_start N l'.
Proof. induction 1; simpl; lia. Qed.
Lemma weight_bounds l j k : j < N l -> k < N (S l) ->
  block_start N l <= weight_position N l j k < block_start N l + N l * N (S l).
Proof. intros. unfold weight_position. nia. Qed.
Lemma bias_bounds l k : k < N (S l) ->
  block_start N l + N l * N (S l) <= bias_position N l k < block_start N (S l).
Proof. intros. unfold bias_position. simpl. lia. Qed.

Lemma block_sep l l' a b : block_start N l <= a < block_start N (S l) ->
  block_start N l' <= b < block_start N (S l') -> l <> l' -> a <> b.
Proof.
  intros Ha Hb Hne ->. destruct (Nat.lt_ge_cases l l') as [H|H].
  - pose proof (block_mono (S l) l' H). lia.
  - assert (H' : S l' <= l) by lia. pose proof (block_mono _ _ H'). lia.
Qed.
Lemma weight_in_block l j k : j < N l -> k < N (S l) ->
  block_start N l <= weight_position N l j k < block_start N (S l).
Proof. intros Hj Hk. pose proof (weight_bounds l j k Hj Hk). simpl. lia. Qed.
Lemma bias_in_block l k : k < N (S l) -> block_start N l <= bias_position N l k < block_start N (S l).
Proof. intros Hk. pose proof (bias_bounds l k Hk). lia. Qed.

Lemma weight_position_inj l j k l' j' k' : j < N l -> k < N (S l) -> j' < N l' -> k' < N (S l') ->
  weight_position N l j k = weight_position N l' j' k' -> l = l' /\ j = j' /\ k = k'.
Proof.
  intros Hj Hk Hj' Hk' E. destruct (Nat.eq_dec l l') as [<-|Hne].
  - split; auto. unfold weight_position in E.
    assert (E2 : N (S l) * j + k = N (S l) * j' + k') by lia.
    destruct (Nat.div_mod_unique _ _ _ _ _ Hk Hk' E2). auto.
  - exfalso. revert E. eapply block_sep; eauto using weight_in_block.
Qed.
Lemma bias_position_inj l k l' k' : k < N (S l) -> k' < N (S l') ->
  bias_position N l k = bias_position N l' k' -> l = l' /\ k = k'.
Proof.
  intros Hk Hk' E. destruct (Nat.eq_dec l l') as [<-|Hne].
  - unfold bias_position in E. lia.
  - exfalso. revert E. eapply block_sep; eauto using bias_in_block.
Qed.
Lemma weight_bias_disjoint l j k l' k' : j < N l -> k < N (S l) -> k' < N (S l') ->
  weight_position N l j k <> bias_position N l' k'.
Proof.
  intros Hj Hk Hk'. destruct (Nat.eq_dec l l') as [<-|Hne].
  - pose proof (weight_bounds l j k Hj Hk). pose proof (bias_bounds l k' Hk'). lia.
  - eapply block_sep; eauto using weight_in_block, bias_in_block.
Qed.
Lemma position_cover M p : p < block_start N M ->
  (exists l j k, l < M /\ j < N l /\ k < N (S l) /\ p = weight_position N l j k) \/
  (exists l k, l < M /\ k < N (S l) /\ p = bias_position N l k).
Proof.
  induction M; simpl; intros Hp; [lia|].
  destruct (Nat.lt_ge_cases p (block_start N M)) as [H|H].
  - destruct (IHM H) as [(l & j & k & ? & ? & ? & ?)|(l & k & ? & ? & ?)];
      [left; exists l, j, k|right; exists l, k]; repeat split; auto; lia.
  - destruct (Nat.lt_ge_cases p (block_start N M + N M * N (S M))) as [H2|H2].
    + left. set (q := p - block_start N M). assert (Hq : q < N M * N (S M)) by (unfold q; lia).
      assert (HN : N (S M) <> 0) by (intros E; rewrite E in Hq; lia).
      exists M, (q / N (S M)), (q mod N (S M)). repeat split; [lia| | |].
      * apply Nat.div_lt_upper_bound; lia.
      * apply Nat.mod_upper_bound; auto.
      * unfold weight_position. pose proof (Nat.div_mod q _ HN). unfold q in *. lia.
    + right. exists M, (p - (block_start N M + N M * N (S M))). unfold bias_position. repeat split; lia.
Qed.
End Layout.

(** Same architecture. *)
Definition same_shape (a b : network) : Prop :=
  numLayers a = numLayers b /\ numNeurons a = numNeurons b /\ actFun a = actFun b /\
  normalizeNeurons a = normalizeNeurons b.
Lemma same_shape_refl a : same_shape a a.
Proof. repeat split. Qed.
Lemma same_shape_sym a b : same_shape a b -> same_shape b a.
Proof. unfold same_shape. intuition. Qed.
Lemma same_shape_trans a b c : same_shape a b -> same_shape b c -> same_shape a c.
Proof. unfold same_shape. intuition congruence. Qed.
Lemma same_shape_set a i k f b : same_shape a b -> same_shape (set_neuron a i k f) b.
Proof. auto. Qed.
Lemma set_neuron_same net i k f : neurons (set_neuron net i k f) i k = f (neurons net i k).
Proof. simpl. now rewrite !upd_same. Qed.
Lemma set_neuron_layer net i k f l m : l <> i -> neurons (set_neuron net i k f) l m = neurons net l m.
Proof. intros. simpl. now rewrite upd_other. Qed.
Lemma set_neuron_other net i k f m : m <> k -> neurons (set_neuron net i k f) i m = neurons net i m.
Proof. intros. simpl. rewrite upd_same. now rewrite upd_other. Qed.

Section SetGet.
Variable net : network.
Let N := numNeurons net.
Let L := numLayers net.

Lemma prev_is l : prevNeurons net (S l) = N l.
Proof. unfold prevNeurons. now rewrite Nat.sub_1_r. Qed.

Lemma setConnections_spec c : 1 <= L ->
  same_shape (setConnections c net) net /\
  (forall l j k, S l < L -> j < N l -> k < N (S l) ->
     weight (setConnections c net) l j k = c (weight_position N l j k)) /\
  (forall l k, S l < L -> k < N (S l) -> bias (setConnections c net) l k = c (bias_position N l k)) /\
  (forall l k, n_value (neurons (setConnections c net) l k) = n_value (neurons net l k)).
Proof.
  intros HL. unfold setConnections.
  match goal with |- context [for_range _ _ ?F _] => set (body := F) end.
  set (Inv := fun (i : nat) (st : nat * network) =>
    fst st = block_start N (i - 1) /\ same_shape (snd st) net /\
    (forall l j k, S l < i -> j < N l -> k < N (S l) ->
       weight (snd st) l j k = c (weight_position N l j k)) /\
    (forall l k, S l < i -> k < N (S l) -> bias (snd st) l k = c (bias_position N l k)) /\
    (forall l k, n_value (neurons (snd st) l k) = n_value (neurons net l k))).
  cut (Inv L (for_range 1 L body (0, net))).
  { unfold Inv. tauto. }
  apply for_range_inv; [auto| |].
  { unfold Inv; simpl. repeat split; auto; intros; lia. }
  intros i st Hi (H1 & H2 & H3 & H4 & H5). unfold body.
  destruct i as [|i]; [lia|]. rewrite prev_is. fold N.
  replace (S i - 1) with i in H1 by lia.
  (* weights loop *)
  set (W := fun (j : nat) (s : nat * network) =>
    fst s = block_start N i + j * N (S i) /\ same_shape (snd s) net /\
    (forall l, l <> S i -> neurons (snd s) l = neurons (snd st) l) /\
    (forall j' k, j' < j -> k < N (S i) -> weight (snd s) i j' k = c (weight_position N i j' k)) /\
    (forall l k, n_value (neurons (snd s) l k) = n_value (neurons net l k))).
  assert (HW : W (N i) (for_up (N i) (fun j st0 => for_up (N (S i)) (fun k st1 =>
     (S (fst st1), set_neuron (snd st1) (S i) k (with_weight j (c (fst st1))))) st0) st)).
  { apply for_up_inv.
    { unfold W. repeat split; try apply H2; auto; intros; lia. }
    intros j s Hj (W1 & W2 & W3 & W4 & W5).
    set (V := fun (k : nat) (s' : nat * network) =>
      fst s' = block_start N i + j * N (S i) + k /\ same_shape (snd s') net /\
      (forall l, l <> S i -> neurons (snd s') l = neurons (snd st) l) /\
      (forall j' k', j' < j -> k' < N (S i) -> weight (snd s') i j' k' = c (weight_position N i j' k')) /\
      (forall k', k' < k -> weight (snd s') i j k' = c (weight_position N i j k')) /\
      (forall l k, n_value (neurons (snd s') l k) = n_value (neurons net l k))).
    match goal with |- W _ ?X => assert (HV : V (N (S i)) X) end.
    { apply for_up_inv.
      { unfold V. rewrite Nat.add_0_r. repeat split; try apply W2; auto; intros; lia. }
      intros k s' Hk (V1 & V2 & V3 & V4 & V5 & V6). unfold V; cbn [fst snd].
      split; [lia|]. split; [auto|].
      split. { intros l Hl. rewrite <- V3 by auto. simpl. now rewrite upd_other. }
      split. { intros j' k' Hj' Hk'. unfold weight in *.
        destruct (Nat.eq_dec k' k) as [->|Hne].
        - rewrite set_neuron_same. simpl. rewrite upd_other by lia. auto.
        - rewrite set_neuron_other by auto. auto. }
      split. { intros k' Hk'. unfold weight in *.
        destruct (Nat.eq_dec k' k) as [->|Hne].
        - rewrite set_neuron_same. simpl. rewrite upd_same. rewrite V1. unfold weight_position. f_equal; lia.
        - rewrite set_neuron_other by auto. apply V5. lia. }
      intros l m. destruct (Nat.eq_dec l (S i)) as [->|Hl].
      - destruct (Nat.eq_dec m k) as [->|Hm].
        + rewrite set_neuron_same. simpl. auto.
        + rewrite set_neuron_other; auto.
      - rewrite set_neuron_layer; auto. }
    destruct HV as (V1 & V2 & V3 & V4 & V5 & V6). unfold W.
    split; [rewrite V1; simpl; lia|]. split; [auto|]. split; [auto|]. split; [|auto].
    intros j' k Hj' Hk. destruct (Nat.eq_dec j' j) as [->|]; [apply V5; auto|apply V4; lia]. }
  revert HW. match goal with |- W _ ?X -> _ => generalize X end. intros sw (W1 & W2 & W3 & W4 & W5).
  set (U := fun (k : nat) (s' : nat * network) =>
      fst s' = block_start N i + N i * N (S i) + k /\ same_shape (snd s') net /\
      (forall l, l <> S i -> neurons (snd s') l = neurons (snd st) l) /\
      (forall j' k', j' < N i -> k' < N (S i) -> weight (snd s') i j' k' = c (weight_position N i j' k')) /\
      (forall k', k' < k -> bias (snd s') i k' = c (bias_position N i k')) /\
      (forall l k, n_value (neurons (snd s') l k) = n_value (neurons net l k))).
  match goal with |- Inv _ ?X => assert (HU : U (N (S i)) X) end.
  { apply for_up_inv.
    { unfold U. rewrite Nat.add_0_r. repeat split; try apply W2; auto; intros; lia. }
    intros k s' Hk (V1 & V2 & V3 & V4 & V5 & V6). unfold U; cbn [fst snd].
    split; [lia|]. split; [auto|].
    split. { intros l Hl. rewrite <- V3 by auto. simpl. now rewrite upd_other. }
    split. { intros j' k' Hj' Hk'. unfold weight in *.
        destruct (Nat.eq_dec k' k) as [->|Hne].
        - rewrite set_neuron_same. simpl. auto.
        - rewrite set_neuron_other by auto. auto. }
    split. { intros k' Hk'. unfold bias in *.
        destruct (Nat.eq_dec k' k) as [->|Hne].
        - rewrite set_neuron_same. simpl. rewrite V1. reflexivity.
        - rewrite set_neuron_other by auto. apply V5. lia. }
    intros l m. destruct (Nat.eq_dec l (S i)) as [->|Hl].
      - destruct (Nat.eq_dec m k) as [->|Hm].
        + rewrite set_neuron_same. simpl. auto.
        + rewrite set_neuron_other; auto.
      - rewrite set_neuron_layer; auto. }
  destruct HU as (V1 & V2 & V3 & V4 & V5 & V6). unfold Inv.
  split. { rewrite V1. replace (S (S i) - 1) with (S i) by lia. simpl. lia. }
  split; [auto|].
  split. { intros l j k Hl Hj Hk. destruct (Nat.eq_dec l i) as [->|Hne]; [auto|].
    unfold weight. rewrite V3 by lia. apply H3; auto; lia. }
  split. { intros l k Hl Hk. destruct (Nat.eq_dec l i) as [->|Hne]; [auto|].
    unfold bias. rewrite V3 by lia. apply H4; auto; lia. }
  auto.
Qed.

(** getConnections writes exactly the first numConnections entries. *)
Lemma getConnections_spec c a0 : 1 <= L ->
  (forall l j k, S l < L -> j < N l -> k < N (S l) -> weight net l j k = c (weight_position N l j k)) ->
  (forall l k, S l < L -> k < N (S l) -> bias net l k = c (bias_position N l k)) ->
  (forall p, p < block_start N (L - 1) -> getConnections net a0 p = c p) /\
  (forall p, block_start N (L - 1) <= p -> getConnections net a0 p = a0 p).
Proof.
  intros HL Hw Hb. unfold getConnections.
  match goal with |- context [for_range _ _ ?F _] => set (body := F) end.
  set (I := fun (q : nat) (st : nat * (nat -> R)) => fst st = q /\
    (forall p, p < q -> snd st p = c p) /\ (forall p, q <= p -> snd st p = a0 p)).
  cut (I (block_start N (L - 1)) (for_range 1 L body (0, a0))). { unfold I. intros (?&?&?). auto. }
  apply (for_range_inv (fun i => I (block_start N (i - 1)))); [auto| |].
  { unfold I; simpl. repeat split; auto; intros; lia. }
  intros i st Hi HI. destruct i as [|i]; [lia|].
  replace (S i - 1) with i in HI by lia. replace (S (S i) - 1) with (S i) by lia. cbn [block_start].
  assert (Hstep : forall q s v, I q s -> v = c q -> I (S q) (S (fst s), upd (snd s) (fst s) v)).
  { intros q s v (E & A & B) ->. unfold I; cbn [fst snd]. rewrite E. split; auto. split; intros p Hp.
    - destruct (Nat.eq_dec p q) as [->|]; [now rewrite upd_same|]. rewrite upd_other by auto. apply A; lia.
    - rewrite upd_other by lia. apply B; lia. }
  unfold body. rewrite prev_is. fold N.
  cbv zeta. match goal with |- I _ (for_up _ _ ?X) => assert (HW : I (block_start N i + N i * N (S i)) X) end.
  { apply (for_up_inv (fun j => I (block_start N i + j * N (S i)))); [simpl; now rewrite Nat.add_0_r|].
    intros j s Hj Hs.
    replace (block_start N i + S j * N (S i)) with (block_start N i + j * N (S i) + N (S i)) by lia.
    apply (for_up_inv (fun k => I (block_start N i + j * N (S i) + k))); [now rewrite Nat.add_0_r|].
    intros k s' Hk Hs'. rewrite Nat.add_succ_r. apply Hstep; auto. apply (Hw i j k); auto. lia. }
  revert HW. match goal with |- I _ ?X -> _ => generalize X end. intros s Hs.
  apply (for_up_inv (fun k => I (block_start N i + N i * N (S i) + k))); [now rewrite Nat.add_0_r|].
  intros k s' Hk Hs'. rewrite Nat.add_succ_r. apply Hstep; auto. apply (Hb i k); auto. lia.
Qed.

(** The connection vector of any network. *)
Fixpoint conn_at (M p : nat) : R :=
  match M with
  | O => 0%R
  | S m => if Nat.ltb p (block_start N m) then conn_at m p
           else let q := p - block_start N m in
                if Nat.ltb q (N m * N (S m)) then weight net m (q / N (S m)) (q mod N (S m))
                else bias net m (q - N m * N (S m))
  end.
Lemma conn_at_weight M l j k : l < M -> j < N l -> k < N (S l) -> conn_at M (weight_position N l j k) = weight net l j k.
Proof.
  intros Hl Hj Hk. induction M; [lia|]. cbn [conn_at].
  pose proof (weight_bounds net l j k Hj Hk) as Hb. fold N in Hb.
  pose proof (weight_in_block net l j k Hj Hk) as Hb'. fold N in Hb'.
  destruct (Nat.ltb_spec (weight_position N l j k) (block_start N M)) as [H|H].
  - destruct (Nat.eq_dec l M) as [->|]; [lia|]. apply IHM. lia.
  - assert (l = M). { destruct (Nat.eq_dec l M); auto. pose proof (block_mono net (S l) M ltac:(lia)). fold N in H0. lia. }
    subst l. destruct (Nat.ltb_spec (weight_position N M j k - block_start N M) (N M * N (S M))); [|lia].
    unfold weight_position. replace (block_start N M + j * N (S M) + k - block_start N M) with (j * N (S M) + k) by lia.
    rewrite Nat.div_add_l by lia. rewrite Nat.div_small by auto. rewrite Nat.add_0_r.
    rewrite Nat.add_comm, Nat.mod_add by lia. rewrite Nat.mod_small; auto.
Qed.
Lemma conn_at_bias M l k : l < M -> k < N (S l) -> conn_at M (bias_position N l k) = bias net l k.
Proof.
  intros Hl Hk. induction M; [lia|]. cbn [conn_at].
  pose proof (bias_bounds net l k Hk) as Hb. fold N in Hb.
  destruct (Nat.ltb_spec (bias_position N l k) (block_start N M)) as [H|H].
  - destruct (Nat.eq_dec l M) as [->|]; [lia|]. apply IHM. lia.
  - assert (l = M). { destruct (Nat.eq_dec l M); auto. pose proof (block_mono net (S l) M ltac:(lia)). fold N in H0. lia. }
    subst l. destruct (Nat.ltb_spec (bias_position N M k - block_start N M) (N M * N (S M))); [lia|].
    unfold bias_position. f_equal. lia.
Qed.
Lemma getConnections_positions a0 : 1 <= L ->
  (forall l j k, S l < L -> j < N l -> k < N (S l) -> getConnections net a0 (weight_position N l j k) = weight net l j k) /\
  (forall l k, S l < L -> k < N (S l) -> getConnections net a0 (bias_position N l k) = bias net l k).
Proof.
  intros HL. destruct (getConnections_spec (conn_at (L - 1)) a0 HL) as [H _].
  - intros. symmetry. apply conn_at_weight; auto; lia.
  - intros. symmetry. apply conn_at_bias; auto; lia.
  - split.
    + intros l j k Hl Hj Hk. rewrite H; [apply conn_at_weight; auto; lia|].
      pose proof (weight_in_block net l j k Hj Hk). pose proof (block_mono net (S l) (L - 1) ltac:(lia)).
      unfold N in *. lia.
    + intros l k Hl Hk. rewrite H; [apply conn_at_bias; auto; lia|].
      pose proof (bias_in_block net l k Hk). pose proof (block_mono net (S l) (L - 1) ltac:(lia)).
      unfold N in *. lia.
Qed.
Lemma getConnections_frame a0 p : 1 <= L -> numConnections net <= p -> getConnections net a0 p = a0 p.
Proof.
  intros HL Hp. rewrite (numConnections_block net HL) in Hp.
  destruct (getConnections_spec (conn_at (L - 1)) a0 HL) as [_ H]; [| |auto].
  - intros. symmetry. apply conn_at_weight; auto; lia.
  - intros. symmetry. apply conn_at_bias; auto; lia.
Qed.
End SetGet.

Lemma set_get net c a0 : 1 <= numLayers net -> forall p, p < numConnections net ->
  getConnections (setConnections c net) a0 p = c p.
Proof.
  intros HL p Hp. destruct (setConnections_spec net c HL) as (S1 & S2 & S3 & _).
  destruct S1 as (E1 & E2 & _).
  destruct (getConnections_spec (setConnections c net) c a0) as [H _].
  - now rewrite E1.
  - rewrite E1, E2. auto.
  - rewrite E1, E2. auto.
  - apply H. rewrite E1, E2. rewrite <- numConnections_block; auto.
Qed.
Lemma get_set net a0 : 1 <= numLayers net ->
  let net' := setConnections (getConnections net a0) net in
  (forall l j k, S l < numLayers net -> j < numNeurons net l -> k < numNeurons net (S l) -> weight net' l j k = weight net l j k) /\
  (forall l k, S l < numLayers net -> k < numNeurons net (S l) -> bias net' l k = bias net l k).
Proof.
  intros HL net'. destruct (setConnections_spec net (getConnections net a0) HL) as (S1 & S2 & S3 & _).
  destruct (getConnections_positions net a0 HL) as [G1 G2]. split; intros.
  - unfold net'. rewrite S2; auto.
  - unfold net'. rewrite S3; auto.
Qed.
