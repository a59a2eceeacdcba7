(** Initialization schemes (C63) and the labels of the weights file (C65). *)
From Coq Require Import Reals Lra List Arith Lia Bool.
From Coq Require Import List.
From Verif Require Import Base.SumR Base.Loop Model.NeuralNetwork Spec.NetworkSpec Spec.InitSpec Proofs.NetLayout Proofs.NetForward Proofs.NetProofs Proofs.NetMore.
Import ListNotations.
Local Open Scope R_scope.

(** A transformation which acts on each neuron separately. *)
Definition acts (F : network -> network) (h : nat -> nat -> neuron -> neuron) : Prop :=
  forall s, same_shape (F s) s /\ forall l k, neurons (F s) l k = h l k (neurons s l k).
Definition at_neuron (i j : nat) (g : neuron -> neuron) (l k : nat) (n : neuron) : neuron :=
  if (Nat.eqb l i && Nat.eqb k j)%bool then g n else n.
Lemma acts_set i j g : acts (fun s => set_neuron s i j g) (at_neuron i j g).
Proof.
  intros s. split; [repeat split|]. intros l k. unfold at_neuron.
  destruct (Nat.eqb_spec l i) as [->|Hl]; cbn [andb]; [|now rewrite set_neuron_layer].
  destruct (Nat.eqb_spec k j) as [->|Hk]; [now rewrite set_neuron_same|now rewrite set_neuron_other].
Qed.
Lemma acts_id : acts (fun s => s) (fun _ _ n => n).
Proof. intros s. split; [apply same_shape_refl|auto]. Qed.
Lemma acts_comp F G h g : acts F h -> acts G g -> acts (fun s => G (F s)) (fun l k n => g l k (h l k n)).
Proof.
  intros HF HG s. destruct (HF s) as (A & B). destruct (HG (F s)) as (C & D). split; [eapply same_shape_trans; eauto|].
  intros l k. now rewrite D, B.
Qed.
Lemma acts_for n F h : (forall i, (i < n)%nat -> acts (F i) (h i)) -> acts (for_up n F) (fun l k x => for_up n (fun i => h i l k) x).
Proof.
  intros H s. induction n as [|n IH]; cbn [for_up]; [split; [apply same_shape_refl|auto]|].
  destruct IH as (A & B); [intros; apply H; lia|]. destruct (H n ltac:(lia) (for_up n F s)) as (C & D).
  split; [eapply same_shape_trans; eauto|]. intros l k. now rewrite D, B.
Qed.
Lemma acts_dep i j G h : (forall x, acts (G x) (h x)) -> (forall x l k n, (l, k) <> (i, j) -> h x l k n = n) ->
  acts (fun s => G (neurons s i j) s) (fun l k n => if (Nat.eqb l i && Nat.eqb k j)%bool then h n l k n else n).
Proof.
  intros H1 H2 s. destruct (H1 (neurons s i j) s) as (A & B). split; auto. intros l k. rewrite B.
  destruct (Nat.eqb_spec l i) as [->|Hl]; cbn [andb]; [destruct (Nat.eqb_spec k j) as [->|Hk]; auto|]; apply H2; congruence.
Qed.
Lemma for_select {A} n (g : nat -> A -> A) l (x : A) : for_up n (fun i y => if Nat.eqb l i then g i y else y) x = if Nat.ltb l n then g l x else x.
Proof.
  induction n as [|n IH]; cbn [for_up]; auto. rewrite IH.
  destruct (Nat.eqb_spec l n) as [El|Hn]; destruct (Nat.ltb_spec l n) as [H1|H1]; destruct (Nat.ltb_spec l (S n)); try lia; subst; auto.
Qed.
Lemma for_id {A} n (x : A) : for_up n (fun _ y => y) x = x.
Proof. induction n; cbn [for_up]; auto. Qed.
Lemma at_for n i j (g : nat -> neuron -> neuron) l k x :
  for_up n (fun m => at_neuron i j (g m) l k) x = at_neuron i j (fun y => for_up n g y) l k x.
Proof. unfold at_neuron. destruct (_ && _)%bool; auto. apply for_id. Qed.
(** Loop over the neurons of layer [i]. *)
Definition in_layer (i m : nat) (g : nat -> neuron -> neuron) (l k : nat) (n : neuron) : neuron :=
  if (Nat.eqb l i && Nat.ltb k m)%bool then g k n else n.
Lemma layer_for m i (g : nat -> neuron -> neuron) l k x : for_up m (fun j => at_neuron i j (g j) l k) x = in_layer i m g l k x.
Proof.
  unfold at_neuron, in_layer. destruct (Nat.eqb l i); cbn [andb]; [apply for_select|apply for_id].
Qed.
Lemma range_for a b (m : nat -> nat) (g : nat -> nat -> neuron -> neuron) l k x : (a <= b)%nat ->
  for_up (b - a) (fun i => in_layer (a + i) (m (a + i)%nat) (g (a + i)%nat) l k) x =
  if (Nat.leb a l && Nat.ltb l b && Nat.ltb k (m l))%bool then g l k x else x.
Proof.
  intros Hab. unfold in_layer.
  destruct (Nat.leb_spec a l) as [H1|H1]; cbn [andb].
  - rewrite (for_up_ext (b - a) _ (fun i y => if Nat.eqb (l - a) i then (if Nat.ltb k (m (a + i)%nat) then g (a + i)%nat k y else y) else y)).
    + rewrite (for_select (b - a) (fun i y => if Nat.ltb k (m (a + i)%nat) then g (a + i)%nat k y else y)).
      replace (a + (l - a))%nat with l by lia. destruct (Nat.ltb_spec (l - a) (b - a)); destruct (Nat.ltb_spec l b); try lia; auto.
    + intros i y Hi. destruct (Nat.eqb_spec l (a + i)); destruct (Nat.eqb_spec (l - a) i); try lia; auto.
  - rewrite (for_up_ext (b - a) _ (fun _ y => y)); [apply for_id|]. intros i y Hi. destruct (Nat.eqb_spec l (a + i)); try lia; auto.
Qed.
Lemma acts_ext F h h' : acts F h -> (forall l k n, h l k n = h' l k n) -> acts F h'.
Proof. intros H E s. destruct (H s) as (A & B). split; auto. intros. now rewrite B. Qed.

(** Loops over the weights of one neuron. *)
Lemma weights_loop P (f : nat -> R -> R) n :
  let n' := for_up P (fun k n => with_weight k (f k (n_weights n k)) n) n in
  n_bias n' = n_bias n /\ forall k, n_weights n' k = if Nat.ltb k P then f k (n_weights n k) else n_weights n k.
Proof.
  cbv zeta. induction P as [|P (IH1 & IH2)]; cbn [for_up]; [split; auto|]. split; [exact IH1|]. intros k.
  cbn [with_weight n_weights]. unfold upd. destruct (Nat.eqb_spec k P) as [->|Hk].
  - rewrite IH2. destruct (Nat.ltb_spec P P); [lia|]. destruct (Nat.ltb_spec P (S P)); auto; lia.
  - rewrite IH2. destruct (Nat.ltb_spec k P); destruct (Nat.ltb_spec k (S P)); auto; lia.
Qed.

(** Schemes which scale the incoming weights of every tanh neuron. *)
Definition scaled_layers (net : network) (f : nat -> R -> R) (s : network) : network :=
  for_range 1 (numLayers net) (fun i s =>
         match actFun net i with
         | AF_TANH =>
           for_up (numNeurons net i) (fun j s =>
             for_up (prevNeurons net i) (fun k s =>
               set_neuron s i j (fun n => with_weight k (f i (n_weights n k)) n)) s) s
         | _ => s
         end) s.
Lemma scaled_spec net f : (1 <= numLayers net)%nat -> acts (scaled_layers net f) (fun l k n =>
  if (Nat.leb 1 l && Nat.ltb l (numLayers net) && Nat.ltb k (if is_tanh (actFun net l) then numNeurons net l else 0))%bool
  then for_up (prevNeurons net l) (fun j n => with_weight j (f l (n_weights n j)) n) n else n).
Proof.
  intros HL. eapply acts_ext.
  - unfold scaled_layers, for_range. apply acts_for with (h := fun i => in_layer (1 + i) (if is_tanh (actFun net (1 + i)) then numNeurons net (1 + i) else 0)
      (fun _ n => for_up (prevNeurons net (1 + i)) (fun j n => with_weight j (f (1 + i)%nat (n_weights n j)) n) n)).
    intros i Hi. destruct (actFun net (1 + i)) eqn:EA; cbn [is_tanh];
      try (eapply acts_ext; [apply acts_id|]; intros l k n; unfold in_layer; cbn; now rewrite andb_false_r).
    eapply acts_ext.
    + apply acts_for with (h := fun j => at_neuron (1 + i) j (fun n => for_up (prevNeurons net (1 + i)) (fun k n => with_weight k (f (1 + i)%nat (n_weights n k)) n) n)).
      intros j Hj. eapply acts_ext; [apply acts_for with (h := fun m => at_neuron (1 + i) j (fun n => with_weight m (f (1 + i)%nat (n_weights n m)) n)); intros; apply acts_set|].
      intros l k n. cbv beta. rewrite at_for. reflexivity.
    + intros l k n. cbv beta. apply layer_for.
  - intros l k n. cbv beta.
    apply (range_for 1 (numLayers net) (fun i => if is_tanh (actFun net i) then numNeurons net i else 0%nat)
      (fun i _ n => for_up (prevNeurons net i) (fun j n => with_weight j (f i (n_weights n j)) n) n)). exact HL.
Qed.
Lemma scaled_weights net f : (1 <= numLayers net)%nat -> let net' := scaled_layers net f net in
  forall l j k, (S l < numLayers net)%nat -> (j < numNeurons net l)%nat -> (k < numNeurons net (S l))%nat ->
    weight net' l j k = (if is_tanh (actFun net (S l)) then f (S l) (weight net l j k) else weight net l j k) /\ bias net' l k = bias net l k.
Proof.
  intros HL net' l j k H1 H2 H3. destruct (scaled_spec net f HL net) as (_ & E). unfold weight, bias, net'. rewrite !E.
  destruct (Nat.ltb_spec (S l) (numLayers net)); [|lia]. cbn [Nat.leb andb]. destruct (is_tanh (actFun net (S l))).
  - destruct (Nat.ltb_spec k (numNeurons net (S l))); [|lia].
    destruct (weights_loop (prevNeurons net (S l)) (fun _ => f (S l)) (neurons net (S l) k)) as (A & B). rewrite A, B.
    rewrite prev_is. destruct (Nat.ltb_spec j (numNeurons net l)); [auto|lia].
  - cbn [Nat.ltb Nat.leb]. auto.
Qed.
Theorem fan_in net net' : (1 <= numLayers net)%nat -> modifyConnections MS_FANIN net = Some net' ->
  forall l j k, (S l < numLayers net)%nat -> (j < numNeurons net l)%nat -> (k < numNeurons net (S l))%nat ->
    weight net' l j k = (if is_tanh (actFun net (S l)) then weight net l j k / sqrt (INR (numNeurons net l)) else weight net l j k) /\
    bias net' l k = bias net l k.
Proof.
  intros HL H. injection H as <-. intros l j k H1 H2 H3.
  pose proof (scaled_weights net (fun i w => w / sqrt (INR (prevNeurons net i))) HL l j k H1 H2 H3) as E. cbv beta in E. rewrite (prev_is net l) in E. exact E.
Qed.
Theorem glorot_bengio net net' : (1 <= numLayers net)%nat -> modifyConnections MS_GLOROTBENGIO net = Some net' ->
  forall l j k, (S l < numLayers net)%nat -> (j < numNeurons net l)%nat -> (k < numNeurons net (S l))%nat ->
    weight net' l j k = (if is_tanh (actFun net (S l)) then weight net l j k * sqrt (6 / INR (numNeurons net l + numNeurons net (S l))) else weight net l j k) /\
    bias net' l k = bias net l k.
Proof.
  intros HL H. injection H as <-. intros l j k H1 H2 H3.
  pose proof (scaled_weights net (fun i w => w * sqrt (6 / INR (prevNeurons net i + numNeurons net i))) HL l j k H1 H2 H3) as E. cbv beta in E. rewrite (prev_is net l) in E. exact E.
Qed.
Theorem zero_output_weights net net' : (2 <= numLayers net)%nat -> modifyConnections MS_ZEROOUTPUTWEIGHTS net = Some net' ->
  forall l j k, (S l < numLayers net)%nat -> (j < numNeurons net l)%nat -> (k < numNeurons net (S l))%nat ->
    weight net' l j k = (if Nat.eqb (S l) (numLayers net - 1) then 0 else weight net l j k) /\ bias net' l k = bias net l k.
Proof.
  intros HL H. injection H as <-. intros l j k H1 H2 H3. set (o := outputLayer net).
  assert (A : acts (for_up (numNeurons net o) (fun i s => for_up (prevNeurons net o) (fun j s => set_neuron s o i (with_weight j 0)) s))
    (in_layer o (numNeurons net o) (fun _ n => for_up (prevNeurons net o) (fun j n => with_weight j 0 n) n))).
  { eapply acts_ext.
    - apply acts_for with (h := fun i => at_neuron o i (fun n => for_up (prevNeurons net o) (fun j n => with_weight j 0 n) n)). intros i Hi.
      eapply acts_ext; [apply acts_for with (h := fun m => at_neuron o i (with_weight m 0)); intros; apply acts_set|].
      intros l' k' n. cbv beta. rewrite at_for. reflexivity.
    - intros l' k' n. cbv beta. apply layer_for. }
  destruct (A net) as (_ & E). unfold weight, bias. rewrite !E. unfold in_layer, o, outputLayer.
  destruct (Nat.eqb_spec (S l) (numLayers net - 1)) as [El|El]; cbn [andb]; auto. rewrite <- El.
  destruct (Nat.ltb_spec k (numNeurons net (S l))); [|lia]. rewrite prev_is.
  destruct (weights_loop (numNeurons net l) (fun _ _ => 0) (neurons net (S l) k)) as (B & C). cbv beta in B, C. rewrite B, C.
  destruct (Nat.ltb_spec j (numNeurons net l)); [auto|lia].
Qed.

Lemma acts_cond (b : activation) i j g1 g2 : acts (fun s => match b with AF_TANH => set_neuron (set_neuron s i j g1) i j g2 | _ => set_neuron s i j g1 end)
  (at_neuron i j (fun n => match b with AF_TANH => g2 (g1 n) | _ => g1 n end)).
Proof.
  destruct b; try apply acts_set. eapply acts_ext; [apply (acts_comp (fun s => set_neuron s i j g1) (fun s => set_neuron s i j g2)); apply acts_set|].
  intros l k n. unfold at_neuron. destruct (_ && _)%bool; reflexivity.
Qed.
(** Nguyen-Widrow: the hidden layers. *)
Definition nw_beta (net : network) (i : nat) : R := 7 / 10 * Rpower (INR (numNeurons net i)) (1 / INR (prevNeurons net i)).
Definition nw_sum (P : nat) (n : neuron) : R := sqrt (for_up P (fun k sum => sum + n_weights n k * n_weights n k) 0).
Definition nw_neuron (net : network) (i : nat) (n : neuron) : neuron :=
  let beta := nw_beta net i in
  let n1 := for_up (prevNeurons net i) (fun k m =>
     let m := with_weight k (n_weights m k * (beta / nw_sum (prevNeurons net i) n)) m in
     match actFun net i with AF_TANH => with_weight k (n_weights m k * 2) m | _ => m end) n in
  let n2 := with_bias (n_bias n1 * beta) n1 in
  match actFun net i with AF_TANH => with_bias (n_bias n2 * 2) n2 | _ => n2 end.
Lemma nw_hidden net net' : (2 <= numLayers net)%nat -> modifyConnections MS_NGUYENWIDROW net = Some net' ->
  forall i k, (1 <= i < numLayers net - 1)%nat -> (k < numNeurons net i)%nat -> neurons net' i k = nw_neuron net i (neurons net i k).
Proof.
  intros HL H. injection H as <-. intros i k Hi Hk. set (o := outputLayer net).
  match goal with |- neurons (for_up ?n ?F ?X) i k = _ => assert (E0 : neurons (for_up n F X) i k = neurons X i k); [|rewrite E0; clear E0] end.
  { apply (for_up_inv (fun _ s => neurons s i k = neurons _ i k)); auto. intros j s Hj E. rewrite set_neuron_layer; auto. unfold o, outputLayer. lia. }
  assert (A : acts (for_range 1 (numLayers net - 1) (fun i s =>
         let beta := 7 / 10 * Rpower (INR (numNeurons net i)) (1 / INR (prevNeurons net i)) in
         for_up (numNeurons net i) (fun j s =>
           let sum := for_up (prevNeurons net i) (fun k sum =>
                        sum + n_weights (neurons s i j) k * n_weights (neurons s i j) k) 0 in
           let sum := sqrt sum in
           let s := for_up (prevNeurons net i) (fun k s =>
             let s := set_neuron s i j (fun n => with_weight k (n_weights n k * (beta / sum)) n) in
             match actFun net i with
             | AF_TANH => set_neuron s i j (fun n => with_weight k (n_weights n k * 2) n)
             | _ => s
             end) s in
           let s := set_neuron s i j (fun n => with_bias (n_bias n * beta) n) in
           match actFun net i with
           | AF_TANH => set_neuron s i j (fun n => with_bias (n_bias n * 2) n)
           | _ => s
           end) s))
    (fun l k n => if (Nat.leb 1 l && Nat.ltb l (numLayers net - 1) && Nat.ltb k (numNeurons net l))%bool then nw_neuron net l n else n)).
  { eapply acts_ext.
    - unfold for_range. apply acts_for with (h := fun i => in_layer (1 + i) (numNeurons net (1 + i)) (fun _ => nw_neuron net (1 + i))).
      clear i k Hi Hk. intros i0 Hi. set (i := (1 + i0)%nat). eapply acts_ext.
      + cbv zeta. apply acts_for with (h := fun j => at_neuron i j (nw_neuron net i)). intros j Hj.
        set (step := fun (x : neuron) (k : nat) (n : neuron) =>
           let m := with_weight k (n_weights n k * (nw_beta net i / nw_sum (prevNeurons net i) x)) n in
           match actFun net i with AF_TANH => with_weight k (n_weights m k * 2) m | _ => m end).
        set (fin := fun n1 => let n2 := with_bias (n_bias n1 * nw_beta net i) n1 in match actFun net i with AF_TANH => with_bias (n_bias n2 * 2) n2 | _ => n2 end).
        eapply acts_ext.
        * apply (acts_dep i j (fun x s =>
            let s := for_up (prevNeurons net i) (fun k s =>
               let s := set_neuron s i j (fun n => with_weight k (n_weights n k * (nw_beta net i / nw_sum (prevNeurons net i) x)) n) in
               match actFun net i with
               | AF_TANH => set_neuron s i j (fun n => with_weight k (n_weights n k * 2) n)
               | _ => s
               end) s in
             let s := set_neuron s i j (fun n => with_bias (n_bias n * nw_beta net i) n) in
             match actFun net i with
             | AF_TANH => set_neuron s i j (fun n => with_bias (n_bias n * 2) n)
             | _ => s
             end)
            (fun x => at_neuron i j (fun n => fin (for_up (prevNeurons net i) (step x) n)))).
          -- intros x. cbv zeta. eapply acts_ext.
             ++ apply (acts_comp (for_up (prevNeurons net i) (fun k s =>
                     match actFun net i with
                     | AF_TANH => set_neuron (set_neuron s i j (fun n => with_weight k (n_weights n k * (nw_beta net i / nw_sum (prevNeurons net i) x)) n)) i j (fun n => with_weight k (n_weights n k * 2) n)
                     | _ => set_neuron s i j (fun n => with_weight k (n_weights n k * (nw_beta net i / nw_sum (prevNeurons net i) x)) n)
                     end))
                  (fun s => match actFun net i with
                     | AF_TANH => set_neuron (set_neuron s i j (fun n => with_bias (n_bias n * nw_beta net i) n)) i j (fun n => with_bias (n_bias n * 2) n)
                     | _ => set_neuron s i j (fun n => with_bias (n_bias n * nw_beta net i) n)
                     end)).
                ** apply acts_for with (h := fun k => at_neuron i j (step x k)). intros k Hk. apply (acts_cond (actFun net i) i j).
                ** apply (acts_cond (actFun net i) i j).
             ++ intros l k n. cbv beta. rewrite at_for. unfold at_neuron. destruct (_ && _)%bool; reflexivity.
          -- intros x l k n Hlk. unfold at_neuron. destruct (Nat.eqb_spec l i); destruct (Nat.eqb_spec k j); cbn [andb]; auto. subst. congruence.
        * intros l k n. unfold at_neuron. destruct (_ && _)%bool; reflexivity.
      + intros l k n. cbv beta. apply (layer_for (numNeurons net i) i (fun _ => nw_neuron net i)).
    - intros l k' n. cbv beta. apply (range_for 1 (numLayers net - 1) (numNeurons net) (fun i _ => nw_neuron net i)). lia. }
  destruct (A net) as (_ & E). rewrite E. destruct (Nat.leb_spec 1 i); [|lia]. destruct (Nat.ltb_spec i (numLayers net - 1)); [|lia].
  destruct (Nat.ltb_spec k (numNeurons net i)); [|lia]. reflexivity.
Qed.
Lemma nw_sum_sumn P n : nw_sum P n = sqrt (sumn P (fun k => n_weights n k * n_weights n k)).
Proof. unfold nw_sum. f_equal. induction P as [|P IH]; cbn [for_up]; [now rewrite sumn_0|]. rewrite IH, sumn_S. reflexivity. Qed.
(** The weights of a hidden neuron are rescaled to length beta (2 beta for
    tanh), keeping their direction; the bias is multiplied by the same. *)
Theorem nguyen_widrow_hidden net net' : (2 <= numLayers net)%nat -> modifyConnections MS_NGUYENWIDROW net = Some net' ->
  forall l k, (S l < numLayers net - 1)%nat -> (k < numNeurons net (S l))%nat ->
  let beta := 7 / 10 * Rpower (INR (numNeurons net (S l))) (1 / INR (numNeurons net l)) * (if is_tanh (actFun net (S l)) then 2 else 1) in
  let len := sqrt (sumn (numNeurons net l) (fun j => weight net l j k * weight net l j k)) in
  (forall j, (j < numNeurons net l)%nat -> weight net' l j k = weight net l j k * (beta / len)) /\
  bias net' l k = bias net l k * beta /\
  (0 < len -> sqrt (sumn (numNeurons net l) (fun j => weight net' l j k * weight net' l j k)) = beta).
Proof.
  intros HL H l k Hl Hk beta len. pose proof (nw_hidden net net' HL H (S l) k ltac:(lia) Hk) as E.
  set (n := neurons net (S l) k) in *.
  assert (EL : nw_sum (prevNeurons net (S l)) n = len) by (rewrite nw_sum_sumn, prev_is; reflexivity).
  assert (EW : forall j, (j < numNeurons net l)%nat -> weight net' l j k = weight net l j k * (beta / len)).
  { intros j Hj. unfold weight. rewrite E. fold n. unfold nw_neuron. cbv zeta.
    set (q := if is_tanh (actFun net (S l)) then 2 else 1).
    set (b := nw_beta net (S l)). set (sm := nw_sum (prevNeurons net (S l)) n).
    assert (EQ : for_up (prevNeurons net (S l)) (fun k m => let m := with_weight k (n_weights m k * (b / sm)) m in
        match actFun net (S l) with AF_TANH => with_weight k (n_weights m k * 2) m | _ => m end) n =
      for_up (prevNeurons net (S l)) (fun k m => let m1 := with_weight k (n_weights m k * (b / sm)) m in
        if is_tanh (actFun net (S l)) then with_weight k (n_weights m1 k * 2) m1 else m1) n).
    { apply for_up_ext. intros i s Hi. destruct (actFun net (S l)); reflexivity. }
    cbv zeta in EQ. rewrite EQ. clear EQ.
    assert (EB : forall m : neuron, n_weights (match actFun net (S l) with AF_TANH => with_bias (n_bias (with_bias (n_bias m * b) m) * 2) (with_bias (n_bias m * b) m) | _ => with_bias (n_bias m * b) m end) = n_weights m)
      by (intros m; destruct (actFun net (S l)); reflexivity).
    rewrite EB. clear EB.
    assert (G : forall P, (forall i, n_weights (for_up P (fun k m => if is_tanh (actFun net (S l))
          then with_weight k (n_weights (with_weight k (n_weights m k * (b / sm)) m) k * 2) (with_weight k (n_weights m k * (b / sm)) m)
          else with_weight k (n_weights m k * (b / sm)) m) n) i = if Nat.ltb i P then n_weights n i * (b / sm) * q else n_weights n i)).
    { induction P as [|P IH]; intros i; cbn [for_up]; [reflexivity|]. unfold q in *.
      destruct (is_tanh (actFun net (S l))); cbn [with_weight n_weights]; unfold upd; rewrite ?Nat.eqb_refl; destruct (Nat.eqb_spec i P) as [->|Hi];
        rewrite ?IH; destruct (Nat.ltb_spec P P); try lia; try destruct (Nat.ltb_spec P (S P)); try lia; try ring;
        destruct (Nat.ltb_spec i P); destruct (Nat.ltb_spec i (S P)); try lia; reflexivity. }
    rewrite G, prev_is. destruct (Nat.ltb_spec j (numNeurons net l)); [|lia].
    unfold sm. rewrite EL. unfold beta, b, nw_beta. rewrite prev_is. fold q. unfold Rdiv. ring. }
  split; [exact EW|]. split.
  - unfold bias. rewrite E. fold n. unfold nw_neuron. cbv zeta.
    assert (EB : forall P f, (forall i m, n_bias (f i m) = n_bias m) -> n_bias (for_up P f n) = n_bias n).
    { clear. intros P f Hf. induction P; cbn [for_up]; auto. now rewrite Hf. }
    unfold beta. rewrite <- (prev_is net l). fold (nw_beta net (S l)).
    destruct (actFun net (S l)); cbn [is_tanh with_bias n_bias]; rewrite EB by reflexivity; ring.
  - intros Hlen. rewrite (sumn_ext _ _ (fun j => (beta / len) * (beta / len) * (weight net l j k * weight net l j k))).
    + rewrite sumn_scal. assert (Hb : 0 <= beta).
      { unfold beta. apply Rmult_le_pos; [apply Rmult_le_pos; [lra|]|destruct (is_tanh _); lra]. apply Rlt_le. unfold Rpower. apply exp_pos. }
      assert (Hbl : 0 <= beta / len) by (apply Rmult_le_pos; auto; apply Rlt_le, Rinv_0_lt_compat; auto).
      rewrite sqrt_mult_alt by (apply Rmult_le_pos; auto). fold len. rewrite sqrt_square by auto. field. lra.
    + intros j Hj. rewrite EW by auto. ring.
Qed.

(** ** Labels of the weights file *)
Theorem rows_labelled net : (1 <= numLayers net)%nat -> forall r, In r (writeConnections net) -> labelled net r.
Proof.
  intros HL. unfold writeConnections.
  apply (for_range_inv (fun _ (st : nat * list conn_row) => forall r, In r (snd st) -> labelled net r)); [exact HL|intros r []|].
  intros i st Hi IH. cbv zeta.
  apply (for_up_inv (fun _ (st : nat * list conn_row) => forall r, In r (snd st) -> labelled net r)).
  - apply (for_up_inv (fun _ (st : nat * list conn_row) => forall r, In r (snd st) -> labelled net r)); [exact IH|].
    intros j s Hj Hs. apply (for_up_inv (fun _ (st : nat * list conn_row) => forall r, In r (snd st) -> labelled net r)); [exact Hs|].
    intros k s' Hk Hs' r Hr. cbn [snd] in Hr. apply in_app_or in Hr as [Hr|[<-|[]]]; auto.
    unfold labelled. cbn. destruct i as [|i]; [lia|]. rewrite prev_is in Hj. unfold weight. cbn [Nat.sub].
    rewrite Nat.sub_0_r. split; [auto|]. split; [auto|]. split; [lia|]. split; [lia|]. split; [lia|].
    replace (j + 1 - 1)%nat with j by lia. replace (k + 1 - 1)%nat with k by lia. reflexivity.
  - intros j s Hj Hs r Hr. cbn [snd] in Hr. apply in_app_or in Hr as [Hr|[<-|[]]]; auto.
    unfold labelled. cbn. destruct i as [|i]; [lia|]. split; [auto|]. split; [lia|]. split; [lia|].
    unfold bias. cbn [Nat.sub]. rewrite Nat.sub_0_r. replace (j + 1 - 1)%nat with j by lia. reflexivity.
Qed.
