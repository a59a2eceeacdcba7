(** A concrete network meeting the hypotheses of the network theorems, and the
    final forms of the network lemmas. *)
From Coq Require Import Reals Lra List Arith Lia Bool.
From Coquelicot Require Import Coquelicot.
From Coq Require Import List.
From Verif Require Import Base.RealBase Base.SumR Base.Loop Model.NeuralNetwork Spec.NetworkSpec
  Proofs.NetLayout Proofs.NetForward Proofs.NetProofs Proofs.NetMore.
Import ListNotations.
Local Open Scope R_scope.

(** Layers of 2, 3, 1 neurons, hyperbolic tangent and identity. *)
Definition ex_net : network :=
  mkNetwork 3 (fun l => if Nat.eqb l 0 then 2%nat else if Nat.eqb l 1 then 3%nat else 1%nat)
    (fun l => if Nat.eqb l 1 then AF_TANH else AF_IDENTITY) false
    (fun l k => mkNeuron 0 0 0 0 0 (INR k) 0 0 0 0 0 (fun j => INR (l + j))).
Definition ex_G : nat -> R := fun k => INR k.
Definition ex_c : nat -> R := fun p => INR p - 4.
Lemma ex_wf : well_formed ex_net.
Proof. split; [simpl; lia|]. intros l _. simpl. destruct (Nat.eqb l 0); [lia|]. destruct (Nat.eqb l 1); lia. Qed.
Lemma ex_acts : acts_known ex_net.
Proof. intros l Hl. simpl. destruct (Nat.eqb l 1); discriminate. Qed.
Lemma ex_regular_c c : every_neuron regular (evaluate (setConnections c ex_net) ex_G).
Proof.
  intros l k _ _. destruct (evaluate_shape (setConnections c ex_net) ex_G) as (_ & _ & E & _).
  destruct (setConnections_spec ex_net c ltac:(simpl; lia)) as ((_ & _ & E' & _) & _).
  rewrite E, E'. change (actFun ex_net l) with (if Nat.eqb l 1 then AF_TANH else AF_IDENTITY). destruct (Nat.eqb l 1); exact I.
Qed.
Lemma ex_regular : every_neuron regular (evaluate ex_net ex_G).
Proof.
  intros l k _ _. destruct (evaluate_shape ex_net ex_G) as (_ & _ & E & _).
  rewrite E. change (actFun ex_net l) with (if Nat.eqb l 1 then AF_TANH else AF_IDENTITY). destruct (Nat.eqb l 1); exact I.
Qed.
Lemma ex_unclamped : every_neuron unclamped (evaluate ex_net ex_G).
Proof.
  intros l k _ _. destruct (evaluate_shape ex_net ex_G) as (_ & _ & E & _).
  rewrite E. change (actFun ex_net l) with (if Nat.eqb l 1 then AF_TANH else AF_IDENTITY). destruct (Nat.eqb l 1); exact I.
Qed.
Lemma ex_num : (5 < numConnections ex_net)%nat.
Proof. change (numConnections ex_net) with 13%nat. lia. Qed.
Lemma ex_seen : seen_values (resetNeuronStatistics ex_net) [ex_G; fun _ => 2] 0 1 = [1; 2].
Proof.
  assert (H : forall net G, same_shape net ex_net -> seen (evaluate net G) 0 1 = G 1%nat).
  { intros net G (E1 & E2 & E3 & _). unfold seen. cbn [Nat.eqb].
    apply (ev_value net G 2 E1 ltac:(lia)); [intros l Hl; rewrite E3; apply ex_acts; rewrite E1 in Hl; exact Hl|lia|rewrite E2; simpl; lia]. }
  assert (Hs : same_shape (resetNeuronStatistics ex_net) ex_net) by (repeat split).
  cbn [seen_values]. rewrite !H; [reflexivity| |exact Hs].
  eapply same_shape_trans; [apply evaluate_shape|exact Hs].
Qed.

Lemma set_layout net c : (1 <= numLayers net)%nat ->
  (forall l j k, (S l < numLayers net)%nat -> (j < numNeurons net l)%nat -> (k < numNeurons net (S l))%nat ->
     weight (setConnections c net) l j k = c (weight_position (numNeurons net) l j k)) /\
  (forall l k, (S l < numLayers net)%nat -> (k < numNeurons net (S l))%nat ->
     bias (setConnections c net) l k = c (bias_position (numNeurons net) l k)).
Proof. intros HL. destruct (setConnections_spec net c HL) as (_ & A & B & _). auto. Qed.

Lemma positions_bijective net : (1 <= numLayers net)%nat ->
  let N := numNeurons net in let L := numLayers net in
  (forall p, (p < numConnections net)%nat <->
     (exists l j k, (S l < L /\ j < N l /\ k < N (S l))%nat /\ p = weight_position N l j k) \/
     (exists l k, (S l < L /\ k < N (S l))%nat /\ p = bias_position N l k)) /\
  (forall l j k l' j' k', (j < N l)%nat -> (k < N (S l))%nat -> (j' < N l')%nat -> (k' < N (S l'))%nat ->
     weight_position N l j k = weight_position N l' j' k' -> l = l' /\ j = j' /\ k = k') /\
  (forall l k l' k', (k < N (S l))%nat -> (k' < N (S l'))%nat ->
     bias_position N l k = bias_position N l' k' -> l = l' /\ k = k') /\
  (forall l j k l' k', (j < N l)%nat -> (k < N (S l))%nat -> (k' < N (S l'))%nat ->
     weight_position N l j k <> bias_position N l' k').
Proof.
  intros HL N L. split; [|split; [exact (weight_position_inj net)|split; [exact (bias_position_inj net)|exact (weight_bias_disjoint net)]]].
  intros p. rewrite (numConnections_block net HL). split.
  - intros Hp. destruct (position_cover net _ p Hp) as [(l & j & k & A & B & C & D)|(l & k & A & B & C)].
    + left. exists l, j, k. unfold L. repeat split; auto. lia.
    + right. exists l, k. unfold L. repeat split; auto. lia.
  - intros [(l & j & k & (A & B & C) & ->)|(l & k & (A & B) & ->)].
    + pose proof (weight_bounds net l j k B C). pose proof (block_mono net (S l) (numLayers net - 1) ltac:(unfold L in A; lia)).
      cbn [block_start] in *. unfold N in *. lia.
    + pose proof (bias_bounds net l k B). pose proof (block_mono net (S l) (numLayers net - 1) ltac:(unfold L in A; lia)).
      cbn [block_start] in *. unfold N in *. lia.
Qed.

Lemma dEdc_is_gradient net c G p a0 : well_formed net -> (p < numConnections net)%nat ->
  every_neuron regular (evaluate (setConnections c net) G) ->
  is_derive (fun t => output_sum (evaluate (setConnections (upd c p t) net) G)) (c p)
            (calculateDEdc (evaluate (setConnections c net) G) a0 p).
Proof.
  intros Hwf Hp Hr. apply (dEdc_gradient net Hwf c G p Hp (numLayers net - 1)); auto. destruct Hwf. lia.
Qed.
Lemma dEdc_is_output_gradient net c G p a0 : well_formed net -> numNeurons net (numLayers net - 1) = 1%nat ->
  (p < numConnections net)%nat ->
  every_neuron regular (evaluate (setConnections c net) G) ->
  is_derive (fun t => getOutput (evaluate (setConnections (upd c p t) net) G) 0) (c p)
            (calculateDEdc (evaluate (setConnections c net) G) a0 p).
Proof.
  intros Hwf H1 Hp Hr. eapply is_derive_ext; [|apply dEdc_is_gradient; auto].
  intros t. cbv beta. unfold output_sum.
  destruct (evaluate_shape (setConnections (upd c p t) net) G) as (E1 & E2 & _).
  destruct (setConnections_spec net (upd c p t)) as ((F1 & F2 & _) & _). { destruct Hwf; lia. }
  rewrite E1, E2, F1, F2, H1. unfold sumn; simpl. ring.
Qed.
Lemma dFdc_is_gradient net c G p dGdxyz a0 :
  well_formed net -> numNeurons net (numLayers net - 1) = 1%nat -> (p < numConnections net)%nat ->
  every_neuron regular (evaluate (setConnections c net) G) ->
  is_derive (fun t => - sumn (numNeurons net 0) (fun i =>
       calculateDEdG (evaluate (setConnections (upd c p t) net) G) i * dGdxyz i)) (c p)
    (calculateDFdc (evaluate (setConnections c net) G) dGdxyz a0 p).
Proof.
  intros Hwf H1 Hp Hr. apply (dFdc_gradient net Hwf c G p Hp (numLayers net - 1)); auto. destruct Hwf. lia.
Qed.
Lemma zero_bias net net' : modifyConnections MS_ZEROBIAS net = Some net' ->
  (forall l k, n_weights (neurons net' l k) = n_weights (neurons net l k)) /\
  (forall l k, (l < numLayers net)%nat -> (k < numNeurons net l)%nat -> n_bias (neurons net' l k) = 0).
Proof. intros H. apply zero_bias_spec in H. tauto. Qed.
Lemma written_rows_restore net : (1 <= numLayers net)%nat ->
  let column := fun p => nth p (map row_value (writeConnections net)) 0 in
  (forall l j k, (S l < numLayers net)%nat -> (j < numNeurons net l)%nat -> (k < numNeurons net (S l))%nat ->
     weight (setConnections column net) l j k = weight net l j k) /\
  (forall l k, (S l < numLayers net)%nat -> (k < numNeurons net (S l))%nat ->
     bias (setConnections column net) l k = bias net l k).
Proof.
  intros HL column. set (a0 := fun _ : nat => 0).
  assert (Hc : forall p, (p < numConnections net)%nat -> column p = getConnections net a0 p).
  { intros p Hp. unfold column. destruct (writeConnections_spec net a0 HL) as [-> _].
    rewrite (nth_indep _ 0 (getConnections net a0 0)) by (now rewrite map_length, seq_length).
    rewrite map_nth, seq_nth by auto. reflexivity. }
  destruct (set_layout net column HL) as [A B]. destruct (get_set net a0 HL) as [A' B']. cbv zeta in A', B'.
  destruct (set_layout net (getConnections net a0) HL) as [C D].
  destruct (positions_bijective net HL) as [P _]. cbv zeta in P.
  split.
  - intros l j k Hl Hj Hk. rewrite A, Hc, <- C, A' by (auto; apply P; left; exists l, j, k; auto). reflexivity.
  - intros l k Hl Hk. rewrite B, Hc, <- D, B' by (auto; apply P; right; exists l, k; auto). reflexivity.
Qed.
