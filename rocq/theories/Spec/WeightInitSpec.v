(** Initial weights (C95). *)
From Coq Require Import Reals List Arith ZArith.
From Verif Require Import Model.Strings Model.SymLines Model.Selection Model.NeuralNetwork Model.WeightInit Spec.NetworkSpec Spec.InitSpec.
From Coq Require Import List.
Import ListNotations.
Local Open Scope R_scope.

(** Numbers between 0 and 1 (1 excluded) are drawn. *)
Definition proper (g : generator) : Prop := forall st, 0 <= fst (g_uniform g st) < 1.
(** The n-th number (counted from 0) drawn from a generator with this state, and
    the n-th integer. *)
Fixpoint nth_uniform (g : generator) (st : gs g) (n : nat) : R :=
  match n with O => fst (g_uniform g st) | S n => nth_uniform g (snd (g_uniform g st)) n end.
Fixpoint nth_integer (g : generator) (st : gs g) (n : nat) : Z :=
  match n with O => fst (g_get g st) | S n => nth_integer g (snd (g_get g st)) n end.
(** Connections of the networks before network [e]. *)
Definition connections_before (nets : list network) (e : nat) : nat := list_sum (map numConnections (firstn e nets)).
(** Same layers and activation functions. *)
Definition same_design (a b : network) : Prop :=
  numLayers a = numLayers b /\ (forall l, numNeurons a l = numNeurons b l) /\ (forall l, actFun a l = actFun b l).
(** Scheme of Glorot and Bengio for layers with hyperbolic tangent. *)
Definition glorot (net : network) (l : nat) : R :=
  if is_tanh (actFun net (S l)) then sqrt (6 / INR (numNeurons net l + numNeurons net (S l))) else 1.
(** Length of the incoming weights of a hidden neuron after the scheme of Nguyen
    and Widrow. *)
Definition widrow (net : network) (l : nat) : R :=
  7 / 10 * Rpower (INR (numNeurons net (S l))) (1 / INR (numNeurons net l)) * (if is_tanh (actFun net (S l)) then 2 else 1).
(** Value drawn for connection [p] (C14) of network [e] of the list: one number
    after the other, network by network, uniform between lo and hi. *)
Definition drawn (g : generator) (st : gs g) (lo hi : R) (nets : list network) (e p : nat) : R :=
  lo + nth_uniform g st (connections_before nets e + p) * (hi - lo).
(** Charge networks can be read if they are needed. *)
Definition charges_available (nnp : nnpType) (stage : nat) (elec : list network) (files : list str) : Prop :=
  nnp = HDNNP_2G \/ stage <> 2%nat \/ exists r, readNeuralNetworkWeights elec files = Done r.
