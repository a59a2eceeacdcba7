(** Specification of the transfer of weights between networks and updaters. *)
From Coq Require Import List Arith Reals Bool.
From Verif Require Import Spec.NetworkSpec Model.NeuralNetwork Model.UpdatePlan Spec.UpdatePlanSpec Model.TrainWeights.
Import ListNotations.
Local Open Scope R_scope.

Definition layout_of (t : trainer) : layout := layoutOf (tr_strat t) (tr_hardness t) (tr_elements t).
Definition hardness_fitted (t : trainer) : Prop := tr_strat t = US_COMBINED /\ tr_hardness t = true.

(** Memory has been initialized for these elements, and their networks are networks. *)
Definition initialized (t : trainer) : Prop :=
  (forall e, In e (tr_elements t) -> well_formed (te_nn e)) /\
  map wv_size (tr_weights t) = map (width (layout_of t)) (seq 0 (numUpdaters (layout_of t))).

(** Element i, and entry j of element i in the weights of its updater. *)
Definition element_is (t : trainer) (i : nat) (e : telement) : Prop := nth_error (tr_elements t) i = Some e.
Definition entry_is (t : trainer) (i j : nat) (x : R) : Prop :=
  exists w, nth_error (tr_weights t) (updater (layout_of t) i) = Some w /\
            (position (layout_of t) i j < wv_size w)%nat /\ wv_at w (position (layout_of t) i j) = x.

Definition same_architecture (a b : network) : Prop :=
  numLayers a = numLayers b /\ numNeurons a = numNeurons b /\ actFun a = actFun b /\ normalizeNeurons a = normalizeNeurons b.
(** Two networks with the same weights and biases (and architecture). *)
Definition same_network (a b : network) : Prop :=
  numLayers a = numLayers b /\ numNeurons a = numNeurons b /\ actFun a = actFun b /\ normalizeNeurons a = normalizeNeurons b /\
  (forall l j k, (S l < numLayers a)%nat -> (j < numNeurons a l)%nat -> (k < numNeurons a (S l))%nat -> weight a l j k = weight b l j k) /\
  (forall l k, (S l < numLayers a)%nat -> (k < numNeurons a (S l))%nat -> bias a l k = bias b l k).

(** The entries of element i from position 0 on are the weights and biases of the network, in the textbook order. *)
Definition entries_are_network (t : trainer) (i : nat) (net : network) : Prop :=
  (forall l j k, (S l < numLayers net)%nat -> (j < numNeurons net l)%nat -> (k < numNeurons net (S l))%nat ->
     entry_is t i (weight_position (numNeurons net) l j k) (weight net l j k)) /\
  (forall l k, (S l < numLayers net)%nat -> (k < numNeurons net (S l))%nat ->
     entry_is t i (bias_position (numNeurons net) l k) (bias net l k)).

(** Everything but the contents of the weights' vectors (of the networks) is the same. *)
Definition same_networks (t t' : trainer) : Prop :=
  Forall2 (fun e e' => same_network (te_nn e') (te_nn e) /\ te_hardness e' = te_hardness e) (tr_elements t) (tr_elements t').
Definition same_weights (t t' : trainer) : Prop :=
  Forall2 (fun w w' => wv_size w' = wv_size w /\ forall p, (p < wv_size w)%nat -> wv_at w' p = wv_at w p) (tr_weights t) (tr_weights t').

(** The elements [es] have the networks described by the weights of [t], with entry number [o] (of the only vector of weights) changed
    by [d]. *)
Definition shift (o : nat) (d : R) (p : nat) : R := if Nat.eqb p o then d else 0.
Definition shifted_networks (t : trainer) (o : nat) (d : R) (es : list telement) : Prop :=
  length es = length (tr_elements t) /\
  forall i e, element_is t i e -> exists e', nth_error es i = Some e' /\ te_hardness e' = te_hardness e /\
    let a := te_nn e' in let b := te_nn e in
    numLayers a = numLayers b /\ numNeurons a = numNeurons b /\ actFun a = actFun b /\ normalizeNeurons a = normalizeNeurons b /\
    (forall l j k, (S l < numLayers b)%nat -> (j < numNeurons b l)%nat -> (k < numNeurons b (S l))%nat ->
       let p := weight_position (numNeurons b) l j k in
       entry_is t i p (weight a l j k - shift o d (position (layout_of t) i p))) /\
    (forall l k, (S l < numLayers b)%nat -> (k < numNeurons b (S l))%nat ->
       let p := bias_position (numNeurons b) l k in
       entry_is t i p (bias a l k - shift o d (position (layout_of t) i p))).
(** Number of fit parameters in the only vector. *)
Definition parameters (t : trainer) : nat := width (layout_of t) 0.
