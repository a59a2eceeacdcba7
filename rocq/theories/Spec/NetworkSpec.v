(** Independent specification of a feed-forward neural network and of the
    layout of its connection vector (C14-C17). *)
From Coq Require Import Reals List Arith.
From Verif Require Import Base.SumR Base.Loop Model.NeuralNetwork.
Local Open Scope R_scope.

(** At least three layers, none of them empty (the constructor enforces the
    first; the second is what a user means by a network). *)
Definition well_formed (net : network) : Prop :=
  (3 <= numLayers net)%nat /\ forall l, (l < numLayers net)%nat -> (0 < numNeurons net l)%nat.

(** Textbook position of the weight from neuron [j] of layer [l] to neuron [k]
    of layer [l+1], and of the bias of neuron [k] of layer [l+1]: layer by layer,
    first all weights ordered by source neuron, then the biases. *)
Fixpoint block_start (N : nat -> nat) (l : nat) : nat :=
  match l with O => 0 | S m => block_start N m + N m * N (S m) + N (S m) end.
Definition weight_position (N : nat -> nat) (l j k : nat) : nat := (block_start N l + j * N (S l) + k)%nat.
Definition bias_position (N : nat -> nat) (l k : nat) : nat := (block_start N l + N l * N (S l) + k)%nat.

(** Weights and biases of a network object. *)
Definition weight (net : network) (l j k : nat) : R := n_weights (neurons net (S l) k) j.
Definition bias (net : network) (l k : nat) : R := n_bias (neurons net (S l) k).

(** Documented activation functions (NeuralNetwork.h:33-56). *)
Definition documented_activation (a : activation) (x : R) : R :=
  match a with
  | AF_UNSET => 0
  | AF_IDENTITY => x
  | AF_TANH => tanh x
  | AF_LOGISTIC => 1 / (1 + exp (- x))
  | AF_SOFTPLUS => ln (1 + exp x)
  | AF_RELU => Rmax 0 x
  | AF_GAUSSIAN => exp (- (x * x) / 2)
  | AF_COS => cos x
  | AF_REVLOGISTIC => 1 - 1 / (1 + exp (- x))
  | AF_EXP => exp (- x)
  | AF_HARMONIC => x * x
  end.

(** Textbook forward propagation: value of neuron [k] in layer [l]. *)
Fixpoint forward (N : nat -> nat) (act : nat -> R -> R) (W : nat -> nat -> nat -> R) (B : nat -> nat -> R)
         (normalize : bool) (G : nat -> R) (l k : nat) : R :=
  match l with
  | O => G k
  | S m => act l ((sumn (N m) (fun j => W m j k * forward N act W B normalize G m j) + B m k)
                  / (if normalize then INR (N m) else 1))
  end.

(** What a user does: set the input, then propagate. *)
Definition evaluate (net : network) (G : nat -> R) : network := propagate (setInput G net).

(** Points where the activation function of the code is differentiable: not at
    the switching points of the clamped or rectified ones. *)
Definition regular (a : activation) (x : R) : Prop :=
  match a with
  | AF_UNSET => False
  | AF_LOGISTIC | AF_SOFTPLUS => x <> 35 /\ x <> - 35
  | AF_RELU => x <> 0
  | _ => True
  end.
(** Not in the clamped region. *)
Definition unclamped (a : activation) (x : R) : Prop :=
  match a with
  | AF_UNSET => False
  | AF_LOGISTIC | AF_SOFTPLUS => - 35 <= x <= 35
  | _ => True
  end.
Definition every_neuron (P : activation -> R -> Prop) (net : network) : Prop :=
  forall l k, (1 <= l < numLayers net)%nat -> (k < numNeurons net l)%nat ->
    P (actFun net l) (n_x (neurons net l k)).

(** Sum of all output neurons (the output itself for networks with one output). *)
Definition output_sum (net : network) : R := sumn (numNeurons net (numLayers net - 1)) (getOutput net).

(** The value a neuron contributes to the statistics in an evaluation: the input
    for input neurons, the argument of the activation function otherwise. *)
Definition seen (net : network) (l k : nat) : R :=
  if Nat.eqb l 0 then n_value (neurons net l k) else n_x (neurons net l k).
(** These values over a history of evaluations. *)
Fixpoint seen_values (net : network) (Gs : list (nat -> R)) (l k : nat) : list R :=
  match Gs with
  | nil => nil
  | G :: r => seen (evaluate net G) l k :: seen_values (evaluate net G) r l k
  end%list.
Definition acts_known (net : network) : Prop :=
  forall l, (1 <= l < numLayers net)%nat -> actFun net l <> AF_UNSET.
