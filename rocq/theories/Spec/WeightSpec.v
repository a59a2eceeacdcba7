(** What derivatives of energies and forces with respect to weights and biases are supposed to be (C71). *)
From Coq Require Import Reals Arith.
From Coquelicot Require Import Coquelicot.
From Coq Require Import List.
From Verif Require Import Base.Vec3 Model.NeuralNetwork Model.Scaling Model.NeighborList Model.SymFunctions Model.Forces Model.WeightDerivatives Model.GroupEvaluation
  Spec.SymSpec Spec.NetworkSpec Spec.TrainWeightsSpec Spec.ForceSpec.
Import ListNotations.
Local Open Scope R_scope.

(** [net'] is [net] with parameter number [p] (weight or bias, in the textbook order) equal to [t]. *)
Definition tuned_network (net : network) (p : nat) (t : R) (net' : network) : Prop :=
  same_architecture net' net /\
  (forall l j k, (S l < numLayers net)%nat -> (j < numNeurons net l)%nat -> (k < numNeurons net (S l))%nat ->
     weight net' l j k = if Nat.eqb (weight_position (numNeurons net) l j k) p then t else weight net l j k) /\
  (forall l k, (S l < numLayers net)%nat -> (k < numNeurons net (S l))%nat ->
     bias net' l k = if Nat.eqb (bias_position (numNeurons net) l k) p then t else bias net l k).
(** The potential [P'] is [P] with parameter [p] of element [e] equal to [t]. *)
Definition tuned (P : potential) (e p : nat) (t : R) (P' : potential) : Prop :=
  p_fs P' = p_fs P /\ p_weight P' = p_weight P /\ tuned_network (p_net P e) p t (p_net P' e) /\
  forall e', e' <> e -> same_network (p_net P' e') (p_net P e').

(** The network objects have the weights and biases of the potential, and any state from earlier evaluations. *)
Definition networks_of (N : nat) (P : potential) (nets : nat -> network) : Prop :=
  forall e, (e < N)%nat -> same_network (nets e) (p_net P e).

(** All parameters one after another, element by element. *)
Definition first_parameter (P : potential) (e : nat) : nat := list_sum (map (fun e => numConnections (p_net P e)) (seq 0 e)).
Definition one_output (N : nat) (P : potential) : Prop :=
  forall e, (e < N)%nat -> numNeurons (p_net P e) (numLayers (p_net P e) - 1) = 1%nat.

(** The value of a quantity in the result of an evaluation. *)
Definition value_in (q : quantity) (r : option (R * list eatom)) (v : R) : Prop :=
  exists E ys, r = Some (E, ys) /\
    match q with
    | Energy => v = E
    | Force a c => exists y, nth_error ys a = Some y /\ v = comp (e_f y) c
    end.
(** [d] is the derivative of the quantity, as the evaluation [eval] predicts it, with respect to parameter [p] of element [e]. *)
Definition parameter_derivative (eval : potential -> option (R * list eatom)) (P : potential) (q : quantity) (e p : nat) (d : R) : Prop :=
  forall w Pt f, tuned P e p w P -> (forall t, tuned P e p t (Pt t)) -> (forall t, value_in q (eval (Pt t)) (f t)) ->
    is_derive f w d.

(** The quantities that exist in a structure. *)
Definition quantity_of (s : structure) (q : quantity) : Prop :=
  match q with Energy => True | Force a c => (a < length (s_atoms s))%nat /\ (c < 3)%nat end.
(** Forces are complete (C34): no atom sees own images, or all functions are radial. *)
Definition force_complete (P : potential) (rc : R) (s : structure) (q : quantity) : Prop :=
  match q with
  | Energy => True
  | Force _ _ => no_self_image s rc \/ forall e f, In f (p_fs P e) -> radial (sf_kind f)
  end.

(** What an evaluation predicts, as a function of the potential: without groups, and in the default build (with memory, cache and groups
    set up from the bare functions and the scaling [sc]). *)
Definition plain_evaluation (N : nat) (nsort : list neighbor -> list neighbor) (fuel : nat) (rc : R) (s : structure) (P : potential)
  : option (R * list eatom) :=
  evaluateNNP nsort fuel (p_weight P) (setupMemoryAll N (map (p_fs P) (seq 0 N))) (p_net P) rc s.
Definition default_evaluation {K} (K_dec : forall a b : K, {a = b} + {a <> b}) (key : symfnc -> K) (gsort : list (list symfnc) -> list (list symfnc))
  (msort : list symfnc -> list symfnc) (sc : nat -> nat -> scaling) (N : nat) (nsort : list neighbor -> list neighbor) (fuel : nat) (rc : R) (s : structure)
  (P : potential) : option (R * list eatom) :=
  match setupAll K K_dec key gsort msort N true (map (p_fs P) (seq 0 N)) with
  | None => None
  | Some es => evaluateGroups nsort fuel (p_weight P) (setupScaling sc es) (p_net P) rc s
  end.

(** A structure of a data set for which derivatives exist: neighbor list and symmetry functions can be calculated and the networks are
    differentiable. *)
Definition trainable (N : nat) (P : potential) (rc : R) (nsort : list neighbor -> list neighbor) (fuel : nat) (s : structure) : Prop :=
  s_numElements s = N /\ unprocessed rc s /\ (exists s', calculateNeighborList nsort fuel rc false s = Some s') /\
  everywhere P rc s evaluable /\ regular_networks P rc s.
