(** Independent specification for scaling and weights files (C76, C77). *)
From Coq Require Import Reals ZArith Ascii String.
From Coq Require Import List.
From Verif Require Import Model.Strings Model.Printf Model.Settings Model.Scaling Model.NeuralNetwork Model.DataFiles
  Spec.ScalingSpec Spec.PrintfSpec Spec.NetworkSpec.
Import ListNotations.
Local Open Scope R_scope.

(** A text file with the given lines. *)
Definition file_of (ls : list str) : str := List.concat (map (fun l => l ++ [ascii_of_nat 10]) ls).
Definition one_line (l : str) : Prop := ~ In (ascii_of_nat 10) l.
(** Comments start with '#'. *)
Definition comment_line (l : str) : Prop := exists r, l = "#"%char :: r.
Definition data_line (l : str) : Prop := l <> [] /\ ~ comment_line l.

(** What the user asked for in the settings file. *)
Definition has (s : settings) (k : string) : Prop := keywordExists s (lit k) false = Some true.
Definition number_or (s : settings) (k : string) (default v : R) : Prop :=
  (has s k /\ exists w, getValue s (lit k) = Some w /\ v = atof w) \/ (~ has s k /\ v = default).
Definition requested (s : settings) (t : scaling_type) (lo hi : R) : Prop :=
  match t with
  | ST_SCALE => has s "scale_symmetry_functions" /\ ~ has s "center_symmetry_functions"
  | ST_CENTER => ~ has s "scale_symmetry_functions" /\ has s "center_symmetry_functions"
  | ST_SCALECENTER => has s "scale_symmetry_functions" /\ has s "center_symmetry_functions"
  | ST_SCALESIGMA => ~ has s "scale_symmetry_functions" /\ ~ has s "center_symmetry_functions" /\ has s "scale_symmetry_functions_sigma"
  | ST_NONE => ~ has s "scale_symmetry_functions" /\ ~ has s "center_symmetry_functions" /\ ~ has s "scale_symmetry_functions_sigma"
  end /\
  match t with
  | ST_SCALE | ST_SCALECENTER | ST_SCALESIGMA => number_or s "scale_min_short" 0 lo /\ number_or s "scale_max_short" 1 hi
  | ST_CENTER | ST_NONE => lo = 0 /\ hi = 0
  end.

(** Symmetry function i of element e carries these two numbers. *)
Definition numbered_functions (elements : list (list sf_id)) : Prop :=
  forall e i fs f, nth_error elements e = Some fs -> nth_error fs i = Some f -> id_ec f = e /\ id_index f = i.
(** Entry (e, i) of a list of lists. *)
Definition entry {A} (l : list (list A)) (e i : nat) (x : A) : Prop :=
  exists r, nth_error l e = Some r /\ nth_error r i = Some x.
Definition double_row (r : sf_row) : Prop := double (r_min r) /\ double (r_max r) /\ double (r_mean r) /\ double (r_sigma r).
(** Numbers of elements and of symmetry functions that fit an int. *)
Definition countable {A} (l : list (list A)) : Prop :=
  (Z.of_nat (List.length l) < 2 ^ 31)%Z /\ forall r, In r l -> (Z.of_nat (List.length r) < 2 ^ 31)%Z.

(** Two networks of the same architecture; all weights and biases are doubles. *)
Definition same_architecture (a b : network) : Prop :=
  numLayers a = numLayers b /\ forall l, numNeurons a l = numNeurons b l.
Definition double_weights (net : network) : Prop :=
  (forall l j k, (S l < numLayers net)%nat -> (j < numNeurons net l)%nat -> (k < numNeurons net (S l))%nat -> double (weight net l j k)) /\
  (forall l k, (S l < numLayers net)%nat -> (k < numNeurons net (S l))%nat -> double (bias net l k)).
Definition same_weights (a b : network) : Prop :=
  (forall l j k, (S l < numLayers b)%nat -> (j < numNeurons b l)%nat -> (k < numNeurons b (S l))%nat -> weight a l j k = weight b l j k) /\
  (forall l k, (S l < numLayers b)%nat -> (k < numNeurons b (S l))%nat -> bias a l k = bias b l k).

(** Number of symmetry functions of the elements before element [e]. *)
Definition functions_before (elements : list (list sf_id)) (e : nat) : nat := list_sum (map (@List.length _) (firstn e elements)).
(** The sizes of the network fit an int. *)
Definition small_network (net : network) : Prop :=
  (Z.of_nat (numLayers net) < 2 ^ 31)%Z /\ (forall l, (l < numLayers net)%nat -> (Z.of_nat (numNeurons net l) < 2 ^ 31)%Z) /\
  (Z.of_nat (numConnections net) < 2 ^ 31)%Z.
