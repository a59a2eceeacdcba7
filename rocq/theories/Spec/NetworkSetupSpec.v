(** The documented meaning of the network keywords (C74): global_* for all
    elements, element_* for one element. *)
From Coq Require Import ZArith Ascii String Bool Arith.
From Coq Require Import List.
From Verif Require Import Model.Strings Model.ElementMap Model.NeuralNetwork Model.Settings Model.SymLines Spec.StringSpec Spec.SymLineSpec.
Import ListNotations.

(** The last line with the keyword which is about element [e]; its words (the
    first is the element). *)
Definition own_line (em : element_map) (s : settings) (keyword : str) (e : nat) (ws : list str) : Prop :=
  exists values before v after, getValues s keyword = Some values /\ values = before ++ v :: after /\
    is_words (fst v) ws /\ elt em ws 0 e /\
    forall v' ws', In v' after -> is_words (fst v') ws' -> ~ elt em ws' 0 e.
(** The words of the global keyword. *)
Definition global_line (s : settings) (keyword : str) (ws : list str) : Prop :=
  exists v, getValue s keyword = Some v /\ is_words v ws.
(** The word for layer [j] (hidden layers count from 1): from the element's own
    line if there is one, from the global line otherwise. *)
Definition layer_word (em : element_map) (s : settings) (own global : str) (e j : nat) (w : str) : Prop :=
  (exists ws, own_line em s own e ws /\ word ws j w) \/
  ((forall ws, ~ own_line em s own e ws) /\ exists ws, global_line s global ws /\ word ws (j - 1) w).
(** [k] words (a line of 2^64 words cannot be stored). *)
Definition has_words (ws : list str) (k : nat) : Prop := (Z.of_nat (List.length ws) < 2 ^ 64)%Z -> List.length ws = k.
(** [n] hidden layers by the global keyword. *)
Definition hidden_layers (s : settings) (suffix : str) (n : nat) : Prop :=
  exists v, getValue s (lit "global_hidden_layers" ++ suffix) = Some v /\ atoi v = Done (Z.of_nat n).
Definition sizes_int (inputs : list nat) : Prop := forall i, In i inputs -> (Z.of_nat i < 2 ^ 31)%Z.

(** Settings as documented for networks with [n] hidden layers: [n] numbers of
    neurons and [n + 1] activation functions (hidden layers and output layer),
    globally and in each line for a single element. *)
Definition node_number (w : str) : Prop := exists k, atoi w = Done k /\ (0 < k)%Z.
Definition activation_name (w : str) : Prop := exists a, activationFromString w = Some a.
Definition lines_are (em : element_map) (s : settings) (keyword : str) (elements : nat) (P : list str -> Prop) : Prop :=
  forall values v ws, getValues s keyword = Some values -> In v values -> is_words (fst v) ws ->
    (exists e, e < elements /\ elt em ws 0 e) /\ P (tl ws).
Record valid_networks (s : settings) (em : element_map) (suffix : str) (inputs : list nat) (n : nat) : Prop := {
  vn_suffix : suffix = lit "_short" \/ suffix = lit "_electrostatic";
  vn_layers : 1 <= n /\ (Z.of_nat n + 2 < 2 ^ 31)%Z /\ hidden_layers s suffix n;
  vn_nodes : exists ws, global_line s (lit "global_nodes" ++ suffix) ws /\ List.length ws = n /\ Forall node_number ws;
  vn_acts : exists ws, global_line s (lit "global_activation" ++ suffix) ws /\ List.length ws = n + 1 /\ Forall activation_name ws;
  vn_own_layers : lines_are em s (lit "element_hidden_layers" ++ suffix) (List.length inputs)
    (fun ws => exists w, nth_error ws 0 = Some w /\ atoi w = Done (Z.of_nat n));
  vn_own_nodes : lines_are em s (lit "element_nodes" ++ suffix) (List.length inputs)
    (fun ws => List.length ws = n /\ Forall node_number ws);
  vn_own_acts : lines_are em s (lit "element_activation" ++ suffix) (List.length inputs)
    (fun ws => List.length ws = n + 1 /\ Forall activation_name ws);
  vn_inputs : sizes_int inputs /\ forall i, In i inputs -> 0 < i }.
