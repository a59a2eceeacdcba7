(** Initialization schemes and the columns of the weights file (C63, C65). *)
From Coq Require Import Reals List Arith.
From Verif Require Import Model.NeuralNetwork Spec.NetworkSpec.
Local Open Scope R_scope.

Definition is_tanh (a : activation) : bool := match a with AF_TANH => true | _ => false end.
(** Does a row of the weights file (NeuralNetwork.cpp:529-591: columns "l_s n_s
    l_e n_e" counted from 0 for layers and from 1 for neurons) name the connection
    whose value it contains? *)
Definition labelled (net : network) (r : conn_row) : Prop :=
  match row_end r with
  | Some (le, ne) => row_isweight r = true /\ le = S (row_ls r) /\ (le < numLayers net)%nat /\
      (1 <= row_ns r <= numNeurons net (row_ls r))%nat /\ (1 <= ne <= numNeurons net le)%nat /\
      row_value r = weight net (row_ls r) (row_ns r - 1) (ne - 1)
  | None => row_isweight r = false /\ (1 <= row_ls r < numLayers net)%nat /\ (1 <= row_ns r <= numNeurons net (row_ls r))%nat /\
      row_value r = bias net (row_ls r - 1) (row_ns r - 1)
  end.
