(** Neuron statistics file (C97). *)
From Coq Require Import Reals List Arith Ascii String.
From Verif Require Import Base.SumR Model.Strings Model.Printf Model.DataFiles Model.NeuralNetwork Model.NeuronStats.
From Coq Require Import List.
Import ListNotations.
Local Open Scope R_scope.

Definition mean_of (vs : list R) : R := rsum vs / INR (length vs).
(** Standard deviation of a sample. *)
Definition deviation_of (vs : list R) : R := sqrt (rsum (map (fun v => (v - mean_of vs) * (v - mean_of vs)) vs) / INR (length vs - 1)).
Definition least (x : R) (vs : list R) : Prop := In x vs /\ forall v, In v vs -> x <= v.
Definition greatest (x : R) (vs : list R) : Prop := In x vs /\ forall v, In v vs -> v <= x.
(** The row describes the values [vs]. *)
Definition describes (r : stat_row) (vs : list R) : Prop :=
  sr_count r = length vs /\ (vs <> [] -> least (sr_min r) vs /\ greatest (sr_max r) vs /\ sr_mean r = Some (mean_of vs)) /\
  ((1 < length vs)%nat -> sr_sigma r = Some (deviation_of vs)).
(** Position of neuron [k] of layer [l] if all neurons are numbered layer by
    layer. *)
Definition before (sizes : nat -> nat) (l : nat) : nat := list_sum (map sizes (seq 0 l)).
(** The words of a row. *)
Definition number_text (v : option R) : str := match v with Some v => print_E 8 v | None => lit "NAN" end.
Definition row_words (r : stat_row) : list str :=
  [print_d (sr_element r); print_d (sr_neuron r); print_d (sr_count r);
   print_E 8 (sr_min r); print_E 8 (sr_max r); number_text (sr_mean r); number_text (sr_sigma r)].
