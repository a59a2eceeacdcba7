(** Columns of the learning curve file (C96). *)
From Coq Require Import Reals List Bool Ascii String.
From Verif Require Import Base.AssocMap Model.Strings Model.Units Model.Errors Spec.ErrorSpec.
From Coq Require Import List.
Import ListNotations.
Local Open Scope R_scope.

(** Two data sets (training and test set), each in the units of the training and
    in physical units. *)
Record data_sets := mkSets { train_internal : list qstructure; test_internal : list qstructure;
                             train_physical : list qstructure; test_physical : list qstructure }.
Definition the_set (D : data_sets) (test physical : bool) : list qstructure :=
  match test, physical with
  | false, false => train_internal D | true, false => test_internal D
  | false, true => train_physical D | true, true => test_physical D
  end.
(** How a column is called: metric, property, data set and units. *)
Definition letter (k : str) : str := if str_eqb k (lit "energy") then lit "E" else if str_eqb k (lit "force") then lit "F" else lit "Q".
Definition column_name (k m : str) (test physical : bool) : str :=
  m ++ lit "_" ++ letter k ++ (if test then lit "test" else lit "train") ++ (if physical then lit "_pu" else lit "_iu").
Definition metric_of (k m : str) : Prop := In m (map fst (metrics k [])).
(** [v] is the number a column [name] promises: the metric of that property over
    that data set in those units. *)
Definition promised (D : data_sets) (keys : list str) (name : str) (v : R) : Prop :=
  exists k m test physical, In k keys /\ metric_of k m /\ name = column_name k m test physical /\
    mget str_eqb m (metrics k (the_set D test physical)) = Some v.
