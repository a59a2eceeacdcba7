(** nnp-select (C60). *)
From Coq Require Import List Arith String.
From Coq Require Import List.
From Verif Require Import Model.Strings Model.Select Spec.StringSpec Spec.SelectSpec Proofs.SelectProofs.
Import ListNotations.

(** C60: every line goes to exactly one of the two files, in order; whether it is selected depends only on the structure it belongs to (lines before
    the first structure are rejected).  In interval mode these are the structures 0, n, 2n, ... *)
Theorem C60_lines_partitioned : forall mode lines, proper mode -> (forall l, In l lines -> ~ blank_line l) ->
  exists st marks, nnpSelect mode lines = Some st /\ length marks = length lines /\
    sel_out st = marked true lines marks /\ sel_reject st = marked false lines marks /\
    (forall i, i < length lines -> (nth i marks false = true <-> exists k, belongs lines i k /\ selected mode k)).
Proof. exact select_lines. Qed.
Print Assumptions C60_lines_partitioned.
Example C60_lines_partitioned_ex : (forall l, In l exLines -> ~ blank_line l) /\ proper (SelInterval 2) /\
  exists st, nnpSelect (SelInterval 2) exLines = Some st /\
    sel_out st = map lit ["begin"; " energy 1"; "end"; "  begin"; "atom"; "end"]%string /\
    sel_reject st = map lit ["comment before"; "begin again"; "end"]%string /\ sel_log st = [1; 3].
Proof. exact exLines_ok. Qed.

(** C60: the log names exactly the selected structures (counted from 1), each once, and the two counters are right. *)
Theorem C60_log : forall mode lines st, proper mode -> (forall l, In l lines -> ~ blank_line l) -> nnpSelect mode lines = Some st ->
  starts lines (sel_count st) /\ sel_selected st = length (sel_log st) /\ NoDup (sel_log st) /\
  forall n, In n (sel_log st) <-> exists k, n = S k /\ k < sel_count st /\ selected mode k.
Proof. exact select_counts. Qed.
Print Assumptions C60_log.

(** C60: the condition on blank lines is needed, one of them stops the program. *)
Theorem C60_blank_line_stops : forall mode lines, (exists l, In l lines /\ blank_line l) -> nnpSelect mode lines = None.
Proof. exact select_blank. Qed.
Print Assumptions C60_blank_line_stops.
Theorem C60_every_file_processed_refuted : exists lines, In [] lines /\ (exists l, In l lines /\ begins l) /\
  nnpSelect (SelInterval 2) lines = None.
Proof. exact blank_witness. Qed.
Print Assumptions C60_every_file_processed_refuted.
