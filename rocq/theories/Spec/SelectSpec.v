(** Specification of nnp-select. *)
From Coq Require Import List Arith Bool String.
From Coq Require Import List.
From Verif Require Import Model.Strings Model.Select Spec.StringSpec.
Import ListNotations.

(** A line starting a structure: its first word is "begin". *)
Definition begins (line : str) : Prop := exists ws, is_words line (lit "begin" :: ws).
Definition blank_line (line : str) : Prop := is_words line [].

(** Which lines go to the output file: [belongs lines i k]: line i belongs to structure k (counted from 0), i.e. there are k + 1 lines starting a
    structure up to and including line i. *)
Inductive starts : list str -> nat -> Prop :=
| starts_nil : starts [] 0
| starts_begin l ls n : begins l -> starts ls n -> starts (l :: ls) (S n)
| starts_other l ls n : ~ begins l -> starts ls n -> starts (l :: ls) n.
Definition belongs (lines : list str) (i k : nat) : Prop := i < length lines /\ starts (firstn (S i) lines) (S k).
(** Lines with a given mark, in order. *)
Definition marked (b : bool) (lines : list str) (marks : list bool) : list str :=
  map fst (filter (fun x => Bool.eqb (snd x) b) (combine lines marks)).
Definition selected (mode : selmode) (k : nat) : Prop :=
  match mode with SelInterval n => exists q, k = n * q | SelRandom draw => draw k = true end.
Definition proper (mode : selmode) : Prop := match mode with SelInterval n => 0 < n | SelRandom _ => True end.
