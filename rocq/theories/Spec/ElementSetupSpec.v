(** Independent specification of the element set-up (C100). *)
From Coq Require Import List Ascii.
From Verif Require Import Model.Strings Spec.StringSpec.
Import ListNotations.

(** The line [v] is about the element [symbol]: its first word. *)
Definition about_line (symbol : str) (v : str * nat) : Prop := exists rest, is_words (fst v) (symbol :: rest).
(** [x] is the second word of the last line about [symbol]; [None] if there is no
    such line. *)
Definition last_about (symbol : str) (lines : list (str * nat)) (x : option str) : Prop :=
  match x with
  | None => forall v, In v lines -> ~ about_line symbol v
  | Some w => exists before v after rest, lines = before ++ v :: after /\ is_words (fst v) (symbol :: w :: rest) /\
                forall u, In u after -> ~ about_line symbol u
  end.
