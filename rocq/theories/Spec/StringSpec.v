(** Independent specification of tokenisation (C06). *)
From Coq Require Import List Ascii.
From Verif Require Import Model.Strings.
Import ListNotations.

Definition blank (c : ascii) : Prop := c = ch_space \/ c = ch_tab.
Definition starts_blank (s : str) : Prop :=
  match s with [] => True | c :: _ => blank c end.

(** [is_words s ws]: [ws] are the maximal blank-free substrings of [s]. *)
Inductive is_words : str -> list str -> Prop :=
| words_nil s : Forall blank s -> is_words s []
| words_cons b w rest ws :
    Forall blank b -> w <> [] -> Forall (fun c => ~ blank c) w ->
    starts_blank rest -> is_words rest ws ->
    is_words (b ++ w ++ rest) (w :: ws).

(** Concatenation with a separator. *)
Fixpoint join (sep : str) (ws : list str) : str :=
  match ws with
  | [] => []
  | [w] => w
  | w :: ws' => w ++ sep ++ join sep ws'
  end.
