(** Independent specification of the settings-file language (C09-C11). *)
From Coq Require Import String List Ascii Arith.
From Verif Require Import Base.AssocMap Model.Strings Model.Settings Spec.StringSpec.
Import ListNotations.

Definition comment_char (c : ascii) : Prop := c = "#"%char \/ c = "!"%char.

(** [code_part line c]: [c] is the part of [line] before the first comment
    character. *)
Definition code_part (line c : str) : Prop :=
  exists rest, line = c ++ rest /\ Forall (fun x => ~ comment_char x) c /\
    match rest with [] => True | x :: _ => comment_char x end.

(** A line carries keyword [k] with value [v]: [k] is its first token outside
    comments and [v] the remaining tokens separated by single blanks. *)
Definition line_entry (line k v : str) : Prop :=
  exists c ws, code_part line c /\ is_words c (k :: ws) /\ v = join [ch_space] ws.

(** Lines for which parsing is claimed: no carriage return, and a line without
    any token contains no tab (only blanks). *)
Definition regular_line (line : str) : Prop :=
  ~ In ch_cr line /\
  forall c, code_part line c -> is_words c [] -> ~ In ch_tab c.

(** [spellings kw g]: [kw] is a keyword known to the program and [g] lists all
    spellings of the same keyword (the table is data of the program). *)
Definition spellings (kw : str) (g : list str) : Prop := mget str_eqb kw knownKeywords = Some g.

(** Keyword [k] occurs at least twice. *)
Definition repeated (k : str) (c : list (str * (str * nat))) : Prop :=
  exists a b d v w, c = a ++ (k, v) :: b ++ (k, w) :: d.

(** Keyword [k] occurs. *)
Definition occurs (k : str) (c : list (str * (str * nat))) : Prop := exists v, In (k, v) c.

(** Keywords which may legitimately appear several times. *)
Definition repeatable (k : str) : Prop :=
  In k (map lit ["symfunction"; "symfunction_short"; "atom_energy"; "element_nodes_short";
                 "fixed_gausswidth"; "initial_hardness"]%string).
