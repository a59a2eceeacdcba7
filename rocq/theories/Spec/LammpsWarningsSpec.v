(** Specification of the collection of extrapolation warnings. *)
From Coq Require Import Reals List Arith Bool Ascii Sorted.
From Verif Require Import Base.AssocMap Model.Strings Model.Scaling Model.Transfer Model.LammpsWarnings.
From Coq Require Import List.
Import ListNotations.

(** The lines about symmetry function k. *)
Definition lines_for (k : nat) (ls : list ewline) : list ewline := filter (fun l => Nat.eqb (l_symfunc l) (k + 1)) ls.
(** The lines are given in the order of the symmetry functions. *)
Definition ordered (ls : list ewline) : Prop := Sorted le (map l_symfunc ls).

(** Statistics as they are built by recording warnings: keys are unique, as many entries in the vectors as warnings counted, no NUL in symbols. *)
Definition well_formed (d : stat_data) : Prop :=
  NoDup (map fst d) /\
  forall k c, In (k, c) d -> length (c_structureEW c) = c_countEW c /\ length (c_atomEW c) = c_countEW c /\ length (c_valueEW c) = c_countEW c /\
                             ~ In zero (c_element c).
(** Both processes describe the symmetry functions in the same way, as far as it matters for warnings already there. *)
Definition compatible (sent mine : stat_data) : Prop :=
  forall k c c', In (k, c) sent -> In (k, c') mine -> c_countEW c' = 0 \/
    (c_type c = c_type c' /\ c_Gmin c = c_Gmin c' /\ c_Gmax c = c_Gmax c' /\ c_element c = c_element c').
(** The other statistics of symmetry function k. *)
Definition same_statistics (c c' : container) : Prop :=
  c_count c = c_count c' /\ c_min c = c_min c' /\ c_max c = c_max c' /\ c_sum c = c_sum c' /\ c_sum2 c = c_sum2 c'.

(** The line a warning should give. *)
Definition line_for (hdr : nat -> nat -> ewheader) (w : ewevent) : ewline :=
  let h := hdr (v_element w) (v_symfunc w) in
  mkLine (v_structure w) (v_atom w) (h_symbol h) (v_symfunc w + 1) (h_type h) (v_value w) (h_min h) (h_max h).
Definition about (e k : nat) (w : ewevent) : bool := Nat.eqb (v_element w) e && Nat.eqb (v_symfunc w) k.
