(** Property C67: numbers in files. *)
From Coq Require Import Reals ZArith List Ascii.
From Verif Require Import Model.Strings Model.Printf Spec.PrintfSpec Proofs.PrintfProofs Proofs.StructureFileText.
Local Open Scope R_scope.

(** C67: a double written with 16 digits after the point is read back exactly. *)
Theorem C67_read_back : forall v, double v -> atof (print_E 16 v) = v.
Proof. exact read_back_exact. Qed.
Print Assumptions C67_read_back.

(** C67: with k digits the text differs from the value by at most half a unit of
    the last digit. *)
Theorem C67_relative_error : forall k v, (0 < k)%nat -> double v ->
  Rabs (decimal_value (print_E k v) - v) <= 5 / 10 ^ (k + 1) * Rabs v.
Proof. exact relative_error. Qed.
Print Assumptions C67_relative_error.

(** C67: a number fills its column of 24 characters exactly; no column runs into
    the next one. *)
Theorem C67_column_width : forall v, length (fmt24 v) = 24%nat.
Proof. exact column_width. Qed.
Print Assumptions C67_column_width.

Example C67_case : double (IZR 6602847 / 2).
Proof. exact example_double. Qed.
