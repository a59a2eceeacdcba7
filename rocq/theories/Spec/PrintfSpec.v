(** Numbers representable as double (IEEE 754 binary64). *)
From Coq Require Import Reals ZArith.
Local Open Scope R_scope.

Definition double (v : R) : Prop :=
  exists m e : Z, (Z.abs m < 2 ^ 53)%Z /\ (-1074 <= e <= 971)%Z /\ v = IZR m * powerRZ 2 e.
