(** Independent notions of lattice geometry (C18-C25). *)
From Coq Require Import Reals ZArith.
From Verif Require Import Base.Vec3.
Local Open Scope R_scope.

(** Point with fractional coordinates s in the cell spanned by the box vectors. *)
Definition combine (box : mat) (s : vec) : vec :=
  vadd (vadd (smul (vx s) (m0 box)) (smul (vy s) (m1 box))) (smul (vz s) (m2 box)).
(** Determinant (triple product) of the box vectors. *)
Definition det (box : mat) : R := dot (m0 box) (cross (m1 box) (m2 box)).
(** Lattice vectors. *)
Notation image := (Z * Z * Z)%type.
Definition lattice (box : mat) (m : image) : vec :=
  let '(a, b, c) := m in combine box (mkVec (IZR a) (IZR b) (IZR c)).
(** Fractional coordinates in [0,1). *)
Definition in_cell (s : vec) : Prop := 0 <= vx s < 1 /\ 0 <= vy s < 1 /\ 0 <= vz s < 1.
(** Moderate coordinates: those whose integer part is an int. *)
Definition int_range (s : vec) : Prop :=
  (Rabs (vx s) < 2147483648 /\ Rabs (vy s) < 2147483648 /\ Rabs (vz s) < 2147483648).

(** Image numbers searched with [c] periodic copies in each direction. *)
Definition searched (c : nat * nat * nat) (m : image) : Prop :=
  let '(a, b, d) := c in let '(x, y, z) := m in
  (- Z.of_nat a <= x <= Z.of_nat a)%Z /\ (- Z.of_nat b <= y <= Z.of_nat b)%Z /\ (- Z.of_nat d <= z <= Z.of_nat d)%Z.
(** Fractional difference of two positions inside the same cell. *)
Definition close_frac (s : vec) : Prop := -1 < vx s < 1 /\ -1 < vy s < 1 /\ -1 < vz s < 1.
