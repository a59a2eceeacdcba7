(** How the parts in a shape file make up a symmetry function (C105). *)
From Coq Require Import Reals List Arith Bool.
From Verif Require Import Base.Vec3 Model.SymFunctions Spec.SymSpec.
Import ListNotations.
Local Open Scope R_scope.

(** Factor of a neighbour, or a pair of neighbours, with the given elements: one or
    zero, or the atomic numbers. *)
Definition weight1 (Z : nat -> R) (k : kind) (e : nat) : R :=
  match k with
  | ExpRad p => if Nat.eqb e (er_e1 p) then 1 else 0
  | CompRad p => if Nat.eqb e (cr_e1 p) then 1 else 0
  | _ => Z e
  end.
Definition same_pair (a b c d : nat) : bool := ((Nat.eqb a c && Nat.eqb b d) || (Nat.eqb a d && Nat.eqb b c))%bool.
Definition weight2 (Z : nat -> R) (k : kind) (e f : nat) : R :=
  match k with
  | ExpAngn p | ExpAngw p => if same_pair e f (ea_e1 p) (ea_e2 p) then 1 else 0
  | CompAngn p | CompAngw p => if same_pair e f (ca_e1 p) (ca_e2 p) then 1 else 0
  | _ => Z e * Z f
  end.
(** Is the distance between the two neighbours used? *)
Definition narrow (k : kind) : bool :=
  match k with ExpAngn _ | ExpAngnWeighted _ | CompAngn _ | CompAngnWeighted _ => true | _ => false end.
Definition is_radial (k : kind) : Prop :=
  match k with ExpRad _ | ExpRadWeighted _ | CompRad _ | CompRadWeighted _ => True | _ => False end.
Definition weighted_narrow (k : kind) : Prop := match k with ExpAngnWeighted _ => True | _ => False end.
(** Distances and angles strictly inside the support of compact functions. *)
Definition distance_inside (k : kind) (r : R) : Prop :=
  match k with
  | CompRad p | CompRadWeighted p => cr_rl p < r < cr_rc p
  | CompAngn p | CompAngw p | CompAngnWeighted p | CompAngwWeighted p => ca_rl p < r < ca_rc p
  | _ => True
  end.
(** For the others: angles for which the base of the power is not negative. *)
Definition angle_inside (k : kind) (a : R) : Prop :=
  match k with
  | CompAngn p | CompAngw p | CompAngnWeighted p | CompAngwWeighted p => ca_left p < a < ca_right p
  | ExpAngn p | ExpAngw p | ExpAngnWeighted p => 0 <= 1 + ea_lambda p * cos a
  | _ => True
  end.
Definition angle (x y : vec) : R := acos (cos_angle x y).
