(** Numeric forces (C99): how the energy depends on one coordinate. *)
From Coq Require Import Reals ZArith List.
From Coquelicot Require Import Coquelicot.
From Verif Require Import Base.Vec3 Spec.DatasetSpec.
Local Open Scope R_scope.

(** [g t] is the energy with coordinate [xyz] of [atom] displaced by [t = +-delta];
    it can be differentiated three times around zero, the first derivative at zero
    is [d] and the third one is at most [M] between [-delta] and [delta]. *)
Definition smooth_along (energy : list vec -> R) (remap : vec -> vec) (delta : R) (pos : list vec) (atom xyz : nat) (d M : R) : Prop :=
  exists g g1 g2 g3 eta,
    (forall sign pos', sign = 1%Z \/ sign = (-1)%Z -> displaced_positions remap delta pos (atom, xyz, sign) pos' -> energy pos' = g (IZR sign * delta)) /\
    delta < eta /\
    (forall t, Rabs t < eta -> is_derive g t (g1 t) /\ is_derive g1 t (g2 t) /\ is_derive g2 t (g3 t)) /\
    g1 0 = d /\ (forall t, Rabs t <= delta -> Rabs (g3 t) <= M).
