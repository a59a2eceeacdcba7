(** What unit conversions are supposed to do (C36-C38). *)
From Coq Require Import Reals List Bool Arith String.
From Coq Require Import List.
From Verif Require Import Base.Vec3 Base.SumR Model.Strings Model.Units Spec.GeometrySpec.
Import ListNotations.
Local Open Scope R_scope.

(** The arrays of an atom have the sizes the memory allocation gives them
    (Atom.cpp:168-240). *)
Definition allocated_atom (a : qatom) : Prop :=
  q_hasSFD a = true ->
  length (q_dEdG a) = (q_numSF a + if q_chargeNeuron a then 1 else 0)%nat /\ length (q_dGdr a) = q_numSF a.
Definition allocated_structure (s : qstructure) : Prop := forall a, In a (qs_atoms s) -> allocated_atom a.

(** The names of convertible properties. *)
Definition known_property (p : str) : Prop :=
  In p [lit "energy"; lit "force"; lit "charge"; lit "hardness"; lit "negativity"].

(** Geometry consistent within a structure. *)
Definition inverse_box (s : qstructure) : Prop :=
  forall v, combine (qs_box s) (matvec (qs_invbox s) v) = v.
Definition cell_volume (s : qstructure) : Prop := qs_volume s = Rabs (det (qs_box s)).
Definition consistent_distances (s : qstructure) : Prop :=
  forall a n, In a (qs_atoms s) -> In n (q_nbs a) -> qn_d n = norm (qn_dr n).

(** Composition-weighted sum of the offsets. *)
Definition composition_offset (offsets : list R) (s : qstructure) : R :=
  rsum (map (fun p => INR (fst p) * snd p) (List.combine (qs_perElement s) offsets)).
