(** Comparison of two potentials and selection (C104). *)
From Coq Require Import Reals List Arith Ascii.
From Verif Require Import Base.Vec3 Base.SumR Model.Strings Model.Comp2.
Import ListNotations.
Local Open Scope R_scope.

(** Absolute values of all components. *)
Definition abs_components (l : list vec) : list R := flat_map (fun v => [Rabs (vx v); Rabs (vy v); Rabs (vz v)]) l.
(** The largest of the numbers (zero if there are none). *)
Definition is_largest (l : list R) (m : R) : Prop := (forall x, In x l -> x <= m) /\ (In m l \/ l = [] /\ m = 0).
(** A structure exceeds a threshold; thresholds that are not positive are off. *)
Definition many_warnings (t : nat) (s : centry) : Prop := (0 < t <= ce_ew s)%nat.
Definition energy_differs (t : R) (s : centry) : Prop := 0 < t < Rabs (ce_energy s) / INR (length (ce_forces s)).
Definition force_differs (t : R) (s : centry) : Prop := 0 < t /\ exists x, In x (abs_components (ce_forces s)) /\ t < x.
Definition exceeds (tW : nat) (tE tF : R) (s : centry) : Prop := many_warnings tW s \/ energy_differs tE s \/ force_differs tF s.
(** [n] of the elements have the property. *)
Inductive counts {A} (P : A -> Prop) : list A -> nat -> Prop :=
| counts_nil : counts P [] 0
| counts_yes x l n : P x -> counts P l n -> counts P (x :: l) (S n)
| counts_no x l n : ~ P x -> counts P l n -> counts P (x :: l) n.
(** The elements with the property, in order, with their positions from [i]. *)
Inductive chosen {A} (P : A -> Prop) : nat -> list A -> list nat -> list A -> Prop :=
| chosen_nil i : chosen P i [] [] []
| chosen_yes i x l k r : P x -> chosen P (S i) l k r -> chosen P i (x :: l) (i :: k) (x :: r)
| chosen_no i x l k r : ~ P x -> chosen P (S i) l k r -> chosen P i (x :: l) k r.
(** Number of conversions in a format (for formats without "%%"). *)
Definition conversions (f : str) : nat := count_occ ascii_dec f "%"%char.
