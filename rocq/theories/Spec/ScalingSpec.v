(** Independent specification for symmetry function scaling and statistics
    (C12, C13). *)
From Coq Require Import Reals List.
From Verif Require Import Base.SumR Model.Scaling.
Import ListNotations.
Local Open Scope R_scope.

(** Data for which the scaling map is not constant or undefined. *)
Definition nondegenerate (s : scaling) : Prop :=
  match scalingType s with
  | ST_NONE | ST_CENTER => True
  | ST_SCALE | ST_SCALECENTER => s_Gmin s <> s_Gmax s /\ s_Smin s <> s_Smax s
  | ST_SCALESIGMA => s_Gsigma s <> 0 /\ s_Smin s <> s_Smax s
  end.

(** The formulas of the documentation (Mode.cpp log output). *)
Definition documented_scale (t : scaling_type) (Gmin Gmax Gmean Gsigma Smin Smax G : R) : R :=
  match t with
  | ST_NONE => G
  | ST_SCALE => Smin + (Smax - Smin) * (G - Gmin) / (Gmax - Gmin)
  | ST_CENTER => G - Gmean
  | ST_SCALECENTER => Smin + (Smax - Smin) * (G - Gmean) / (Gmax - Gmin)
  | ST_SCALESIGMA => Smin + (Smax - Smin) * (G - Gmean) / Gsigma
  end.

(** Value outside the range by more than the tolerance 1000 * 2^-52. *)
Definition out_of_range (lo hi v : R) : Prop := v < lo - 1000 / 2 ^ 52 \/ hi + 1000 / 2 ^ 52 < v.

Definition is_minimum (m : R) (l : list R) : Prop := In m l /\ forall x, In x l -> m <= x.
Definition is_maximum (m : R) (l : list R) : Prop := In m l /\ forall x, In x l -> x <= m.

(** The five statistics numbers of a list of values. *)
Definition statistics_of (l : list R) (n : nat) (mn mx s s2 : R) : Prop :=
  n = length l /\ s = rsum l /\ s2 = rsum (map (fun x => x * x) l) /\
  (l <> [] -> is_minimum mn l /\ is_maximum mx l).

(** Representable as a double. *)
Definition finite_double (x : R) : Prop := - dbl_max <= x <= dbl_max.

(** All values seen for symmetry function [j] in a history of atoms
    [(structure, atom, G)]. *)
Definition column (j : nat) (atoms : list (nat * nat * list R)) : list R :=
  flat_map (fun a => match nth_error (snd a) j with Some g => [g] | None => [] end) atoms.

(** The history flattened to single evaluations
    (structure, atom, (symmetry function, scaled value)). *)
Definition evaluations (sfs : list sf_stat) (atoms : list (nat * nat * list R))
  : list (nat * nat * (sf_stat * R)) :=
  flat_map (fun a => map (fun p => (fst a, p)) (combine sfs (snd a))) atoms.

(** Unscaled value of an evaluation, and whether it deserves a warning. *)
Definition raw_value (e : nat * nat * (sf_stat * R)) : R := unscale (sf_scaling (fst (snd e))) (snd (snd e)).
Definition warned (e : nat * nat * (sf_stat * R)) : Prop :=
  let s := sf_scaling (fst (snd e)) in out_of_range (s_Gmin s) (s_Gmax s) (raw_value e).

(** [selected P l l']: [l'] consists of the elements of [l] satisfying [P], in order. *)
Inductive selected {A} (P : A -> Prop) : list A -> list A -> Prop :=
| sel_nil : selected P [] []
| sel_yes x l l' : P x -> selected P l l' -> selected P (x :: l) (x :: l')
| sel_no x l l' : ~ P x -> selected P l l' -> selected P (x :: l) l'.

(** A container holding the statistics of the values [l], in the state left by
    a history (start values kept if there was no value). *)
Definition holds (l : list R) (c : container) : Prop :=
  statistics_of l (c_count c) (c_min c) (c_max c) (c_sum c) (c_sum2 c) /\
  (l = [] -> c_min c = dbl_max /\ c_max c = - dbl_max) /\
  Forall finite_double l.
