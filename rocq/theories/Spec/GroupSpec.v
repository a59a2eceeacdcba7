(** Conditions under which evaluating symmetry functions in groups is the same
    as evaluating them one by one (C29). *)
From Coq Require Import Reals List Bool Arith.
From Verif Require Import Base.Vec3 Model.CutoffFunction Model.CompactScreening Model.Scaling Model.NeighborList
  Model.SymFunctions Spec.SymSpec.
Import ListNotations.
Local Open Scope R_scope.

(** Parameters: the groups of exponential angular functions divide by zeta,
    lambda and the scaling factor, and ignore a negative shift; the compact
    angular functions end at a positive radius. *)
Definition groupable_parameters (factor : R) (k : kind) : Prop :=
  match k with
  | ExpAngn p | ExpAngw p => ea_zeta p <> 0 /\ ea_lambda p <> 0 /\ factor <> 0 /\ 0 <= ea_rs p
  | ExpAngnWeighted p => ea_zeta p <> 0 /\ ea_lambda p <> 0 /\ factor <> 0
  | CompAngn p | CompAngw p | CompAngnWeighted p | CompAngwWeighted p => 0 < ca_rc p
  | _ => True
  end.
(** Among the groups only those of weighted exponential angular functions test
    the size of one element's index list and use another's
    (SymGrpExpAngnWeighted.cpp:240). *)
Definition group_both_cached (nbs : list neighbor) (f : symfnc) : Prop :=
  match sf_kind f with ExpAngnWeighted _ => both_cached nbs f | _ => True end.
Definition group_slots_ok (asg : assignment) (nbs : list neighbor) (f : symfnc) : Prop :=
  (forall e, depends (sf_kind f) e = true -> sf_ci (sf_c f) e = [] \/
     exists c0 c1 r, sf_ci (sf_c f) e = c0 :: c1 :: r /\ asg e c0 c1 (cached_function (sf_kind f))) /\
  group_both_cached nbs f.
(** Two narrow compact angular functions with the same radial interval have the
    same radial function: a group does not look at its subtype. *)
Definition same_radial_part (k l : kind) : Prop :=
  match k, l with
  | CompAngn p, CompAngn q | CompAngnWeighted p, CompAngnWeighted q =>
      ca_rc p = ca_rc q -> ca_rl p = ca_rl q -> forall r, cp_fdf (ca_c p) r = cp_fdf (ca_c q) r
  | _, _ => True
  end.
(** No two neighbours at the same place (narrow types divide by their distance). *)
Definition distinct_neighbors (k : kind) (e : env) : Prop :=
  match k with
  | ExpAngn _ | ExpAngnWeighted _ => on_pairs (fun x y => x <> y) e
  | _ => True
  end.
