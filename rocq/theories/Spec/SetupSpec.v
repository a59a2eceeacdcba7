(** What setting up the symmetry functions of an element is supposed to do
    (C29-C31, C33). *)
From Coq Require Import Reals List Bool Arith Permutation Sorted.
From Verif Require Import Base.Vec3 Base.SumR Base.Loop Model.CoreFunction Model.CutoffFunction Model.CompactScreening
  Model.Scaling Model.NeighborList Model.SymFunctions Spec.SymSpec.
Import ListNotations.
Local Open Scope R_scope.

(** The environment in other length units. *)
Definition scaled (conv : R) (e : env) : env := map (fun n => (fst n, smul conv (snd n))) e.

(** The parameters all members of a group must have in common: type, elements
    which enter, and cutoff (Gaussian types). *)
Definition common_cutoff (fc : cutoff_function) (rc : R) (gc : cutoff_function) (qc : R) : Prop :=
  cf_type fc = cf_type gc /\ cf_alpha fc = cf_alpha gc /\ rc = qc.
Definition groupable (k l : kind) : Prop :=
  match k, l with
  | ExpRad p, ExpRad q => er_e1 p = er_e1 q /\ common_cutoff (er_fc p) (er_rc p) (er_fc q) (er_rc q)
  | ExpRadWeighted p, ExpRadWeighted q => common_cutoff (er_fc p) (er_rc p) (er_fc q) (er_rc q)
  | ExpAngn p, ExpAngn q | ExpAngw p, ExpAngw q =>
      ea_e1 p = ea_e1 q /\ ea_e2 p = ea_e2 q /\ common_cutoff (ea_fc p) (ea_rc p) (ea_fc q) (ea_rc q)
  | ExpAngnWeighted p, ExpAngnWeighted q => common_cutoff (ea_fc p) (ea_rc p) (ea_fc q) (ea_rc q)
  | CompRad p, CompRad q => cr_e1 p = cr_e1 q
  | CompAngn p, CompAngn q | CompAngw p, CompAngw q => ca_e1 p = ca_e1 q /\ ca_e2 p = ca_e2 q
  | CompRadWeighted _, CompRadWeighted _ | CompAngnWeighted _, CompAngnWeighted _
  | CompAngwWeighted _, CompAngwWeighted _ => True
  | _, _ => False
  end.

(** What std::sort guarantees for a strict weak ordering. *)
Definition sorts {A} (lt : A -> A -> bool) (sort : list A -> list A) : Prop :=
  forall l, Permutation l (sort l) /\ StronglySorted (fun x y => lt y x = false) (sort l).
(** Strict weak ordering (requirement of std::sort). *)
Definition strict_weak_order {A} (P : A -> Prop) (lt : A -> A -> bool) : Prop :=
  (forall x, P x -> lt x x = false) /\
  (forall x y z, P x -> P y -> P z -> lt x y = true -> lt y z = true -> lt x z = true) /\
  (forall x y z, P x -> P y -> P z -> lt x y = false -> lt y x = false -> lt y z = false -> lt z y = false ->
     lt x z = false /\ lt z x = false).

(** Directional derivative read from the tables of an atom and its neighbours:
    only neighbours of elements the function depends on have an entry. *)
Definition table_directional (f : symfnc) (nbs : list neighbor) (D : loc -> vec) (u : vec) (v : nat -> vec) : R :=
  dot (D (LA (sf_index (sf_c f)))) u +
  rsum (map (fun jn => if depends (sf_kind f) (nb_element (snd jn))
                       then dot (D (LN (fst jn) (sf_perElement (sf_c f) (nb_element (snd jn))))) (v (fst jn)) else 0)
            (List.combine (seq 0 (length nbs)) nbs)).
