(** Independent specification of neighbor lists (C21-C24). *)
From Coq Require Import Reals ZArith List Permutation Sorted.
From Verif Require Import Base.Vec3 Model.NeighborList Spec.GeometrySpec.
Import ListNotations.
Local Open Scope R_scope.

(** Atom [j] of the structure, in periodic image [m] (the image is displaced by
    minus the lattice vector [m], so that r_i - r_(j,m) = r_i - r_j + m). *)
Definition position_of_image (s : structure) (aj : atom) (m : image) : vec :=
  vsub (a_r aj) (lattice (s_box s) m).
Definition displacement (s : structure) (ai aj : atom) (m : image) : vec :=
  vsub (a_r ai) (position_of_image s aj m).
(** The pairs that must be stored: every other atom or image, also images of the
    atom itself, at a distance of at most the cutoff. *)
Definition in_range (s : structure) (rc : R) (i j : nat) (m : image) : Prop :=
  exists ai aj, nth_error (s_atoms s) i = Some ai /\ nth_error (s_atoms s) j = Some aj /\
    (s_periodic s = false -> m = (0, 0, 0)%Z) /\ (i, (0, 0, 0)%Z) <> (j, m) /\
    norm (displacement s ai aj m) <= rc.
(** What is stored about such a pair. *)
Definition stored (s : structure) (ai : atom) (p : nat * image) (n : neighbor) : Prop :=
  exists aj, nth_error (s_atoms s) (fst p) = Some aj /\
    nb_index n = fst p /\ nb_tag n = Z.of_nat (fst p) /\ nb_element n = a_element aj /\
    nb_dr n = displacement s ai aj (snd p) /\ nb_d n = norm (displacement s ai aj (snd p)).

(** A structure without neighbor list (fresh or after clearNeighborList). *)
Definition no_list (s : structure) : Prop :=
  forall a, In a (s_atoms s) -> a_nbs a = [] /\ a_unique a = [] /\ a_numN a = 0%nat /\ a_numU a = 0%nat /\
    (a_element a < s_numElements s)%nat /\ length (a_perEl a) = s_numElements s.
(** ... whose counters per element are zero (fresh). *)
Definition zero_counters (s : structure) : Prop :=
  forall a, In a (s_atoms s) -> a_perEl a = repeat 0%nat (s_numElements s).
Definition no_cutoff_map (s : structure) : Prop := forall a, In a (s_atoms s) -> a_cutoffs a = [].
(** Periodic structures: a proper cell, and every atom inside it (as after
    remap). *)
Definition wrapped (s : structure) : Prop :=
  s_periodic s = true ->
  det (s_box s) <> 0 /\ forall a, In a (s_atoms s) -> exists f, in_cell f /\ a_r a = combine (s_box s) f.

(** std::sort with Neighbor::operator<: any function returning a permutation
    ordered by distance. *)
Definition is_sort (nsort : list neighbor -> list neighbor) : Prop :=
  forall l, Permutation (nsort l) l /\ Sorted (fun a b => nb_d a <= nb_d b) (nsort l).

Definition count_below (rc : R) (l : list neighbor) : nat :=
  length (filter (fun n => if Rle_dec (nb_d n) rc then true else false) l).
