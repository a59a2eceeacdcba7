(** The same atoms described in different ways, copies of a cell, and groups of
    atoms out of each other's reach (C68-C70). *)
From Coq Require Import Reals ZArith List Arith.
From Verif Require Import Base.Vec3 Model.NeighborList Spec.GeometrySpec Spec.NeighborSpec Spec.SymSpec.
Import ListNotations.
Local Open Scope R_scope.

(** What a motion of space (translation, rotation, reflection, or a combination)
    does to differences of positions. *)
Definition linear_part (g : vec -> vec) (v : vec) : vec := vsub (g v) (g vzero).

(** The box vectors of box' span the lattice of box moved by g (they need not be
    the moved box vectors). *)
Definition same_lattice (g : vec -> vec) (box box' : mat) : Prop :=
  (forall m, exists m', lattice box' m' = linear_part g (lattice box m)) /\
  (forall m', exists m, lattice box' m' = linear_part g (lattice box m)).

(** s' is s moved by g, with the atoms in another order (atom i became number
    p i), possibly other cell vectors of the same lattice, and atoms possibly
    replaced by periodic images. *)
Definition same_system (g : vec -> vec) (p : nat -> nat) (s s' : structure) : Prop :=
  isometry g /\ s_periodic s' = s_periodic s /\
  (s_periodic s = true -> same_lattice g (s_box s) (s_box s')) /\
  length (s_atoms s') = length (s_atoms s) /\
  (forall i j, (i < length (s_atoms s))%nat -> (j < length (s_atoms s))%nat -> p i = p j -> i = j) /\
  forall i a, nth_error (s_atoms s) i = Some a -> exists a' m,
    nth_error (s_atoms s') (p i) = Some a' /\ a_element a' = a_element a /\
    a_r a' = vadd (g (a_r a)) (lattice (s_box s') m) /\ (s_periodic s = false -> m = (0, 0, 0)%Z).

(** A supercell of n1 x n2 x n3 copies of the cell of s: one copy of all atoms
    for each cell, one cell after the other. *)
Definition cells (n1 n2 n3 : nat) : list image :=
  list_prod (list_prod (map Z.of_nat (seq 0 n1)) (map Z.of_nat (seq 0 n2))) (map Z.of_nat (seq 0 n3)).
Definition stretched (n1 n2 n3 : nat) (b : mat) : mat :=
  mkMat (smul (INR n1) (m0 b)) (smul (INR n2) (m1 b)) (smul (INR n3) (m2 b)).
Definition moved_to (b : mat) (c : image) (a : atom) : atom :=
  mkAtom (a_element a) (vadd (a_r a) (lattice b c)) (a_hasNL a) (a_sorted a) (a_numN a) (a_numU a) (a_perEl a) (a_unique a) (a_nbs a) (a_cutoffs a).
Definition supercell (n1 n2 n3 : nat) (s : structure) : structure :=
  mkStruct (s_periodic s) (stretched n1 n2 n3 (s_box s))
    (flat_map (fun c => map (moved_to (s_box s) c) (s_atoms s)) (cells n1 n2 n3))
    (s_numElements s) (s_hasNL s) (s_sorted s) (s_maxrc s).

(** All atoms of s and t in one structure, the atoms of t last. *)
Definition together (s t : structure) : structure :=
  mkStruct (s_periodic s) (s_box s) (s_atoms s ++ s_atoms t) (s_numElements s) (s_hasNL s) (s_sorted s) (s_maxrc s).
(** No atom of t, nor one of its images, is within rc of an atom of s. *)
Definition out_of_reach (rc : R) (s t : structure) : Prop :=
  s_periodic t = s_periodic s /\ s_box t = s_box s /\
  forall a b m, In a (s_atoms s) -> In b (s_atoms t) -> (s_periodic s = false -> m = (0, 0, 0)%Z) ->
    rc < norm (vsub (a_r a) (vadd (a_r b) (lattice (s_box s) m))).
