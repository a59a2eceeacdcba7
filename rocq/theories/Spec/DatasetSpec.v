(** Specification of numeric force displacements and collective output, independent of the model. *)
From Coq Require Import List Arith ZArith Reals Permutation Sorted.
From Verif Require Import Base.Vec3.
Import ListNotations.

(** All displacements of n atoms: atom, direction, coordinate. *)
Definition displacements (n : nat) : list (nat * nat * Z) :=
  flat_map (fun atom => flat_map (fun sign => map (fun xyz => (atom, xyz, sign)) [0; 1; 2]) [(-1)%Z; 1%Z]) (seq 0 n).
(** Unit vectors and the positions with one atom displaced. *)
Definition axis (c : nat) : vec := match c with 0 => mkVec 1 0 0 | 1 => mkVec 0 1 0 | _ => mkVec 0 0 1 end.
Definition displaced_positions (remap : vec -> vec) (delta : R) (pos : list vec) (d : nat * nat * Z) (pos' : list vec) : Prop :=
  let '(atom, xyz, sign) := d in
  length pos' = length pos /\
  (forall i, i <> atom -> nth_error pos' i = nth_error pos i) /\
  (forall r, nth_error pos atom = Some r -> nth_error pos' atom = Some (remap (vadd r (smul (IZR sign * delta) (axis xyz))))).

(** A distribution of the blocks 0, 1, ... over processes, in increasing order on every process. *)
Definition distributed {B : Type} (loads : list (list (nat * B))) (blocks : list B) : Prop :=
  Permutation (concat loads) (combine (seq 0 (length blocks)) blocks) /\ forall l, In l loads -> StronglySorted lt (map fst l).
