(** What LAMMPS expects from the interface (C58): energies of its local atoms
    and forces on all its atoms, in LAMMPS units. *)
From Coq Require Import Reals ZArith List Bool Arith Permutation.
From Verif Require Import Base.Vec3 Base.SumR Model.NeuralNetwork Model.NeighborList Model.SymFunctions Model.Forces Model.LammpsInterface
  Spec.NetworkSpec Spec.SymSpec Spec.ForceSpec.
Import ListNotations.
Local Open Scope R_scope.

(** One LAMMPS length (energy) unit in units of the potential; the mean energy
    per atom is used for normalized potentials only. *)
Definition length_unit (I : interface) : R := if_cflength I * (if if_normalize I then if_convLength I else 1).
Definition energy_unit (I : interface) : R := if_cfenergy I * (if if_normalize I then if_convEnergy I else 1).
Definition mean_energy (I : interface) : R := (if if_normalize I then if_mean I else 0) / if_cfenergy I.
Definition offset_energy (I : interface) (el : nat) : R := nth el (if_offsets I) 0 / if_cfenergy I.

(** Atoms 0 .. nlocal-1 are local, atoms up to nall are ghosts; [types] and [x]
    are their types and positions. *)
Section System.
Variables (I : interface) (P : potential) (types : nat -> nat) (nlocal nall : nat) (rc : R).
(** The atom has a type known to the potential. *)
Definition active (i : nat) : bool := negb (if_ignore I (types i)).
Definition element_of (i : nat) : nat := if_element I (types i).

(** Atoms seen by atom i. *)
Definition near (x : nat -> vec) (i j : nat) : bool :=
  if Rle_dec (norm (vsub (x i) (x j))) rc then negb (Nat.eqb j i) && active j else false.
Definition environment (x : nat -> vec) (i : nat) : env :=
  map (fun j => (element_of j, smul (length_unit I) (vsub (x i) (x j)))) (filter (near x i) (seq 0 nall)).
(** Energy of a local atom and total energy, in LAMMPS units. *)
Definition atom_energy (x : nat -> vec) (i : nat) : R :=
  atomic_energy (p_weight P) (p_fs P (element_of i)) (p_net P (element_of i)) (environment x i) / energy_unit I
  + mean_energy I + offset_energy I (element_of i).
Definition active_atoms : list nat := filter active (seq 0 nlocal).
Definition total_energy (x : nat -> vec) : R := rsum (map (atom_energy x) active_atoms).

(** A full neighbor list as LAMMPS builds it: each local atom once, with each
    atom in range (and possibly further ones) once. *)
Definition full_list (x : nat -> vec) (nlist : list (nat * list nat)) : Prop :=
  NoDup (map fst nlist) /\ (forall i, In i (map fst nlist) <-> (i < nlocal)%nat) /\
  forall i js, In (i, js) nlist -> NoDup js /\
    (forall j, In j js -> (j < nall)%nat /\ j <> i) /\
    (forall j, (j < nall)%nat -> j <> i -> norm (vsub (x i) (x j)) <= rc -> In j js).

(** Settings: positive units, elements of the types in use known. *)
Definition configured (N : nat) : Prop :=
  0 < if_cflength I /\ if_cfenergy I <> 0 /\ (if_normalize I = true -> 0 < if_convLength I /\ if_convEnergy I <> 0) /\
  if_numElements I = N /\ length (if_offsets I) = N /\
  (nlocal <= nall)%nat /\ forall i, (i < nall)%nat -> active i = true -> (element_of i < N)%nat.

(** Conditions on symmetry functions and networks in all environments (in any
    order of the neighbors). *)
Definition all_environments (x : nat -> vec) (Q : kind -> env -> Prop) : Prop :=
  forall i e f, In i active_atoms -> Permutation e (environment x i) -> In f (p_fs P (element_of i)) -> Q (sf_kind f) e.
Definition differentiable_networks (x : nat -> vec) : Prop :=
  forall i e, In i active_atoms -> Permutation e (environment x i) ->
    every_neuron regular (evaluate (p_net P (element_of i)) (sf_input (p_weight P) (p_fs P (element_of i)) e)).

(** The p-th atom of the interface stands for LAMMPS atom i: right element and
    energy, all atoms in range as neighbors, with their tags and elements.
    ([tags p] is the tag the interface stores for atom i.) *)
Definition listed_atom (x : nat -> vec) (tags : nat -> Z) (r : lresult) (p i : nat) : Prop :=
  exists y, nth_error (lr_atoms r) p = Some (i, tags p, y) /\ a_element (e_atom y) = element_of i /\
    getAtomicEnergy I r p = Some (atom_energy x i) /\
    Permutation (map nb_index (a_nbs (e_atom y))) (filter (near x i) (seq 0 nall)) /\
    (forall m, In m (a_nbs (e_atom y)) -> nb_tag m = tags (nb_index m) /\ nb_element m = element_of (nb_index m)).
End System.
