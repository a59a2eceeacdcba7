(** Property C58: energies, forces and bookkeeping in the LAMMPS interface. *)
From Coq Require Import Reals ZArith Bool Arith Permutation.
From Coquelicot Require Import Coquelicot.
From Coq Require Import List.
From Verif Require Import Base.Vec3 Base.SumR Model.NeuralNetwork Model.NeighborList Model.SymFunctions Model.SymSetup Model.Forces
  Model.LammpsInterface Spec.NetworkSpec Spec.SymSpec Spec.SetupSpec Spec.ForceSpec Spec.LammpsSpec
  Proofs.LammpsCompute Proofs.LammpsExamples.
Import ListNotations.
Local Open Scope R_scope.

(** C58: atoms of ignored types are skipped; the others are stored with their
    LAMMPS index and element, and the index map leads back to them. *)
Theorem C58_atoms_registered : forall I types nlocal nall N, configured I types nlocal nall N ->
  exists s, setLocalAtoms I nlocal types = Some s /\
  map la_index (ls_atoms s) = active_atoms I types nlocal /\
  map (fun a => a_element (la_atom a)) (ls_atoms s) = map (element_of I types) (active_atoms I types nlocal) /\
  length (ls_perEl s) = N /\
  (forall e, nth e (ls_perEl s) 0%nat = length (filter (fun i => Nat.eqb (element_of I types i) e) (active_atoms I types nlocal))) /\
  (forall i, (i < nlocal)%nat -> match nth_error (ls_map s) i with
     | Some (Some p) => active I types i = true /\ nth_error (active_atoms I types nlocal) p = Some i
     | Some None => active I types i = false
     | None => False
     end).
Proof. exact registered. Qed.
Print Assumptions C58_atoms_registered.

(** C58: the energy is that of the local atoms of known types in their
    environments; each stored atom has the neighbors, neighbor tags and energy of
    the LAMMPS atom it stands for.  The forces added to the array are minus the
    gradient of this energy with respect to the positions of all LAMMPS atoms;
    entries of atoms of ignored types (and behind the last atom) are untouched. *)
Theorem C58_energy_and_forces : forall I P types nlocal nall N rc x tags nlist maxrc f,
  configured I types nlocal nall N -> 0 <= rc -> sensible N (rc * length_unit I) P -> full_list nlocal nall rc x nlist ->
  all_environments I P types nlocal nall rc x evaluable ->
  exists r f', compute I (p_weight P) (setupMemoryAll N (map (p_fs P) (seq 0 N))) (p_net P) maxrc rc nlocal types tags x nlist f =
      Some (r, total_energy I P types nlocal nall rc x, f') /\
    length (lr_atoms r) = length (active_atoms I types nlocal) /\
    (forall p i, nth_error (active_atoms I types nlocal) p = Some i -> listed_atom I P types nall rc x tags r p i) /\
    (forall k, ~ ((k < nall)%nat /\ active I types k = true) -> f' k = f k) /\
    (all_environments I P types nlocal nall rc x smooth_at -> differentiable_networks I P types nlocal nall rc x ->
     forall u, is_derive (fun t => total_energy I P types nlocal nall rc (fun k => vadd (x k) (smul t (u k)))) 0
                 (- sumn nall (fun k => dot (vsub (f' k) (f k)) (u k)))).
Proof. exact compute_ok. Qed.
Print Assumptions C58_energy_and_forces.

(** C58: the energies of the stored atoms add up to the reported energy. *)
Theorem C58_energies_add_up : forall I P types nlocal nall N rc x tags nlist maxrc f,
  configured I types nlocal nall N -> 0 <= rc -> sensible N (rc * length_unit I) P -> full_list nlocal nall rc x nlist ->
  all_environments I P types nlocal nall rc x evaluable ->
  exists r E f' es, compute I (p_weight P) (setupMemoryAll N (map (p_fs P) (seq 0 N))) (p_net P) maxrc rc nlocal types tags x nlist f = Some (r, E, f') /\
    atomEnergies I r (length (lr_atoms r)) = Some es /\ rsum es = E.
Proof. exact sum_of_energies. Qed.
Print Assumptions C58_energies_add_up.

(** C58: if no local atom has an ignored type, the per-atom energies handed to
    LAMMPS and the tags are those of its atoms ...  Missing: local atoms of
    ignored types, where this is false, see below. *)
Theorem C58_per_atom_energies_partial : forall I P types nlocal nall N rc x tags nlist maxrc f,
  configured I types nlocal nall N -> 0 <= rc -> sensible N (rc * length_unit I) P -> full_list nlocal nall rc x nlist ->
  all_environments I P types nlocal nall rc x evaluable -> (forall i, (i < nlocal)%nat -> active I types i = true) ->
  exists r E f', compute I (p_weight P) (setupMemoryAll N (map (p_fs P) (seq 0 N))) (p_net P) maxrc rc nlocal types tags x nlist f = Some (r, E, f') /\
    atomEnergies I r nlocal = Some (map (atom_energy I P types nall rc x) (seq 0 nlocal)) /\
    map (fun a => (fst (fst a), snd (fst a))) (lr_atoms r) = map (fun i => (i, tags i)) (seq 0 nlocal).
Proof. exact energies_in_order. Qed.
Print Assumptions C58_per_atom_energies_partial.

(** ... and so are the positions. *)
Theorem C58_positions_and_tags_partial : forall I types nlocal nall N, configured I types nlocal nall N ->
  forall x, (forall i, (i < nlocal)%nat -> active I types i = true) ->
  exists s, setLocalAtoms I nlocal types = Some s /\
    Forall (fun a => la_tag a = 0%Z) (ls_atoms s) /\ length (ls_atoms s) = nlocal /\
    Forall (fun a => a_r (la_atom a) = smul (length_unit I) (x (la_index a))) (ls_atoms (setLocalAtomPositions I x s)) /\
    forall tags, Forall (fun a => la_tag a = tags (la_index a)) (ls_atoms (setLocalTags tags s)).
Proof. exact positions_right. Qed.
Print Assumptions C58_positions_and_tags_partial.

(** With a local atom of ignored type in front, the stored atom gets a wrong tag,
    its energy is reported for the ignored atom and the loop over the local atoms
    (pair_hdnnp.cpp:110) runs out of bounds. *)
Theorem C58_tags_and_energies_refuted : exists I P types tags x nlist r E f' y,
  configured I types 2 4 2 /\ sensible 2 (9 * length_unit I) P /\ full_list 2 4 9 x nlist /\ all_environments I P types 2 4 9 x evaluable /\
  compute I (p_weight P) (setupMemoryAll 2 (map (p_fs P) (seq 0 2))) (p_net P) (9/2) 9 2 types tags x nlist (fun _ => vzero) = Some (r, E, f') /\
  lr_atoms r = [(1%nat, tags 0%nat, y)] /\ tags 0%nat <> tags 1%nat /\
  getAtomicEnergy I r 0 = Some (atom_energy I P types 4 9 x 1) /\ active I types 0 = false /\ atomEnergies I r 2 = None.
Proof. exact mixed_refuted. Qed.
Print Assumptions C58_tags_and_energies_refuted.
(** Positions are taken from the wrong atom, too. *)
Theorem C58_positions_refuted : exists I types x s a, configured I types 2 4 2 /\ setLocalAtoms I 2 types = Some s /\
  ls_atoms (setLocalAtomPositions I x s) = [a] /\ la_index a = 1%nat /\ a_r (la_atom a) <> smul (length_unit I) (x 1%nat).
Proof. exact mixed_position_refuted. Qed.
Print Assumptions C58_positions_refuted.

Example C58_nonvacuous : configured mixed mixed_types 2 4 2 /\ sensible 2 (9 * length_unit mixed) mixed_P /\ full_list 2 4 9 mixed_x mixed_list /\
  all_environments mixed mixed_P mixed_types 2 4 9 mixed_x evaluable /\ all_environments mixed mixed_P mixed_types 2 4 9 mixed_x smooth_at /\
  differentiable_networks mixed mixed_P mixed_types 2 4 9 mixed_x /\ active_atoms mixed mixed_types 2 = [1%nat].
Proof. exact mixed_ok. Qed.
Example C58_all_active_nonvacuous : configured mixed (fun i => mixed_types (S i)) 2 3 2 /\ forall i, (i < 2)%nat -> active mixed (fun i => mixed_types (S i)) i = true.
Proof. exact mixed_active. Qed.
