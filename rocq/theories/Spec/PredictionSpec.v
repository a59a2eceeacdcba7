(** What predictions in the units of the structure file are supposed to be (C91). *)
From Coq Require Import Reals ZArith Bool Arith.
From Coquelicot Require Import Coquelicot.
From Coq Require Import List.
From Verif Require Import Base.Vec3 Base.SumR Model.NeighborList Model.Units Model.StructureFile Model.Prediction Spec.GeometrySpec Spec.ForceSpec.
Import ListNotations.
Local Open Scope R_scope.

(** A structure as it is read: all counters are those of the list of atoms, elements are known, atoms are inside the cell. *)
Definition consistent (N : nat) (fs : fstruct) : Prop :=
  fs_numAtoms fs = length (fs_atoms fs) /\ fs_numElements fs = N /\ length (fs_perElement fs) = N /\
  (forall e, nth e (fs_perElement fs) 0%nat = length (filter (fun a => Nat.eqb (fa_element a) e) (fs_atoms fs))) /\
  (forall i a, nth_error (fs_atoms fs) i = Some a -> fa_index a = i /\ (fa_element a < N)%nat /\ fa_charge a = 0 /\ fa_f a = vzero) /\
  (fs_periodic fs = true -> forall a, In a (fs_atoms fs) -> exists c, in_cell c /\ fa_r a = GeometrySpec.combine (fs_box fs) c).

(** One unit of length, energy and charge of the file in units of the potential, and the mean energy per atom. *)
Definition unit_length (M : pmode) : R := if pm_normalize M then pm_cL M else 1.
Definition unit_energy (M : pmode) : R := if pm_normalize M then pm_cE M else 1.
Definition atom_mean (M : pmode) : R := if pm_normalize M then pm_mean M else 0.
Definition proper_units (M : pmode) : Prop :=
  length (pm_offsets M) = pm_N M /\ (pm_normalize M = true -> 0 < pm_cL M /\ pm_cE M <> 0 /\ pm_cQ M <> 0).

(** The structure of the file with all lengths converted to units of the potential. *)
Definition in_model_units (M : pmode) (fs : fstruct) : structure :=
  let k := unit_length M in
  mkStruct (fs_periodic fs)
    (if fs_periodic fs then mkMat (smul k (m0 (fs_box fs))) (smul k (m1 (fs_box fs))) (smul k (m2 (fs_box fs))) else fs_box fs)
    (map (fun a => fresh_atom (fa_element a) (smul k (fa_r a)) (pm_N M)) (fs_atoms fs)) (pm_N M) false false 0.
(** Offset of an element, and what is added for the atoms of a structure. *)
Definition offset (M : pmode) (e : nat) : R := nth e (pm_offsets M) 0.
Definition total_offset (M : pmode) (fs : fstruct) : R := rsum (map (fun a => offset M (fa_element a)) (fs_atoms fs)).
(** The energy of the potential in units of the file: that of the converted structure, converted back, plus mean and offset of each atom. *)
Definition file_energy (M : pmode) (P : potential) (rc : R) (fs : fstruct) (Ep : R) : Prop :=
  exists E, has_energy P rc (in_model_units M fs) E /\
    Ep = E / unit_energy M + rsum (map (fun a => atom_mean M + offset M (fa_element a)) (fs_atoms fs)).
(** Atom i moved by t times u i, in units of the file. *)
Definition moved (u : nat -> vec) (t : R) (fs : fstruct) : fstruct :=
  set_fatoms fs (fs_numAtoms fs) (fs_perElement fs)
    (mapi (fun i a => mkFA (fa_index a) (fa_indexStructure a) (fa_tag a) (fa_element a) (vadd (fa_r a) (smul t (u i))) (fa_charge a) (fa_chargeRef a)
                           (fa_f a) (fa_fRef a) (fa_perEl a)) (fs_atoms fs)).

(** What is written for a structure: the energy of the potential; the reference energy unchanged, difference per atom and offset; energies
    of the atoms which add up to the energy together with means and offsets; reference charges and forces and the geometry unchanged. *)
Definition good_prediction (M : pmode) (P : potential) (rc : R) (fs : fstruct) (q : qstructure) : Prop :=
  file_energy M P rc fs (qs_energy q) /\ (forall E, file_energy M P rc fs E -> E = qs_energy q) /\
  energyRow M q = Some (length (fs_atoms fs), fs_energyRef fs, qs_energy q, (fs_energyRef fs - qs_energy q) / INR (length (fs_atoms fs)), total_offset M fs) /\
  rsum (map snd (atomRows q)) + INR (length (fs_atoms fs)) * atom_mean M + total_offset M fs = qs_energy q /\
  map (fun r => fst (fst (fst r))) (atomRows q) = map fa_chargeRef (fs_atoms fs) /\ length (atomRows q) = length (fs_atoms fs) /\
  map fst (forceRows q) = map fa_fRef (fs_atoms fs) /\
  qs_box q = fs_box fs /\ qs_invbox q = fs_invbox fs /\ qs_volume q = fs_volume fs /\ map q_r (qs_atoms q) = map fa_r (fs_atoms fs).
(** The forces written are minus the gradient of this energy with respect to the positions, all in units of the file. *)
Definition good_forces (M : pmode) (P : potential) (rc : R) (fs : fstruct) (q : qstructure) : Prop :=
  forall u Ef, (forall t, file_energy M P rc (moved u t fs) (Ef t)) ->
    is_derive Ef 0 (- rsum (map (fun ir => dot (snd (snd ir)) (u (fst ir))) (List.combine (seq 0 (length (fs_atoms fs))) (forceRows q)))).
