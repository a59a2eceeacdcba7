(** What a normalized data set is (C103); [mean] and [deviation] are those of
    NormalizationSpec. *)
From Coq Require Import Reals List Arith.
From Verif Require Import Base.Vec3 Model.NormTool Spec.NormalizationSpec.
Import ListNotations.
Local Open Scope R_scope.

(** Energies per atom, force components and charges of a set of structures. *)
Definition set_energies (ss : list ntstruct) : list R := map (fun s => ns_energyRef s / INR (length (ns_atoms s))) ss.
Definition atom_forces (l : list ntatom) : list R := flat_map (fun a => components (nt_fRef a)) l.
Definition set_forces (ss : list ntstruct) : list R := flat_map (fun s => atom_forces (ns_atoms s)) ss.
Definition set_charges (ss : list ntstruct) : list R := flat_map (fun s => map nt_chargeRef (ns_atoms s)) ss.
(** Structures as they are read. *)
Definition filled (s : ntstruct) : Prop := ns_numAtoms s = length (ns_atoms s) /\ ns_atoms s <> [].

(** [t] is [s] in normalized units: the factors turn its values into those of [s]. *)
Definition same_atom (f : factors) (a b : ntatom) : Prop :=
  nt_r a = smul (/ fa_length f) (nt_r b) /\ nt_fRef a = smul (fa_length f / fa_energy f) (nt_fRef b) /\
  nt_chargeRef a = nt_chargeRef b / fa_charge f.
Definition same_structure (f : factors) (s t : ntstruct) : Prop :=
  ns_numAtoms t = ns_numAtoms s /\
  ns_energyRef s = ns_energyRef t / fa_energy f + fa_mean f * INR (length (ns_atoms s)) /\
  ns_chargeRef s = ns_chargeRef t / fa_charge f /\
  m0 (ns_box s) = smul (/ fa_length f) (m0 (ns_box t)) /\ m1 (ns_box s) = smul (/ fa_length f) (m1 (ns_box t)) /\
  m2 (ns_box s) = smul (/ fa_length f) (m2 (ns_box t)) /\
  Forall2 (same_atom f) (ns_atoms s) (ns_atoms t).
