(** Properties C36, C37 and C38: unit conversion and energy offsets. *)
From Coq Require Import Reals Lra List Bool Arith String.
From Coq Require Import List.
From Verif Require Import Base.Vec3 Base.SumR Model.Strings Model.Units Spec.GeometrySpec Spec.UnitsSpec Proofs.UnitsProofs.
Import ListNotations.
Local Open Scope R_scope.

(** ** C36 *)
Theorem C36_structure_round_trip : forall mean cE cL cQ s, cE <> 0 -> cL <> 0 -> cQ <> 0 -> allocated_structure s ->
  (exists s', toNormalizedUnits mean cE cL cQ s = Some s' /\ toPhysicalUnits mean cE cL cQ s' = Some s) /\
  (exists s', toPhysicalUnits mean cE cL cQ s = Some s' /\ toNormalizedUnits mean cE cL cQ s' = Some s).
Proof. exact structure_round_trip. Qed.
Print Assumptions C36_structure_round_trip.

Theorem C36_property_round_trip : forall cE cL cQ p v, cE <> 0 -> cL <> 0 -> cQ <> 0 -> known_property p ->
  (exists w, normalized cE cL cQ p v = Some w /\ physical cE cL cQ p w = Some v) /\
  (exists w, physical cE cL cQ p v = Some w /\ normalized cE cL cQ p w = Some v).
Proof. exact property_round_trip. Qed.
Print Assumptions C36_property_round_trip.

Theorem C36_unknown_property : forall cE cL cQ p v, ~ known_property p ->
  normalized cE cL cQ p v = None /\ physical cE cL cQ p v = None.
Proof. exact property_unknown. Qed.
Print Assumptions C36_unknown_property.

(** What one conversion does to each quantity of an atom (the derivative arrays
    are the subject of C37). *)
Theorem C36_atom_quantities : forall cE cL cQ a, cL <> 0 -> allocated_atom a -> exists a', atom_toNormalized cE cL cQ a = Some a' /\
  normalized cE cL cQ (lit "energy") (q_energy a) = Some (q_energy a') /\
  q_r a' = smul cL (q_r a) /\
  normalized cE cL cQ (lit "force") (vx (q_f a)) = Some (vx (q_f a')) /\
  normalized cE cL cQ (lit "force") (vy (q_f a)) = Some (vy (q_f a')) /\
  normalized cE cL cQ (lit "force") (vz (q_f a)) = Some (vz (q_f a')) /\
  normalized cE cL cQ (lit "force") (vx (q_fRef a)) = Some (vx (q_fRef a')) /\
  normalized cE cL cQ (lit "force") (vy (q_fRef a)) = Some (vy (q_fRef a')) /\
  normalized cE cL cQ (lit "force") (vz (q_fRef a)) = Some (vz (q_fRef a')) /\
  normalized cE cL cQ (lit "charge") (q_charge a) = Some (q_charge a') /\
  normalized cE cL cQ (lit "charge") (q_chargeRef a) = Some (q_chargeRef a').
Proof. exact atom_quantities. Qed.
Print Assumptions C36_atom_quantities.

Theorem C36_energies_agree : forall mean cE cL cQ s s', toNormalizedUnits mean cE cL cQ s = Some s' ->
  qs_energy s' = normalizedEnergy mean cE s false /\ qs_energyRef s' = normalizedEnergy mean cE s true /\
  (cE <> 0 -> physicalEnergy mean cE s' false = qs_energy s /\ physicalEnergy mean cE s' true = qs_energyRef s).
Proof. exact energies_agree. Qed.
Print Assumptions C36_energies_agree.

(** Inverse cell, volume and distances stay consistent. *)
Theorem C36_geometry_consistent : forall mean cE cL cQ s s', 0 < cL -> allocated_structure s -> toNormalizedUnits mean cE cL cQ s = Some s' ->
  (qs_periodic s = true -> inverse_box s -> inverse_box s') /\
  (qs_periodic s = true -> cell_volume s -> cell_volume s') /\
  ((forall a, In a (qs_atoms s) -> q_hasNL a = true) -> consistent_distances s -> consistent_distances s').
Proof. exact geometry_consistent. Qed.
Print Assumptions C36_geometry_consistent.

Example C36_nonvacuous : allocated_structure ex_qs /\ qs_periodic ex_qs = true /\ inverse_box ex_qs /\ cell_volume ex_qs /\ consistent_distances ex_qs /\
  (forall a, In a (qs_atoms ex_qs) -> q_hasNL a = true) /\ known_property (lit "hardness") /\ ~ known_property (lit "dipole").
Proof. exact ex_units. Qed.

(** ** C37 *)
(** Symmetry function and network derivatives, for atoms which have no
    neighbors or no neighbor list.  Missing for the full claim: atoms with
    neighbors, for which it is false, see below. *)
Theorem C37_derivatives_scaled_partial : forall cE cL cQ a, cL <> 0 -> allocated_atom a -> (q_hasNL a = true -> q_nbs a = []) ->
  exists a', atom_toNormalized cE cL cQ a = Some a' /\
  (q_hasSFD a = true ->
     q_dGdr a' = map (fun v => vdiv v cL) (q_dGdr a) /\
     (forall i x, (i < q_numSF a)%nat -> nth_error (q_dEdG a) i = Some x -> nth_error (q_dEdG a') i = Some (x * cE)) /\
     (q_chargeNeuron a = true -> forall x, nth_error (q_dEdG a) (q_numSF a) = Some x -> nth_error (q_dEdG a') (q_numSF a) = Some (x * (cE / cQ)))).
Proof. exact derivatives_scaled. Qed.
Print Assumptions C37_derivatives_scaled_partial.

(** What happens to the derivative arrays in general: the atom's own array is
    divided once more for every neighbor, the neighbors' arrays are not touched. *)
Theorem C37_what_is_scaled : forall cE cL cQ a, cL <> 0 -> allocated_atom a -> q_hasNL a = true -> q_hasSFD a = true ->
  exists a', atom_toNormalized cE cL cQ a = Some a' /\
    q_dGdr a' = map (smul (/ cL ^ (1 + length (q_nbs a)))) (q_dGdr a) /\
    map qn_dGdr (q_nbs a') = map qn_dGdr (q_nbs a).
Proof. exact what_is_scaled. Qed.
Print Assumptions C37_what_is_scaled.

Theorem C37_derivatives_scaled_refuted : exists cE cL cQ a a' n n', allocated_atom a /\ 0 < cE /\ 0 < cL /\ 0 < cQ /\ atom_toNormalized cE cL cQ a = Some a' /\
  q_nbs a = [n] /\ q_nbs a' = [n'] /\ qn_dGdr n = [mkVec 4 0 0] /\ qn_dGdr n' = [mkVec 4 0 0] /\
  q_dGdr a = [mkVec 4 0 0] /\ q_dGdr a' = [vdiv (vdiv (mkVec 4 0 0) cL) cL] /\ q_dGdr a' <> map (fun v => vdiv v cL) (q_dGdr a).
Proof. exact derivatives_not_scaled. Qed.
Print Assumptions C37_derivatives_scaled_refuted.

Example C37_nonvacuous : allocated_atom (ex_qatom []) /\ q_hasSFD (ex_qatom []) = true /\ (q_hasNL (ex_qatom []) = true -> q_nbs (ex_qatom []) = []).
Proof. exact (conj (ex_allocated []) (conj eq_refl (fun _ => eq_refl))). Qed.

(** ** C38 *)
Theorem C38_offsets_exact : forall offsets s (ref : bool), (length offsets <= length (qs_perElement s))%nat ->
  let o := composition_offset offsets s in
  getEnergyOffset offsets s = Some o /\
  getEnergyWithOffset offsets s ref = Some ((if ref then qs_energyRef s else qs_energy s) + o) /\
  (exists s', addEnergyOffset offsets ref s = Some s' /\
     qs_energy s' = qs_energy s + (if ref then 0 else o) /\ qs_energyRef s' = qs_energyRef s + (if ref then o else 0) /\
     removeEnergyOffset offsets ref s' = Some s) /\
  (exists s', removeEnergyOffset offsets ref s = Some s' /\
     qs_energy s' = qs_energy s - (if ref then 0 else o) /\ qs_energyRef s' = qs_energyRef s - (if ref then o else 0) /\
     getEnergyWithOffset offsets s' ref = Some (if ref then qs_energyRef s else qs_energy s) /\ addEnergyOffset offsets ref s' = Some s).
Proof. exact offsets_exact. Qed.
Print Assumptions C38_offsets_exact.

(** Together with unit conversion: remove the offset, convert, convert back,
    add the offset. *)
Theorem C38_offsets_and_units : forall mean cE cL cQ offsets s (ref : bool),
  (length offsets <= length (qs_perElement s))%nat -> cE <> 0 -> cL <> 0 -> cQ <> 0 -> allocated_structure s ->
  exists s1 s2, removeEnergyOffset offsets ref s = Some s1 /\ toNormalizedUnits mean cE cL cQ s1 = Some s2 /\
    (exists o, getEnergyOffset offsets s2 = Some o /\ physicalEnergy mean cE s2 ref + o = (if ref then qs_energyRef s else qs_energy s)) /\
    exists s3, toPhysicalUnits mean cE cL cQ s2 = Some s3 /\ addEnergyOffset offsets ref s3 = Some s.
Proof. exact offsets_and_units. Qed.
Print Assumptions C38_offsets_and_units.

Example C38_nonvacuous : (length [1; 2] <= length (qs_perElement ex_qs))%nat /\ composition_offset [1; 2] ex_qs = 3.
Proof. exact ex_offsets. Qed.
