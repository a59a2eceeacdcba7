(** Property C102: cells and charges in the LAMMPS interface. *)
From Coq Require Import Reals ZArith List Arith.
From Verif Require Import Base.Vec3 Model.LammpsInterface Model.LammpsCell Spec.GeometrySpec Spec.LammpsSpec Spec.LammpsCellSpec
  Proofs.LammpsExamples Proofs.LammpsCellProofs.
Import ListNotations.
Local Open Scope R_scope.

(** C102: whatever the cell was before, the cell is afterwards the LAMMPS cell in
    units of the potential: points have the same fractional coordinates in both,
    and the volume is that of the LAMMPS cell. *)
Theorem C102_cell : forall I c s0, 0 < length_unit I -> proper c ->
  let s := setBoxVectors I c s0 in
  lc_periodic s = true /\
  (forall f, combine (lc_box s) f = smul (length_unit I) (combine (lammps_cell c) f)) /\
  (forall f, matvec (lc_invbox s) (smul (length_unit I) (combine (lammps_cell c) f)) = f) /\
  lc_volume s = length_unit I * length_unit I * length_unit I *
    ((vx (bc_hi c) - vx (bc_lo c)) * (vy (bc_hi c) - vy (bc_lo c)) * (vz (bc_hi c) - vz (bc_lo c))).
Proof. exact cell_ok. Qed.
Print Assumptions C102_cell.

(** The distance of an atom to any periodic image of another one is the LAMMPS
    distance. *)
Theorem C102_images : forall I c s0 x y m, 0 < length_unit I ->
  norm (vsub (vsub (smul (length_unit I) x) (smul (length_unit I) y)) (lattice (lc_box (setBoxVectors I c s0)) m)) =
  length_unit I * norm (vsub (vsub x y) (lattice (lammps_cell c) m)).
Proof. exact images_ok. Qed.
Print Assumptions C102_images.

(** After any sequence of cells, the structure is marked triclinic if and only if
    it was before or one of the cells had a positive tilt factor. *)
Theorem C102_triclinic_partial : forall I calls s0,
  lc_triclinic (fold_left (fun s c => setBoxVectors I c s) calls s0) = true <->
  lc_triclinic s0 = true \/ exists c, In c calls /\ tilted_forward c.
Proof. exact triclinic_ok. Qed.
Print Assumptions C102_triclinic_partial.
(** Hence the mark is missing for a cell with a negative tilt factor, and stays
    when the cell becomes orthogonal. *)
Theorem C102_triclinic_refuted :
  (exists I c, 0 < length_unit I /\ proper c /\ oblique c /\ lc_triclinic (setBoxVectors I c start) = false) /\
  (exists I c d, 0 < length_unit I /\ proper c /\ proper d /\ ~ oblique d /\
     lc_triclinic (setBoxVectors I d (setBoxVectors I c start)) = true).
Proof. exact flag_wrong. Qed.
Print Assumptions C102_triclinic_refuted.

(** Without ignored types each local atom gets its own charge; ghosts keep theirs. *)
Theorem C102_charges_partial : forall I types nlocal nall N charges q, configured I types nlocal nall N ->
  (forall i, (i < nlocal)%nat -> active I types i = true) ->
  exists s, setLocalAtoms I nlocal types = Some s /\ (length charges = length (ls_atoms s) ->
  exists q', getCharges true charges (Some q) = Some q' /\
    (forall p a, nth_error (ls_atoms s) p = Some a -> nth_error charges p = Some (q' (la_index a))) /\
    (forall i, (i < nlocal)%nat -> exists p a, nth_error (ls_atoms s) p = Some a /\ la_index a = i) /\
    (forall k, (nlocal <= k)%nat -> q' k = q k)).
Proof. exact charges_ok. Qed.
Print Assumptions C102_charges_partial.
(** With a local atom of ignored type in front, the charge of atom 1 is given to
    atom 0. *)
Theorem C102_charges_refuted : exists I types s a q', configured I types 2 4 2 /\ setLocalAtoms I 2 types = Some s /\ ls_atoms s = [a] /\
  getCharges true [5] (Some (fun _ => 0)) = Some q' /\ active I types 0 = false /\ q' 0%nat = 5 /\ la_index a = 1%nat /\ q' 1%nat = 0.
Proof. exact charges_wrong. Qed.
Print Assumptions C102_charges_refuted.

Example C102_sheared_cell : 0 < length_unit mixed /\ proper sheared /\ oblique sheared /\ tilted_forward forward.
Proof. exact cell_example. Qed.
Example C102_all_active : configured mixed (fun i => mixed_types (S i)) 2 3 2 /\ forall i, (i < 2)%nat -> active mixed (fun i => mixed_types (S i)) i = true.
Proof. exact mixed_active. Qed.
