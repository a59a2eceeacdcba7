(** Properties C18-C20, C25: cell geometry. *)
From Coq Require Import Reals Lra ZArith List.
From Verif Require Import Base.Vec3 Model.Geometry Spec.GeometrySpec Proofs.GeometryProofs Proofs.GeometryExamples.
Local Open Scope R_scope.

(** ** C18 *)
Theorem C18_left_inverse : forall box, det box <> 0 -> forall s, matvec (calculateInverseBox box) (combine box s) = s.
Proof. exact inv_left. Qed.
Print Assumptions C18_left_inverse.

Theorem C18_right_inverse : forall box, det box <> 0 -> forall r, combine box (matvec (calculateInverseBox box) r) = r.
Proof. exact inv_right. Qed.
Print Assumptions C18_right_inverse.

Theorem C18_volume : forall box, calculateVolume box = Rabs (det box).
Proof. exact volume_det. Qed.
Print Assumptions C18_volume.

Example C18_nonvacuous : det tri_box = 30.
Proof. exact tri_det. Qed.

(** ** C19 *)
Theorem C19_remap : forall box r, det box <> 0 -> int_range (matvec (calculateInverseBox box) r) ->
  exists r', remap box (calculateInverseBox box) r = Some r' /\
    (exists s, in_cell s /\ r' = combine box s) /\
    (exists m, r' = vadd r (lattice box m)) /\
    remap box (calculateInverseBox box) r' = Some r'.
Proof. exact remap_correct. Qed.
Print Assumptions C19_remap.

Theorem C19_inside_unchanged : forall box s, det box <> 0 -> in_cell s ->
  remap box (calculateInverseBox box) (combine box s) = Some (combine box s).
Proof. exact remap_in_cell. Qed.
Print Assumptions C19_inside_unchanged.

(** Without the restriction to the range of int the conversion is undefined. *)
Theorem C19_far_atom_refuted : exists box r, det box <> 0 /\ remap box (calculateInverseBox box) r = None.
Proof. exact remap_far. Qed.
Print Assumptions C19_far_atom_refuted.

Example C19_nonvacuous : int_range (matvec (calculateInverseBox tri_box) (mkVec 100 (-50) 7)).
Proof. exact tri_int_range. Qed.

(** ** C20 *)
Theorem C20_copies_terminate : forall box rc, det box <> 0 -> exists fuel, forall fuel', (fuel <= fuel')%nat ->
  exists c, calculatePbcCopies fuel' box rc = Some c /\ calculatePbcCopies fuel box rc = Some c.
Proof. exact copies_terminate. Qed.
Print Assumptions C20_copies_terminate.

Theorem C20_copies_suffice : forall box rc fuel c s m, det box <> 0 -> calculatePbcCopies fuel box rc = Some c ->
  close_frac s -> norm (vadd (combine box s) (lattice box m)) <= rc -> searched c m.
Proof. exact copies_suffice. Qed.
Print Assumptions C20_copies_suffice.

(** A cell with parallel vectors makes the search for the number of copies run
    forever. *)
Theorem C20_flat_cell_refuted : exists box, det box = 0 /\ forall rc fuel, 0 <= rc -> calculatePbcCopies fuel box rc = None.
Proof. exact flat_cell. Qed.
Print Assumptions C20_flat_cell_refuted.

Example C20_nonvacuous : exists fuel c, calculatePbcCopies fuel tri_box 6 = Some c.
Proof. exact tri_copies. Qed.

(** ** C25 *)
Theorem C25_minimum_image_found : forall box rc dr m, det box <> 0 -> canMinimumImageConventionBeApplied box rc = true ->
  norm (vadd dr (lattice box m)) <= rc ->
  applyMinimumImageConvention box (calculateInverseBox box) dr = vadd dr (lattice box m).
Proof. exact mic_unique. Qed.
Print Assumptions C25_minimum_image_found.

Theorem C25_at_most_one_image : forall box rc dr m m', det box <> 0 -> canMinimumImageConventionBeApplied box rc = true ->
  norm (vadd dr (lattice box m)) <= rc -> norm (vadd dr (lattice box m')) <= rc -> m = m'.
Proof. exact mic_at_most_one. Qed.
Print Assumptions C25_at_most_one_image.

Theorem C25_result_is_image : forall box dr, det box <> 0 -> exists m s,
  applyMinimumImageConvention box (calculateInverseBox box) dr = vadd dr (lattice box m) /\
  applyMinimumImageConvention box (calculateInverseBox box) dr = combine box s /\
  Rabs (vx s) <= / 2 /\ Rabs (vy s) <= / 2 /\ Rabs (vz s) <= / 2.
Proof. exact mic_image. Qed.
Print Assumptions C25_result_is_image.

(** Beyond the accepted cutoff the result need not be the nearest image. *)
Theorem C25_not_nearest_image_refuted : exists box dr m, det box <> 0 /\
  norm (vadd dr (lattice box m)) < norm (applyMinimumImageConvention box (calculateInverseBox box) dr).
Proof. exact mic_not_shortest. Qed.
Print Assumptions C25_not_nearest_image_refuted.

Example C25_nonvacuous : canMinimumImageConventionBeApplied tri_box (1/2) = true /\
  norm (vadd (mkVec 3 (1/2) 0) (lattice tri_box (-1, 0, 0)%Z)) <= 1/2.
Proof. exact tri_mic. Qed.
