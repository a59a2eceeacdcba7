(** Shape files of symmetry functions (C105). *)
From Coq Require Import Reals List Arith.
From Verif Require Import Base.Vec3 Model.SymFunctions Model.Shape Spec.SymSpec Spec.ShapeSpec Proofs.ShapeProofs.
From Coq Require Import List.
Import ListNotations.
Local Open Scope R_scope.

(** A file has n + 1 lines, at equal steps from zero to the largest cutoff radius
    and from zero to pi, with the two parts at these points. *)
Theorem C105_rows : forall conv rmax k n, (0 < n)%nat -> length (shapeRows conv rmax k n) = (n + 1)%nat /\
  forall i, (i <= n)%nat -> nth_error (shapeRows conv rmax k n) i =
    Some (mkRow (INR i / INR n * rmax) (radialPart conv k (INR i / INR n * rmax)) (INR i / INR n * PI) (angularPart k (INR i / INR n * PI))).
Proof. exact rows_ok. Qed.
Print Assumptions C105_rows.

(** Radial types: the product of the two parts is the contribution of a neighbour
    to the symmetry function, in any unit of length; for compact functions only
    inside of their support. *)
Theorem C105_radial_partial : forall Z conv k e x, conv <> 0 -> is_radial k -> distance_inside k (norm x) -> forall a,
  sf_value Z k [(e, x)] = weight1 Z k e * (radialPart conv k (norm x / conv) * angularPart k a).
Proof. exact radial_shape. Qed.
Print Assumptions C105_radial_partial.

(** Angular types except weighted narrow Gaussian ones: the contribution of a pair
    is the product of the radial parts of its two (or, for narrow types, three)
    distances and the angular part of its angle. *)
Theorem C105_angular_partial : forall Z conv k e f x y, conv <> 0 -> ~ is_radial k -> ~ weighted_narrow k ->
  distance_inside k (norm x) -> distance_inside k (norm y) -> (narrow k = true -> distance_inside k (norm (vsub x y))) -> angle_inside k (angle x y) ->
  sf_value Z k [(e, x); (f, y)] = weight2 Z k e f *
    (radialPart conv k (norm x / conv) * radialPart conv k (norm y / conv) *
     (if narrow k then radialPart conv k (norm (vsub x y) / conv) else 1) * angularPart k (angle x y)).
Proof. exact pair_shape. Qed.
Print Assumptions C105_angular_partial.

(** Weighted narrow Gaussian types: the radial part is that of an equilateral
    triangle. *)
Theorem C105_weighted_narrow : forall Z conv k e f x y r, conv <> 0 -> weighted_narrow k ->
  norm x = r -> norm y = r -> norm (vsub x y) = r -> angle_inside k (angle x y) ->
  sf_value Z k [(e, x); (f, y)] = weight2 Z k e f * (radialPart conv k (r / conv) * angularPart k (angle x y)).
Proof. exact weighted_narrow_shape. Qed.
Print Assumptions C105_weighted_narrow.

(** Compact functions: outside of the support the symmetry function is zero, the
    shape file is not. *)
Theorem C105_outside_refuted : exists k x, admissible k /\ is_radial k /\ weight1 (fun _ => 1) k 0 = 1 /\
  sf_value (fun _ => 1) k [(0%nat, x)] = 0 /\ radialPart 1 k (norm x) * angularPart k 0 = -31.
Proof. exact outside_wrong. Qed.
Print Assumptions C105_outside_refuted.

(** The column announced as "Angle in degrees" ends at pi. *)
Theorem C105_degrees_refuted : forall conv rmax k n, (0 < n)%nat -> exists row, nth_error (shapeRows conv rmax k n) n = Some row /\
  sr_distance row = rmax /\ sr_angle row = PI /\ sr_angle row < 180.
Proof. exact degrees_wrong. Qed.
Print Assumptions C105_degrees_refuted.

(** Points inside of the support: a compact radial function, a Gaussian angular one. *)
Example C105_inside : distance_inside shape_kind (norm (mkVec 2 0 0)) /\ radialPart 1 shape_kind (norm (mkVec 2 0 0)) = 1.
Proof. exact inside_example. Qed.
Print Assumptions C105_inside.
Example C105_angle : angle_inside shape_gauss (angle (mkVec 1 0 0) (mkVec 0 1 0)) /\ ~ is_radial shape_gauss /\ ~ weighted_narrow shape_gauss.
Proof. exact angle_example. Qed.
Print Assumptions C105_angle.
