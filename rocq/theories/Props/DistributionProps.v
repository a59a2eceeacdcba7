(** Properties C89, C90: radial and angular distribution functions (nnp-dist). *)
From Coq Require Import Reals ZArith List Arith.
From Verif Require Import Base.SumR Model.NeighborList Model.SymLines Model.Distribution Spec.NeighborSpec Spec.DistributionSpec
  Proofs.DistributionProofs Proofs.DistributionMain Proofs.EnvironmentExamples Proofs.DistributionExamples.
Import ListNotations.
Local Open Scope R_scope.

(** ** C89 *)
(** One file for each unordered pair of elements; its columns are the bin limits,
    the mean over the structures of the normalised numbers of pairs in the bin,
    the same with maximum 1, and the running coordination number. *)
Theorem C89_radial_distribution : forall numElements numBins rc calcAdf nsort structures,
  (0 < numElements)%nat -> (0 < numBins)%nat -> 0 < rc -> is_sort nsort -> structures <> [] ->
  (forall s, In s structures -> readable numElements s /\ none_at_cutoff s rc /\ (calcAdf = true -> apart s)) ->
  exists fuel0, forall fuel, (fuel0 <= fuel)%nat -> exists out, nnp_dist numElements numBins rc calcAdf nsort fuel structures = Done out /\
    NoDup (map fst (o_rdf out)) /\ (forall i j, In (i, j) (map fst (o_rdf out)) <-> (i <= j)%nat /\ (j < numElements)%nat) /\
    forall i j rows, In ((i, j), rows) (o_rdf out) ->
      rdf_rows structures rc i j numBins rows /\ maximum_one (map (fun r => (rr_rdf r, rr_max1 r)) rows) /\ coordination structures rc j numBins rows.
Proof. exact radial_files. Qed.
Print Assumptions C89_radial_distribution.
Example C89_nonvacuous : Forall (suitable 2 10 true) [ho_cell; lone] /\ Forall (suitable 1 (3 / 2) false) [cube].
Proof. exact (conj both_suitable cube_suitable). Qed.

(** Without angles the program finishes exactly if no pair of atoms is at the
    cutoff distance; otherwise it stops with an exception. *)
Theorem C89_outcome : forall numElements numBins rc nsort structures,
  (0 < numElements)%nat -> (0 < numBins)%nat -> 0 < rc -> is_sort nsort -> structures <> [] ->
  Forall (readable numElements) structures -> exists fuel0, forall fuel, (fuel0 <= fuel)%nat ->
  match nnp_dist numElements numBins rc false nsort fuel structures with
  | Done _ => forall s, In s structures -> none_at_cutoff s rc
  | Thrown => ~ (forall s, In s structures -> none_at_cutoff s rc)
  | Undefined => False
  end.
Proof. exact outcomes. Qed.
Print Assumptions C89_outcome.

(** "Every readable data set gets its distribution functions" is false: one pair
    exactly at the cutoff is enough to end the program. *)
Theorem C89_at_cutoff_refuted : exists structures nsort,
  Forall (readable 2) structures /\ Forall apart structures /\ is_sort nsort /\
  exists fuel0, forall fuel, (fuel0 <= fuel)%nat -> nnp_dist 2 100 3 false nsort fuel structures = Thrown.
Proof. exact at_cutoff. Qed.
Print Assumptions C89_at_cutoff_refuted.

(** "The last coordination number is the mean number of neighbors within the
    cutoff" is false: the first bin is never counted in full.  With one bin the
    column is 0 for an atom with neighbors. *)
Theorem C89_coordination_refuted : exists structures nsort fuel out rows row,
  Forall (readable 1) structures /\ Forall (fun s => none_at_cutoff s (3 / 2)) structures /\ is_sort nsort /\
  nnp_dist 1 1 (3 / 2) false nsort fuel structures = Done out /\ In ((0, 0)%nat, rows) (o_rdf out) /\
  nth_error rows 0 = Some row /\ rr_high row = 3 / 2 /\ rr_cn row = Some 0 /\
  forall s, In s structures -> in_range s (3 / 2) 0 0 (1, 0, 0)%Z.
Proof. exact no_coordination. Qed.
Print Assumptions C89_coordination_refuted.

(** ** C90 *)
(** One file for each central element and unordered pair of neighbor elements; its
    columns are the bin limits, the mean over the structures of the fraction of
    triples in the bin, and the same with maximum 1. *)
Theorem C90_angular_distribution : forall numElements numBins rc nsort structures,
  (0 < numElements)%nat -> (0 < numBins)%nat -> 0 < rc -> is_sort nsort -> structures <> [] ->
  (forall s, In s structures -> readable numElements s /\ none_at_cutoff s rc /\ apart s) ->
  exists fuel0, forall fuel, (fuel0 <= fuel)%nat -> exists out, nnp_dist numElements numBins rc true nsort fuel structures = Done out /\
    NoDup (map fst (o_adf out)) /\
    (forall i j k, In (i, (j, k)) (map fst (o_adf out)) <-> (i < numElements)%nat /\ (j <= k)%nat /\ (k < numElements)%nat) /\
    forall i j k rows, In ((i, (j, k)), rows) (o_adf out) ->
      adf_rows structures rc i j k numBins rows /\ maximum_one (map (fun r => (ar_adf r, ar_max1 r)) rows).
Proof. exact angular_files. Qed.
Print Assumptions C90_angular_distribution.
Example C90_nonvacuous : Forall (suitable 2 10 true) [ho_cell; lone].
Proof. exact both_suitable. Qed.

(** If every structure has such a triple, the integral is 1. *)
Theorem C90_integral : forall numElements numBins rc nsort structures,
  (0 < numElements)%nat -> (0 < numBins)%nat -> 0 < rc -> is_sort nsort -> structures <> [] ->
  (forall s, In s structures -> readable numElements s /\ none_at_cutoff s rc /\ apart s) ->
  exists fuel0, forall fuel, (fuel0 <= fuel)%nat -> exists out, nnp_dist numElements numBins rc true nsort fuel structures = Done out /\
    forall i j k rows, In ((i, (j, k)), rows) (o_adf out) ->
      (forall s, In s structures -> ~ triples_with s rc i j k (fun _ => True) 0) ->
      rsum (map (fun r => ar_adf r * (ar_high r - ar_low r)) rows) = 1.
Proof. exact angular_integral. Qed.
Print Assumptions C90_integral.

(** "Integral = 1" as in the file header is false if some structure has none. *)
Theorem C90_integral_refuted : exists structures nsort fuel out i j k rows,
  Forall (readable 2) structures /\ Forall (fun s => none_at_cutoff s 10) structures /\ Forall apart structures /\ is_sort nsort /\
  nnp_dist 2 100 10 true nsort fuel structures = Done out /\ In ((i, (j, k)), rows) (o_adf out) /\
  (exists s c, In s structures /\ triples_with s 10 i j k (fun _ => True) c /\ c <> 0%nat) /\
  rsum (map ar_adf rows) * (180 / 100) = 1 / 2.
Proof. exact half_integral. Qed.
Print Assumptions C90_integral_refuted.
