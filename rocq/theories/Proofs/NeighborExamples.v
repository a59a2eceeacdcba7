(** A concrete periodic structure for the statements about neighbor lists. *)
From Coq Require Import Reals Lra ZArith List Arith Permutation Sorted.
From Verif Require Import Base.Vec3 Model.Geometry Model.NeighborList Spec.GeometrySpec Spec.NeighborSpec
  Proofs.GeometryProofs Proofs.NeighborProofs Proofs.NeighborMore Proofs.CutoffMapProofs.
Import ListNotations.
Local Open Scope R_scope.

(** Two atoms of different elements in the unit cube. *)
Definition ex_cell : structure :=
  mkStruct true unit_box [fresh_atom 0 vzero 2; fresh_atom 1 (mkVec (1/2) (1/2) (1/2)) 2] 2 false false 0.
Lemma ex_cell_no_list : no_list ex_cell.
Proof. intros a [<-|[<-|[]]]; cbn; auto 10. Qed.
Lemma ex_cell_ok : (exists nsort, is_sort nsort) /\ no_list ex_cell /\ wrapped ex_cell /\ 0 < det (s_box ex_cell) /\
  in_range ex_cell 1 0 1 (0, 0, 0)%Z /\ in_range ex_cell 1 0 0 (1, 0, 0)%Z.
Proof.
  split; [exact id_sort_exists|]. split; [exact ex_cell_no_list|].
  assert (Hd : 0 < det (s_box ex_cell)) by (cbn [ex_cell s_box]; rewrite unit_det; lra).
  split.
  { intros _. split; [lra|]. intros a [<-|[<-|[]]].
    - exists vzero. split; [unfold in_cell; cbn; lra|apply vec_eq; cbn; ring].
    - exists (mkVec (1/2) (1/2) (1/2)). split; [unfold in_cell; cbn; lra|apply vec_eq; cbn; ring]. }
  split; [auto|]. split.
  - do 2 eexists. split; [reflexivity|]. split; [reflexivity|]. split; [discriminate|]. split; [discriminate|].
    unfold displacement, position_of_image, lattice, combine; cbn. apply norm_le_iff; [lra|]. unfold norm2, vsub, vadd, smul; cbn. lra.
  - do 2 eexists. split; [reflexivity|]. split; [reflexivity|]. split; [discriminate|]. split; [discriminate|].
    unfold displacement, position_of_image, lattice, combine; cbn. apply norm_le_iff; [lra|]. unfold norm2, vsub, vadd, smul; cbn. lra.
Qed.
Lemma ex_cell_counters : no_list ex_cell /\ zero_counters ex_cell.
Proof. split; [exact ex_cell_no_list|]. intros a [<-|[<-|[]]]; reflexivity. Qed.
Lemma ex_cell_cutoffs : no_list ex_cell /\ no_cutoff_map ex_cell /\ forall a, In a (s_atoms ex_cell) -> (a_element a < length [[1]; [1/2; 1]])%nat.
Proof. split; [exact ex_cell_no_list|]. split; intros a [<-|[<-|[]]]; cbn; auto. Qed.
