(** Concrete cells for the statements about geometry. *)
From Coq Require Import Reals Lra ZArith List Psatz.
From Verif Require Import Base.Vec3 Model.Geometry Spec.GeometrySpec Proofs.GeometryProofs.
Local Open Scope R_scope.

(** A triclinic cell. *)
Definition tri_box : mat := mkMat (mkVec 3 0 0) (mkVec 1 2 0) (mkVec (-1) 1 5).
Lemma tri_det : det tri_box = 30.
Proof. unfold det, tri_box, dot, cross; cbn. ring. Qed.
Lemma tri_int_range : int_range (matvec (calculateInverseBox tri_box) (mkVec 100 (-50) 7)).
Proof.
  assert (E : matvec (calculateInverseBox tri_box) (mkVec 100 (-50) 7) = mkVec (1271/30) (-257/10) (7/5)).
  { rewrite <- (inv_left tri_box) by (rewrite tri_det; lra). f_equal. apply vec_eq; cbn; field. }
  rewrite E. unfold int_range; cbn. repeat split; apply Rabs_def1; lra.
Qed.
Lemma tri_copies : exists fuel c, calculatePbcCopies fuel tri_box 6 = Some c.
Proof.
  destruct (copies_terminate tri_box 6) as (f & F); [rewrite tri_det; lra|]. destruct (F f (le_n _)) as (c & E & _). eauto.
Qed.
Lemma tri_mic : canMinimumImageConventionBeApplied tri_box (1/2) = true /\
  norm (vadd (mkVec 3 (1/2) 0) (lattice tri_box (-1, 0, 0)%Z)) <= 1/2.
Proof.
  assert (Hlt : forall v, norm2 v < 900 -> 0 < norm2 v -> 1/2 < 30 / norm v / 2).
  { intros v Hv Hp. assert (H0 : 0 < norm v) by (unfold norm; apply sqrt_lt_R0; auto).
    assert (H1 : norm v < 30). { unfold norm. rewrite <- (sqrt_Rsqr 30) by lra. apply sqrt_lt_1_alt. unfold Rsqr. lra. }
    apply (Rmult_lt_reg_r (norm v)); auto. unfold Rdiv. replace (30 * / norm v * / 2 * norm v) with 15 by (field; lra). lra. }
  split.
  - unfold canMinimumImageConventionBeApplied. rewrite projections_eq by (rewrite tri_det; lra). rewrite tri_det, (Rabs_right 30) by lra.
    destruct (Rlt_dec _ _) as [|H]; auto. exfalso. apply H.
    assert (A : 1/2 < 30 / norm (cross (m1 tri_box) (m2 tri_box)) / 2) by (apply Hlt; unfold norm2, cross, tri_box; cbn; lra).
    assert (B : 1/2 < 30 / norm (cross (m0 tri_box) (m2 tri_box)) / 2) by (apply Hlt; unfold norm2, cross, tri_box; cbn; lra).
    assert (C : 1/2 < 30 / norm (cross (m0 tri_box) (m1 tri_box)) / 2) by (apply Hlt; unfold norm2, cross, tri_box; cbn; lra).
    unfold Rmin. repeat destruct (Rle_dec _ _); lra.
  - unfold lattice, combine, tri_box; cbn. apply norm_le_iff; [lra|]. unfold norm2, vadd, smul; cbn. lra.
Qed.
Lemma flat_cell : exists box, det box = 0 /\ forall rc fuel, 0 <= rc -> calculatePbcCopies fuel box rc = None.
Proof.
  exists (mkMat (mkVec 1 0 0) (mkVec 0 1 0) (mkVec 1 1 0)). split; [unfold det, dot, cross; cbn; ring|].
  intros rc fuel H. unfold calculatePbcCopies, projections.
  assert (E : Rabs (dot (m2 (mkMat (mkVec 1 0 0) (mkVec 0 1 0) (mkVec 1 1 0)))
     (normalize (cross (m0 (mkMat (mkVec 1 0 0) (mkVec 0 1 0) (mkVec 1 1 0))) (m1 (mkMat (mkVec 1 0 0) (mkVec 0 1 0) (mkVec 1 1 0)))))) = 0).
  { rewrite dot_normalize. unfold dot, cross; cbn. match goal with |- Rabs (?a / _) = _ => replace a with 0 by ring end.
    unfold Rdiv. rewrite Rmult_0_l. apply Rabs_R0. }
  rewrite E, copies_zero_projection by auto. destruct (copies_loop _ _ _ _); auto. destruct (copies_loop _ _ _ _); auto.
Qed.
