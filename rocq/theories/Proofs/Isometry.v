(** Distance preserving maps of space. *)
From Coq Require Import Reals Lra Lia ZArith List Permutation.
From Verif Require Import Base.Vec3 Model.Geometry Model.NeighborList Spec.GeometrySpec Spec.NeighborSpec Spec.SymSpec Spec.GroupSpec Spec.InvarianceSpec
  Proofs.GeometryProofs Proofs.SymInv.
Import ListNotations.
Local Open Scope R_scope.

Lemma vsub_zero_eq a b : vsub a b = vzero -> a = b.
Proof. intros H. unfold vsub, vzero in H. injection H as A B C. apply vec_eq; lra. Qed.
Lemma dot_polar2 a b : dot a b = (norm2 a + norm2 b - norm2 (vsub a b)) / 2.
Proof. unfold dot, norm2, vsub; cbn. field. Qed.
Lemma dot_ext f g : (forall v, dot f v = dot g v) -> f = g.
Proof.
  intros H. apply vsub_zero_eq, norm2_zero. rewrite norm2_dot.
  transitivity (dot f (vsub f g) - dot g (vsub f g)); [unfold dot, vsub; cbn; ring|]. rewrite H. ring.
Qed.

Section Isometry.
Variable g : vec -> vec.
Hypothesis Hg : isometry g.
Let A := linear_part g.

Lemma lp_zero : A vzero = vzero.
Proof. unfold A, linear_part. apply vsub_self. Qed.
Lemma lp_diff x y : vsub (A x) (A y) = vsub (g x) (g y).
Proof. unfold A, linear_part. vring. Qed.
Lemma lp_norm_diff x y : norm (vsub (A x) (A y)) = norm (vsub x y).
Proof. rewrite lp_diff. apply Hg. Qed.
Lemma lp_norm x : norm (A x) = norm x.
Proof.
  replace (A x) with (vsub (A x) (A vzero)) by (rewrite lp_zero; vring). rewrite lp_norm_diff. f_equal. vring.
Qed.
Lemma lp_norm2_diff x y : norm2 (vsub (A x) (A y)) = norm2 (vsub x y).
Proof. rewrite <- !norm_sq, lp_norm_diff. reflexivity. Qed.
Lemma lp_norm2 x : norm2 (A x) = norm2 x.
Proof. rewrite <- !norm_sq, lp_norm. reflexivity. Qed.
Lemma lp_dot x y : dot (A x) (A y) = dot x y.
Proof. now rewrite !dot_polar2, lp_norm2_diff, !lp_norm2. Qed.
Lemma lp_combination (a b : R) x y z : z = vadd (smul a x) (smul b y) -> A z = vadd (smul a (A x)) (smul b (A y)).
Proof.
  intros E. apply vsub_zero_eq, norm2_zero.
  transitivity (dot (A z) (A z) + a * a * dot (A x) (A x) + b * b * dot (A y) (A y) - 2 * a * dot (A z) (A x) - 2 * b * dot (A z) (A y)
     + 2 * a * b * dot (A x) (A y)).
  { unfold norm2, dot, vsub, vadd, smul; cbn. ring. }
  rewrite !lp_dot, E. unfold dot, vadd, smul; cbn. ring.
Qed.
Lemma lp_add x y : A (vadd x y) = vadd (A x) (A y).
Proof. rewrite (lp_combination 1 1 x y) by vring. vring. Qed.
Lemma lp_sub x y : A (vsub x y) = vsub (A x) (A y).
Proof. rewrite (lp_combination 1 (-1) x y) by vring. vring. Qed.
Lemma lp_smul s x : A (smul s x) = smul s (A x).
Proof. rewrite (lp_combination s 0 x x) by vring. vring. Qed.
Lemma lp_inj x y : A x = A y -> x = y.
Proof.
  intros E. apply vsub_zero_eq, norm_zero_iff. rewrite <- lp_norm_diff, E, vsub_self. now apply norm_zero_iff.
Qed.
Lemma lp_surj y : exists x, A x = y.
Proof.
  set (e1 := mkVec 1 0 0). set (e2 := mkVec 0 1 0). set (e3 := mkVec 0 0 1).
  set (box := mkMat (A e1) (A e2) (A e3)).
  assert (C : forall s, combine box s = A s).
  { intros s. unfold combine, box; cbn [m0 m1 m2]. rewrite <- !lp_smul, <- !lp_add. f_equal. unfold e1, e2, e3. vring. }
  assert (D : det box * det box = 1).
  { transitivity (dot (A e1) (A e1) * (dot (A e2) (A e2) * dot (A e3) (A e3) - dot (A e2) (A e3) * dot (A e2) (A e3))
      - dot (A e1) (A e2) * (dot (A e1) (A e2) * dot (A e3) (A e3) - dot (A e2) (A e3) * dot (A e1) (A e3))
      + dot (A e1) (A e3) * (dot (A e1) (A e2) * dot (A e2) (A e3) - dot (A e2) (A e2) * dot (A e1) (A e3))).
    - unfold det, box, cross, dot; cbn. ring.
    - rewrite !lp_dot. unfold dot, e1, e2, e3; cbn. ring. }
  exists (matvec (calculateInverseBox box) y). rewrite <- C. apply inv_right. intros E. rewrite E in D. lra.
Qed.
Lemma g_lp x : g x = vadd (A x) (g vzero).
Proof. unfold A, linear_part. vring. Qed.

(** Environments. *)
Definition rotated (e : env) : env := map (fun n => (fst n, A (snd n))) e.
Lemma rotated_congruent e : congruent e (rotated e).
Proof.
  unfold rotated. split; [|split].
  - rewrite map_map. reflexivity.
  - intros j n n' H. rewrite nth_error_map, H. intros [= <-]. cbn. symmetry. apply lp_norm.
  - intros j k n n' m m' H H1 H2 H3. rewrite nth_error_map, H in H1. rewrite nth_error_map, H2 in H3.
    injection H1 as <-. injection H3 as <-. cbn. symmetry. apply lp_norm_diff.
Qed.
End Isometry.

Lemma on_pairs_congruent (P : vec -> vec -> Prop) e e' : (forall x y x' y', norm x = norm x' -> norm y = norm y' ->
  norm (vsub x y) = norm (vsub x' y') -> P x y -> P x' y') -> congruent e e' -> on_pairs P e -> on_pairs P e'.
Proof.
  intros HP C HQ j l n' m' Hl Hn' Hm'. assert (L := congruent_length _ _ C). destruct C as (_ & C1 & C2).
  assert (X : forall j n', nth_error e' j = Some n' -> exists n, nth_error e j = Some n).
  { intros q z H. destruct (nth_error e q) eqn:Q; eauto. apply nth_error_None in Q.
    assert (q < length e')%nat by (apply nth_error_Some; congruence). lia. }
  destruct (X j n' Hn') as (n & Hn). destruct (X l m' Hm') as (m & Hm). apply (HP (snd n) (snd m)); eauto.
Qed.
Lemma different_congruent x y x' y' : norm (vsub x y) = norm (vsub x' y') -> x <> y -> x' <> y'.
Proof.
  intros D N ->. apply N. apply vsub_zero_eq, norm_zero_iff. rewrite D, vsub_self. now apply norm_zero_iff.
Qed.
Lemma smooth_congruent k e e' : congruent e e' -> smooth_at k e -> smooth_at k e'.
Proof.
  intros C [E1 E2]. split; [eapply evaluable_congruent; eauto|].
  destruct k; auto; destruct E2 as [Ha Hb]; (split; [exact Ha|]); revert Hb; apply on_pairs_congruent; auto;
    intros x y x' y' X Y W; unfold smooth_power; rewrite (congruent_pair_cos x y x' y') by auto; auto.
  all: intros [D Hb]; split; auto; eapply different_congruent; eauto.
Qed.
Lemma distinct_congruent k e e' : congruent e e' -> distinct_neighbors k e -> distinct_neighbors k e'.
Proof.
  intros C. destruct k; cbn; auto; apply on_pairs_congruent; auto; intros x y x' y' _ _ W; now apply different_congruent.
Qed.
