(** The comparison of neighbors (C22). *)
From Coq Require Import Reals Lra List Permutation Sorted.
From Verif Require Import Base.Vec3 Model.Geometry Model.NeighborList Spec.NeighborSpec Spec.SetupSpec Proofs.SetupExamples.
Import ListNotations.
Local Open Scope R_scope.
Lemma nb_lt_iff a b : nb_lt a b = true <-> nb_d a < nb_d b.
Proof. unfold nb_lt. destruct (Rlt_dec _ _); split; intros; auto; try discriminate; lra. Qed.
Lemma nb_lt_false a b : nb_lt a b = false <-> nb_d b <= nb_d a.
Proof. unfold nb_lt. destruct (Rlt_dec _ _); split; intros; auto; try discriminate; lra. Qed.
Lemma nb_lt_order : strict_weak_order (fun _ => True) nb_lt.
Proof.
  split; [|split].
  - intros x _. apply nb_lt_false. lra.
  - intros x y z _ _ _ A B. apply nb_lt_iff in A, B. apply nb_lt_iff. lra.
  - intros x y z _ _ _ A B C D. apply nb_lt_false in A, B, C, D. split; apply nb_lt_false; lra.
Qed.
Theorem neighbor_sort : strict_weak_order (fun _ => True) nb_lt /\ forall nsort, sorts nb_lt nsort -> is_sort nsort.
Proof.
  split; [apply nb_lt_order|]. intros nsort H l. destruct (H l) as (P & S). split; [now symmetry|].
  apply StronglySorted_Sorted. clear P. induction S as [|x l' S IH F]; constructor; auto. eapply Forall_impl; [|exact F]. intros y Y. now apply nb_lt_false.
Qed.
Lemma neighbor_sort_exists : sorts nb_lt (isort nb_lt).
Proof. apply insertion_sorts, nb_lt_order. Qed.
