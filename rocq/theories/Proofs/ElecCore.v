(** Response of the charges and Lagrange multipliers. *)
From Coq Require Import Reals ZArith List Bool Arith Lia Lra.
From Coquelicot Require Import Coquelicot.
From Coq Require Import List.
From Verif Require Import Base.Vec3 Base.Loop Base.SumR Base.Linear Base.Implicit Model.Electrostatics.
Import ListNotations.
Local Open Scope R_scope.

Lemma is_derive_const' (c x : R) : is_derive (fun _ => c) x 0.
Proof. apply (is_derive_const c x). Qed.
Section Core.
Variables (N : nat) (solve : solver) (A : R -> matrix) (dA : matrix) (chi : R -> nat -> R) (chi' : nat -> R) (qref : R).
Hypothesis Hsol : exact_solver solve.
Let B t := border N (A t).
Let b t i := if Nat.eqb i N then qref else - chi t i.
Let Q t := solve (N + 1)%nat (B t) (b t).
Hypothesis Hns : nonsingular (N + 1) (B 0).
Hypothesis HdA : forall i j, (i < N)%nat -> (j < N)%nat -> is_derive (fun t => A t i j) 0 (dA i j).
Hypothesis Hchi : forall i, (i < N)%nat -> is_derive (fun t => chi t i) 0 (chi' i).

Definition dborder (i j : nat) : R := if (Nat.ltb i N && Nat.ltb j N)%bool then dA i j else 0.
Lemma border_derive i j : (i < N + 1)%nat -> (j < N + 1)%nat -> is_derive (fun t => B t i j) 0 (dborder i j).
Proof.
  intros Hi Hj. unfold B, border, dborder.
  destruct (Nat.eqb_spec i N), (Nat.eqb_spec j N), (Nat.ltb_spec i N), (Nat.ltb_spec j N); cbn [andb orb]; try lia; try apply is_derive_const'.
  apply HdA; auto.
Qed.
Lemma regular_near : locally 0 (fun t => nonsingular (N + 1) (B t)).
Proof.
  apply nonsingular_near; auto. intros i j Hi Hj. eapply (derive_tends (fun t => B t i j)). now apply border_derive.
Qed.
Definition response_rhs (j : nat) : R := if Nat.ltb j N then - chi' j - sumn N (fun k => dA j k * Q 0 k) else 0.
Lemma response y : solution (N + 1) (B 0) response_rhs y -> forall i, (i < N + 1)%nat -> is_derive (fun t => Q t i) 0 (y i).
Proof.
  intros Hy. apply (linear_implicit (N + 1) B b Q dborder (fun i => if Nat.ltb i N then - chi' i else 0) 0); auto.
  - generalize regular_near. apply filter_imp. intros t Ht. apply Hsol. auto.
  - intros; now apply border_derive.
  - intros i Hi. unfold b. destruct (Nat.eqb_spec i N), (Nat.ltb_spec i N); try lia; [apply is_derive_const'|].
    apply (is_derive_opp (fun t => chi t i)). auto.
  - intros i Hi. rewrite (Hy i Hi). unfold response_rhs, mv. rewrite Nat.add_1_r, sumn_S. unfold dborder at 2. rewrite (Nat.ltb_irrefl N), andb_false_r.
    destruct (Nat.ltb_spec i N).
    + rewrite (sumn_ext N (fun j => dborder i j * Q 0 j) (fun k => dA i k * Q 0 k)). ring.
      intros j Hj. unfold dborder. destruct (Nat.ltb_spec i N), (Nat.ltb_spec j N); try lia; auto.
    + rewrite sumn_zero. ring. intros j Hj. unfold dborder. destruct (Nat.ltb_spec i N); [lia|]. cbn [andb]. ring.
Qed.
Hypothesis Hsym : forall i j, (i < N)%nat -> (j < N)%nat -> A 0 i j = A 0 j i.
Lemma lagrange y lam dE : solution (N + 1) (B 0) response_rhs y ->
  solution (N + 1) (B 0) (fun i => - (if Nat.ltb i N then dE i else 0)) lam ->
  sumn N (fun i => dE i * y i) = sumn N (fun j => lam j * (chi' j + sumn N (fun k => dA j k * Q 0 k))).
Proof.
  intros Hy Hl.
  assert (BS : forall i j, (i < N + 1)%nat -> (j < N + 1)%nat -> B 0 i j = B 0 j i).
  { intros i j Hi Hj. unfold B, border. rewrite (andb_comm (Nat.eqb j N)), (orb_comm (Nat.eqb j N)).
    destruct (Nat.eqb_spec i N), (Nat.eqb_spec j N); cbn [andb orb]; auto. apply Hsym; lia. }
  assert (E : sumn (N + 1) (fun i => mv (N + 1) (B 0) lam i * y i) = sumn (N + 1) (fun j => lam j * mv (N + 1) (B 0) y j)).
  { unfold mv. rewrite (sumn_ext (N + 1) (fun i => sumn (N + 1) (fun j => B 0 i j * lam j) * y i) (fun i => sumn (N + 1) (fun j => B 0 i j * lam j * y i))).
    2:{ intros. now rewrite sumn_scal_r. }
    rewrite sumn_swap. apply sumn_ext. intros j Hj. rewrite <- sumn_scal. apply sumn_ext. intros i Hi. rewrite (BS i j) by auto. ring. }
  rewrite (sumn_ext (N + 1) (fun i => mv (N + 1) (B 0) lam i * y i) (fun i => - (if Nat.ltb i N then dE i else 0) * y i)) in E by (intros i Hi; now rewrite Hl).
  rewrite (sumn_ext (N + 1) (fun j => lam j * mv (N + 1) (B 0) y j) (fun j => lam j * response_rhs j)) in E by (intros i Hi; now rewrite Hy).
  rewrite Nat.add_1_r, !sumn_S in E. unfold response_rhs at 2 in E. rewrite Nat.ltb_irrefl in E.
  rewrite (sumn_ext N _ (fun i => (-1) * (dE i * y i))) in E.
  2:{ intros i Hi. destruct (Nat.ltb_spec i N); [ring|lia]. }
  rewrite (sumn_ext N (fun j => lam j * response_rhs j) (fun j => (-1) * (lam j * (chi' j + sumn N (fun k => dA j k * Q 0 k))))) in E.
  2:{ intros i Hi. unfold response_rhs. destruct (Nat.ltb_spec i N); [ring|lia]. }
  rewrite !sumn_scal in E. lra.
Qed.
End Core.
