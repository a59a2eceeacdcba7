(** Systems of linear equations over the reals. *)
From Coq Require Import Reals Lra Arith Lia Bool List.
From Verif Require Import Base.SumR.
Local Open Scope R_scope.

(** Matrices and vectors are functions of the indices below their size. *)
Definition mv (n : nat) (A : nat -> nat -> R) (x : nat -> R) (i : nat) : R := sumn n (fun j => A i j * x j).
Definition solution (n : nat) (A : nat -> nat -> R) (b x : nat -> R) : Prop := forall i, (i < n)%nat -> mv n A x i = b i.
Definition nonsingular (n : nat) (A : nat -> nat -> R) : Prop :=
  forall x, solution n A (fun _ => 0) x -> forall i, (i < n)%nat -> x i = 0.
(** An exact solver: right for every regular system. *)
Definition exact_solver (solve : nat -> (nat -> nat -> R) -> (nat -> R) -> nat -> R) : Prop :=
  forall n A b, nonsingular n A -> solution n A b (solve n A b).

Lemma mv_ext n A A' x x' i : (forall j, (j < n)%nat -> A i j = A' i j /\ x j = x' j) -> mv n A x i = mv n A' x' i.
Proof. intros H. apply sumn_ext. intros j Hj. destruct (H j Hj) as [-> ->]. auto. Qed.
Lemma mv_minus n A x y i : mv n A (fun j => x j - y j) i = mv n A x i - mv n A y i.
Proof. unfold mv. rewrite <- sumn_minus. apply sumn_ext. intros; ring. Qed.
Lemma mv_plus n A x y i : mv n A (fun j => x j + y j) i = mv n A x i + mv n A y i.
Proof. unfold mv. rewrite <- sumn_plus. apply sumn_ext. intros; ring. Qed.
Lemma mv_scal n A k x i : mv n A (fun j => k * x j) i = k * mv n A x i.
Proof. unfold mv. rewrite <- sumn_scal. apply sumn_ext. intros; ring. Qed.
Lemma mv_matminus n A B x i : mv n (fun i j => A i j - B i j) x i = mv n A x i - mv n B x i.
Proof. unfold mv. rewrite <- sumn_minus. apply sumn_ext. intros; ring. Qed.
Lemma solution_unique n A b x y : nonsingular n A -> solution n A b x -> solution n A b y -> forall i, (i < n)%nat -> x i = y i.
Proof.
  intros Hn Hx Hy i Hi. assert (E : x i - y i = 0); [|lra].
  apply (Hn (fun j => x j - y j)); auto. intros k Hk. rewrite mv_minus, Hx, Hy by auto. ring.
Qed.

(** Leave out index p. *)
Definition skip (p j : nat) : nat := if Nat.ltb j p then j else S j.
Lemma sumn_skip : forall n f p, (p <= n)%nat -> sumn (S n) f = f p + sumn n (fun j => f (skip p j)).
Proof.
  induction n; intros f p Hp.
  - replace p with 0%nat by lia. unfold sumn; simpl. ring.
  - destruct (Nat.eq_dec p (S n)) as [->|Hne].
    + rewrite sumn_S, Rplus_comm. f_equal. apply sumn_ext. intros i Hi. unfold skip.
      destruct (Nat.ltb_spec i (S n)); auto; lia.
    + rewrite sumn_S, (IHn f p) by lia. rewrite sumn_S. unfold skip at 3.
      destruct (Nat.ltb_spec n p); [lia|]. ring.
Qed.
Definition unskip (p : nat) (v : R) (y : nat -> R) (j : nat) : R :=
  if Nat.eqb j p then v else if Nat.ltb j p then y j else y (pred j).
Lemma unskip_pivot p v y : unskip p v y p = v.
Proof. unfold unskip. now rewrite Nat.eqb_refl. Qed.
Lemma unskip_skip p v y j : unskip p v y (skip p j) = y j.
Proof.
  unfold unskip, skip. destruct (Nat.ltb_spec j p).
  - destruct (Nat.eqb_spec j p); [lia|]. destruct (Nat.ltb_spec j p); [auto|lia].
  - destruct (Nat.eqb_spec (S j) p); [lia|]. destruct (Nat.ltb_spec (S j) p); [lia|]. auto.
Qed.

Lemma find_nonzero (f : nat -> R) n : {p | (p < n)%nat /\ f p <> 0} + {forall j, (j < n)%nat -> f j = 0}.
Proof.
  induction n. { right. intros; lia. }
  destruct IHn as [[p [H1 H2]]|IH]. { left. exists p. split; auto. }
  destruct (Req_EM_T (f n) 0) as [E|E].
  - right. intros j Hj. destruct (Nat.eq_dec j n) as [->|]; auto. apply IH. lia.
  - left. exists n. split; auto.
Qed.

(** More unknowns than equations: a non-trivial solution exists. *)
Lemma null_vector : forall m n A, (m < n)%nat ->
  {x : nat -> R | (exists j, (j < n)%nat /\ x j <> 0) /\ forall i, (i < m)%nat -> mv n A x i = 0}.
Proof.
  induction m; intros n A Hmn.
  { exists (fun _ => 1). split; [exists 0%nat; split; [lia|lra]|]. intros; lia. }
  destruct (find_nonzero (fun j => A m j) n) as [[p [Hp Hpv]]|Hz].
  - destruct n as [|n]; [lia|].
    set (B := fun i j => A i (skip p j) - A i p * A m (skip p j) / A m p).
    destruct (IHm n B ltac:(lia)) as [y [Hy HB]].
    exists (unskip p (- sumn n (fun j => A m (skip p j) * y j) / A m p) y). split.
    + destruct Hy as (j & Hj & Hyj). exists (skip p j). split. { unfold skip. destruct (Nat.ltb_spec j p); lia. }
      rewrite unskip_skip. auto.
    + assert (G : forall i, mv (S n) A (unskip p (- sumn n (fun j => A m (skip p j) * y j) / A m p) y) i
                  = mv n B y i).
      { intros i. unfold mv. rewrite (sumn_skip n _ p) by lia. rewrite unskip_pivot.
        rewrite (sumn_ext n (fun j => A i (skip p j) * unskip p (- sumn n (fun j => A m (skip p j) * y j) / A m p) y (skip p j)) (fun j => A i (skip p j) * y j)).
        2:{ intros j Hj. now rewrite unskip_skip. }
        unfold B.
        rewrite (sumn_ext n (fun j => (A i (skip p j) - A i p * A m (skip p j) / A m p) * y j)
           (fun j => A i (skip p j) * y j - A i p / A m p * (A m (skip p j) * y j))).
        2:{ intros. unfold Rdiv. ring. }
        rewrite sumn_minus, sumn_scal. unfold Rdiv. ring. }
      intros i Hi. rewrite G. destruct (Nat.eq_dec i m) as [->|]; [|apply HB; lia].
      unfold mv. apply sumn_zero. intros j Hj. unfold B. field. auto.
  - destruct (IHm n A ltac:(lia)) as [x [Hx HA]]. exists x. split; auto.
    intros i Hi. destruct (Nat.eq_dec i m) as [->|]; [|apply HA; lia].
    unfold mv. apply sumn_zero. intros j Hj. rewrite (Hz j Hj). ring.
Qed.

(** An exact solver exists. *)
Definition augmented (n : nat) (A : nat -> nat -> R) (b : nat -> R) (i j : nat) : R := if Nat.eqb j n then b i else A i j.
Definition gauss_solve (n : nat) (A : nat -> nat -> R) (b : nat -> R) : nat -> R :=
  let x := proj1_sig (null_vector n (S n) (augmented n A b) (Nat.lt_succ_diag_r n)) in fun j => - x j / x n.
Lemma gauss_solve_exact : exact_solver gauss_solve.
Proof.
  intros n A b Hn. unfold gauss_solve.
  destruct (null_vector n (S n) (augmented n A b) (Nat.lt_succ_diag_r n)) as [x [Hx H0]]. cbn [proj1_sig].
  assert (E : forall i, (i < n)%nat -> mv n A x i = - (b i * x n)).
  { intros i Hi. specialize (H0 i Hi). unfold mv in *. rewrite sumn_S in H0. unfold augmented in H0 at 2.
    rewrite Nat.eqb_refl in H0.
    rewrite (sumn_ext n _ (fun j => A i j * x j)) in H0; [lra|].
    intros j Hj. unfold augmented. destruct (Nat.eqb_spec j n); [lia|auto]. }
  destruct (Req_EM_T (x n) 0) as [Ez|Ez].
  - exfalso. destruct Hx as (j & Hj & Hne). apply Hne. destruct (Nat.eq_dec j n) as [->|]; auto.
    apply (Hn x); [|lia]. intros i Hi. rewrite E, Ez by auto. ring.
  - intros i Hi. rewrite (mv_ext n A A _ (fun j => - / x n * x j)).
    2:{ intros. split; auto. field. auto. }
    rewrite mv_scal, E by auto. field. auto.
Qed.
