(** Specification of the update algorithms: linear algebra notions, annealing laws and the published rules,
    independent of the model. *)
From Coq Require Import Reals List Arith.
From Verif Require Import Base.SumR.
Import ListNotations.
Open Scope R_scope.

Definition symmetric (n : nat) (P : nat -> nat -> R) : Prop := forall i j, (i < n)%nat -> (j < n)%nat -> P i j = P j i.
Definition nonzero (n : nat) (x : nat -> R) : Prop := exists i, (i < n)%nat /\ x i <> 0.
Definition quadratic (n : nat) (P : nat -> nat -> R) (x : nat -> R) : R :=
  sumn n (fun i => sumn n (fun j => x i * P i j * x j)).
Definition positive_definite (n : nat) (P : nat -> nat -> R) : Prop := forall x, nonzero n x -> 0 < quadratic n P x.
Definition spd (n : nat) (P : nat -> nat -> R) : Prop := symmetric n P /\ positive_definite n P.

Definition product (n : nat) (A B : nat -> nat -> R) (i j : nat) : R := sumn n (fun k => A i k * B k j).
Definition delta (i j : nat) : R := if Nat.eq_dec i j then 1 else 0.
Definition inverse_of (n : nat) (A B : nat -> nat -> R) : Prop :=
  forall i j, (i < n)%nat -> (j < n)%nat -> product n A B i j = delta i j /\ product n B A i j = delta i j.
Definition invertible (n : nat) (A : nat -> nat -> R) : Prop := exists B, inverse_of n A B.

(** A matrix inversion routine that is right for every invertible matrix. *)
Definition exact_inverse (inv : nat -> (nat -> nat -> R) -> nat -> nat -> R) : Prop :=
  forall n A, invertible n A -> inverse_of n A (inv n A).

(** The innovation matrix H^T P H + rho 1 of m observations. *)
Definition innovation (n : nat) (P H : nat -> nat -> R) (rho : R) (i j : nat) : R :=
  sumn n (fun k => sumn n (fun l => H k i * P k l * H l j)) + rho * delta i j.
(** H H^T for m observations. *)
Definition outer (m : nat) (H : nat -> nat -> R) (i j : nat) : R := sumn m (fun k => H i k * H j k).

(** Weighted least squares: distance of the new state v from the old state w measured with the inverse covariance
    M, plus the remaining linearised error weighted with the learning rate (1/rho). *)
Definition update_cost (n m : nat) (M H : nat -> nat -> R) (xi w : nat -> R) (weight : R) (v : nat -> R) : R :=
  quadratic n M (fun i => v i - w i)
  + weight * sumn m (fun k => (xi k - sumn n (fun i => H i k * (v i - w i))) ^ 2).

(** Adam, Algorithm 1 of Kingma and Ba: first and second moment, parameters; step number t counts from 1 and the
    small constant may depend on it. *)
Section Adam.
Variables alpha beta1 beta2 : R.
Variable epsilon : nat -> R.
Definition adam_state : Type := (nat * (nat -> R) * (nat -> R) * (nat -> R))%type.
Definition adam_algorithm (s : adam_state) (g : nat -> R) : adam_state :=
  let '(t0, m, v, theta) := s in
  let t := S t0 in
  let m' := fun i => beta1 * m i + (1 - beta1) * g i in
  let v' := fun i => beta2 * v i + (1 - beta2) * (g i) ^ 2 in
  let mhat := fun i => m' i / (1 - beta1 ^ t) in
  let vhat := fun i => v' i / (1 - beta2 ^ t) in
  (t, m', v', fun i => theta i - alpha * mhat i / (sqrt (vhat i) + epsilon t)).
Definition adam_reference (theta0 : nat -> R) (gs : list (nat -> R)) : adam_state :=
  fold_left adam_algorithm gs (0%nat, (fun _ => 0), (fun _ => 0), theta0).
End Adam.
(** Exponentially weighted sum of all past values (oldest first). *)
Definition weighted_past (beta : R) (xs : list R) : R :=
  (1 - beta) * sumn (length xs) (fun k => beta ^ (length xs - 1 - k) * nth k xs 0).
