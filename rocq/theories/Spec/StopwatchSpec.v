(** Specification of the stopwatch in terms of the history of calls. *)
From Coq Require Import Reals List ZArith.
From Coq Require Import List.
From Verif Require Import Model.Stopwatch.
Import ListNotations.
Local Open Scope R_scope.

Definition is_start (e : event) : Prop := match e_call e with WStart _ => True | _ => False end.
Definition is_end (e : event) : Prop := match e_call e with WStop | WLoop => True | _ => False end.
Definition is_reset (e : event) : Prop := match e_call e with WReset => True | _ => False end.
Definition call_at (h : list event) (i : nat) (P : event -> Prop) : Prop := exists e, nth_error h i = Some e /\ P e.

(** The clock is running before call n: the calls were made after a start, with nothing but (useless) starts since. *)
Definition running_before (h : list event) (n : nat) : Prop :=
  exists i, (i < n)%nat /\ forall j, (i <= j < n)%nat -> call_at h j is_start.
(** Call i starts the clock. *)
Definition starts_clock (h : list event) (i : nat) : Prop := call_at h i is_start /\ ~ running_before h i.
(** A completed interval: call i starts the clock, call j is the first call after it which stops it, without a reset in between. *)
Definition interval (h : list event) (i j : nat) : Prop :=
  (i < j)%nat /\ starts_clock h i /\ call_at h j is_end /\ forall k, (i < k < j)%nat -> call_at h k is_start.
(** No reset at or after call j. *)
Definition no_reset_from (h : list event) (j : nat) : Prop := forall k, (j <= k)%nat -> ~ call_at h k is_reset.
(** Call k starts a new loop. *)
Definition starts_loop (h : list event) (k : nat) : Prop := starts_clock h k /\ call_at h k (fun e => e_call e = WStart true).

(** Time in seconds. *)
Definition seconds (t : timespec) : R := IZR (fst t) + IZR (snd t) / 10 ^ 9.
Definition clock_at (h : list event) (i : nat) : R := match nth_error h i with Some e => seconds (e_clock e) | None => 0 end.
Definition elapsed (h : list event) (ij : nat * nat) : R := clock_at h (snd ij) - clock_at h (fst ij).
Definition total_of (h : list event) (L : list (nat * nat)) : R := fold_right Rplus 0 (map (elapsed h) L).
(** [t] is the time spent in the intervals satisfying [P], each counted once. *)
Definition time_in (h : list event) (P : nat -> nat -> Prop) (t : R) : Prop :=
  exists L, NoDup L /\ (forall i j, In (i, j) L <-> interval h i j /\ P i j) /\ t = total_of h L.

(** Call n is a misuse of the stopwatch. *)
Definition misuse (h : list event) (e : event) : Prop :=
  (is_start e /\ running_before h (length h)) \/ (is_end e /\ ~ running_before h (length h)).
