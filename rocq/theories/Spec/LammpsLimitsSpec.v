(** What the extrapolation warning options of the LAMMPS pair style mean (C86):
    [steps] lists the calls of compute, each with the time step and the number of
    warnings of each of the P processes. *)
From Coq Require Import Reals ZArith List Bool.
From Verif Require Import Model.LammpsLimits.
Import ListNotations.
Local Open Scope Z_scope.

Definition zsum (ks : list nat) (f : nat -> Z) : Z := fold_right (fun k s => f k + s) 0 ks.
Definition time (steps : list (Z * list Z)) (k : nat) : Z := fst (nth k steps (0, [])).
Definition count (steps : list (Z * list Z)) (k p : nat) : Z := nth p (snd (nth k steps (0, []))) 0.
Definition for_processes (P : nat) (steps : list (Z * list Z)) : Prop := forall ts c, In (ts, c) steps -> length c = P.
(** Anything to do at all. *)
Definition active (o : ew_settings) : Prop := ew_show o = true \/ 0 < ew_sum o \/ 0 <= ew_max o.

(** Warnings compared with the limit: of this time step, or of all so far. *)
Definition warned (o : ew_settings) (steps : list (Z * list Z)) (k p : nat) : Z :=
  if ew_reset o then count steps k p else zsum (seq 0 (S k)) (fun i => count steps i p).
Definition too_many (o : ew_settings) (P : nat) (steps : list (Z * list Z)) (k : nat) : Prop :=
  exists p, (p < P)%nat /\ ew_max o < warned o steps k p.

(** A summary is due; the calls since the last one are m .. k. *)
Definition due (o : ew_settings) (steps : list (Z * list Z)) (k : nat) : Prop :=
  0 < ew_sum o /\ time steps k mod ew_sum o = 0.
Definition window (o : ew_settings) (steps : list (Z * list Z)) (m k : nat) : Prop :=
  (m <= k)%nat /\ (m = 0%nat \/ due o steps (m - 1)) /\ forall j, (m <= j < k)%nat -> ~ due o steps j.
Definition all_processes (P : nat) (steps : list (Z * list Z)) (k : nat) : Z := zsum (seq 0 P) (count steps k).
