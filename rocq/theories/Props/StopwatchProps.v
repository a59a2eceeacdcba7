(** Stopwatch (C61). *)
From Coq Require Import Reals List ZArith.
From Coq Require Import List.
From Verif Require Import Model.Stopwatch Spec.StopwatchSpec Proofs.StopwatchProofs.
Import ListNotations.
Local Open Scope R_scope.

(** C61: after any history of calls the total is the sum of all completed intervals since the last reset, and the loop time the sum of those since the
    last start of a new loop. *)
Theorem C61_times : forall h, time_in h (fun _ j => no_reset_from h j) (w_total (wrun h)) /\
  time_in h (fun i j => no_reset_from h j /\ forall k, starts_loop h k -> (k <= i)%nat) (w_loop (wrun h)).
Proof. exact stopwatch_times. Qed.
Print Assumptions C61_times.

(** C61: a call is reported exactly if it is a misuse, and then the times do not change (a superfluous start changes nothing at all). *)
Theorem C61_misuse : forall h e w' r, wstep e (wrun h) = (w', r) ->
  w' = wrun (h ++ [e]) /\
  (r_warning r = true <-> misuse h e) /\
  (r_warning r = true -> w_total w' = w_total (wrun h) /\ w_loop w' = w_loop (wrun h) /\ (is_start e -> w' = wrun h)) /\
  r_value r = match e_call e with WStop => Some (w_total w') | WLoop => Some (w_loop w') | _ => None end.
Proof. exact stopwatch_call. Qed.
Print Assumptions C61_misuse.
Example C61_ex : interval exHistory 0 2 /\ interval exHistory 4 5 /\ misuse (firstn 1 exHistory) (mkEvent (WStart true) (2, 0)%Z) /\
  misuse (firstn 3 exHistory) (mkEvent WStop (9, 0)%Z) /\ w_total (wrun exHistory) = 35 / 10.
Proof. exact exHistory_ok. Qed.
