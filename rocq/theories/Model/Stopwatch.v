(** Model of src/libnnp/Stopwatch.{h,cpp} (the implementation for Linux; the sums of doubles are exact). *)
From Coq Require Import Reals List ZArith.
From Coq Require Import List.
Import ListNotations.
Local Open Scope R_scope.

(** timespec: tv_sec and tv_nsec. *)
Definition timespec : Type := (Z * Z)%type.
(** Stopwatch.h, lines 62-80; constructor: Stopwatch.cpp, lines 24-37. *)
Record watch := mkWatch { w_running : bool; w_total : R; w_loop : R; w_time : timespec }.
Definition newWatch : watch := mkWatch false 0 0 (0, 0)%Z.

(** Calls of a user together with the reading of the monotonic clock during the call. *)
Inductive wcall := WStart (newLoop : bool) | WStop | WLoop | WReset.
Record event := mkEvent { e_call : wcall; e_clock : timespec }.
(** What a user sees: the value returned and whether a warning was written to stderr. *)
Record wresult := mkWRes { r_value : option R; r_warning : bool }.

(** Lines 109-141: updateTime (interval, new value of time, warning). *)
Definition updateTime (clock : timespec) (w : watch) : R * timespec * bool :=
  if w_running w
  then (IZR (fst clock - fst (w_time w)) + IZR (snd clock - snd (w_time w)) * (1 / 10 ^ 9), clock, false)
  else (0, w_time w, true).
(** Lines 99-107: stopTime. *)
Definition stopTime (clock : timespec) (w : watch) : watch * bool :=
  let '(dt, time, warn) := updateTime clock w in (mkWatch false (w_total w + dt) (w_loop w + dt) time, warn).
(** Lines 39-61: start. *)
Definition wstart (newLoop : bool) (clock : timespec) (w : watch) : watch * bool :=
  if w_running w then (w, true) else (mkWatch true (w_total w) (if newLoop then 0 else w_loop w) clock, false).
(** Lines 63-97: the public member functions. *)
Definition wstep (e : event) (w : watch) : watch * wresult :=
  match e_call e with
  | WStart nl => let (w', warn) := wstart nl (e_clock e) w in (w', mkWRes None warn)
  | WStop => let (w', warn) := stopTime (e_clock e) w in (w', mkWRes (Some (w_total w')) warn)
  | WLoop => let (w', warn) := stopTime (e_clock e) w in (w', mkWRes (Some (w_loop w')) warn)
  | WReset => (mkWatch false 0 0 (0, 0)%Z, mkWRes None false)
  end.
(** A history of calls on a new stopwatch. *)
Definition wrun (h : list event) : watch := fold_left (fun w e => fst (wstep e w)) h newWatch.
