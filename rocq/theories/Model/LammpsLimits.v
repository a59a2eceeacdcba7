(** Model of the counting of extrapolation warnings in pair style hdnnp:
    PairHDNNP::compute and handleExtrapolationWarnings (src/interface/LAMMPS/src/
    ML-HDNNP/pair_hdnnp.cpp).  The transfer of the warnings to process 0 is in
    LammpsWarnings.v; here only their numbers matter.  The counters (long) are
    unbounded integers. *)
From Coq Require Import Reals ZArith List Bool.
Import ListNotations.
Local Open Scope Z_scope.

(** pair_hdnnp.h: settings showew, showewsum, maxew, resetew. *)
Record ew_settings := mkEW { ew_show : bool; ew_sum : Z; ew_max : Z; ew_reset : bool }.
(** pair_hdnnp.cpp:129-138 settings: default values. *)
Definition ew_default : ew_settings := mkEW true 0 0 false.
(** numExtrapolationWarningsTotal, numExtrapolationWarningsSummary of a process. *)
Record counters := mkCounters { ct_total : Z; ct_summary : Z }.
Definition no_warnings : counters := mkCounters 0 0.

(** pair_hdnnp.cpp:294-304: a process adds its warnings. *)
Definition addWarnings (o : ew_settings) (numCurrentEW : Z) (c : counters) : counters :=
  mkCounters (if ew_reset o then numCurrentEW else ct_total c + numCurrentEW)
             (if 0 <? ew_sum o then ct_summary c + numCurrentEW else ct_summary c).
(** pair_hdnnp.cpp:345-356: the line written by process 0 (time step, number of
    warnings, warnings per step), and the reset of the counters. *)
Definition summarize (o : ew_settings) (ts : Z) (cs : list counters) : option (Z * Z * R) * list counters :=
  if (0 <? ew_sum o) && (ts mod ew_sum o =? 0)
  then let globalEW := fold_left (fun s c => s + ct_summary c) cs 0 in
       (Some (ts, globalEW, (IZR globalEW / IZR (ew_sum o))%R), map (fun c => mkCounters (ct_total c) 0) cs)
  else (None, cs).
(** pair_hdnnp.cpp:292-365 handleExtrapolationWarnings on all processes; true: a
    process stops the simulation (358-361). *)
Definition handleCounts (o : ew_settings) (ts : Z) (counts : list Z) (cs : list counters)
  : option (Z * Z * R) * list counters * bool :=
  let cs := map (fun nc => addWarnings o (fst nc) (snd nc)) (combine counts cs) in
  let (line, cs) := summarize o ts cs in
  (line, cs, existsb (fun c => ew_max o <? ct_total c) cs).
(** pair_hdnnp.cpp:98-99, in compute. *)
Definition computeCounts (o : ew_settings) (ts : Z) (counts : list Z) (cs : list counters)
  : option (Z * Z * R) * list counters * bool :=
  if ew_show o || (0 <? ew_sum o) || (0 <=? ew_max o) then handleCounts o ts counts cs else (None, cs, false).

(** Consecutive calls of compute, each with the time step and the numbers of
    warnings of the processes, until the simulation is stopped: the summary lines
    of the calls made, and whether the simulation was stopped. *)
Fixpoint simulate (o : ew_settings) (steps : list (Z * list Z)) (cs : list counters) : list (option (Z * Z * R)) * bool :=
  match steps with
  | [] => ([], false)
  | (ts, counts) :: r =>
    let '(line, cs, stop) := computeCounts o ts counts cs in
    if stop then ([line], true)
    else let (lines, stopped) := simulate o r cs in (line :: lines, stopped)
  end.

(** InterfaceLammps.cpp:117-125: the log message about the limit; [None] is "No
    extrapolation warning limit set." *)
Definition limitMessage (maxew : Z) : option Z := if negb (maxew =? 0) then Some maxew else None.
