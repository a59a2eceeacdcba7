(** Specification of the layout of error vector and Jacobian. *)
From Coq Require Import List Arith Reals Bool.
From Verif Require Import Base.SumR Model.UpdatePlan.
Import ListNotations.

(** Fit parameters of element i: its connections, and its hardness if that is fitted. *)
Definition slots (y : layout) (i : nat) : nat :=
  nth i (l_conn y) 0 + match l_strat y with US_COMBINED => if l_hardness y then 1 else 0 | US_ELEMENT => 0 end.
(** Which updater is responsible for element i, how many parameters an updater has, and where parameter j of element i is. *)
Definition updater (y : layout) (i : nat) : nat := match l_strat y with US_COMBINED => 0 | US_ELEMENT => i end.
Definition width (y : layout) (u : nat) : nat :=
  match l_strat y with US_COMBINED => list_sum (map (slots y) (seq 0 (numElements y))) | US_ELEMENT => slots y u end.
Definition position (y : layout) (i j : nat) : nat :=
  match l_strat y with US_COMBINED => list_sum (map (slots y) (seq 0 i)) + j | US_ELEMENT => j end.

(** Row of batch element b of process r: all processes' batch elements one after another (full), one row per process (task), a single
    row (sum). *)
Definition row (y : layout) (r b : nat) : nat :=
  match l_jac y with JM_SUM => 0 | JM_TASK => r | JM_FULL => list_sum (firstn r (l_batch y)) + b end.
Definition rows (y : layout) : nat :=
  match l_jac y with JM_SUM => 1 | JM_TASK => numProcs y | JM_FULL => list_sum (l_batch y) end.

(** Contributions that exist, and processes that hold the result. *)
Definition valid_j (y : layout) (r : nat) (x : jentry) : Prop :=
  j_b x < nth r (l_batch y) 0 /\ j_i x < numElements y /\ j_j x < slots y (j_i x).
Definition valid_e (y : layout) (r : nat) (x : eentry) : Prop :=
  e_b x < nth r (l_batch y) 0 /\ e_u x < numUpdaters y /\ e_set x = false.
Definition holder (y : layout) (q : nat) : Prop := q < numProcs y /\ (l_par y = PM_TRAIN_RK0 -> q = 0).

(** Sum of all contributions (of all processes) to row e, updater u, parameter c. *)
Definition wanted_j (y : layout) (js : list (list jentry)) (e u c : nat) : R :=
  rsum (map (fun r => rsum (map j_v
    (filter (fun x => Nat.eqb (row y r (j_b x)) e && Nat.eqb (updater y (j_i x)) u && Nat.eqb (position y (j_i x) (j_j x)) c) (nth r js []))))
    (seq 0 (length js))).
Definition wanted_e (y : layout) (es : list (list eentry)) (e u : nat) : R :=
  rsum (map (fun r => rsum (map e_v (filter (fun x => Nat.eqb (row y r (e_b x)) e && Nat.eqb (e_u x) u) (nth r es []))))
    (seq 0 (length es))).
