(** Layout of error vector and Jacobian (C54). *)
From Coq Require Import Reals Arith.
From Verif Require Import Base.SumR Model.UpdatePlan Spec.UpdatePlanSpec Proofs.UpdatePlanProofs Proofs.UpdatePlanExamples Proofs.TrainWeightsExamples.
From Coq Require Import List.
Import ListNotations.

(** C54: for every parallel mode, Jacobian mode and update strategy, any number of processes, batch sizes and elements: no access is out
    of range, and in every process that uses the Jacobian the entry of row e and parameter c is the (weighted) sum of exactly the
    contributions of all processes that belong there. *)
Theorem C54_jacobian_complete : forall y w js q u, holder y q -> length js = numProcs y -> u < numUpdaters y ->
  (forall r x, r < numProcs y -> In x (nth r js []) -> valid_j y r x) ->
  exists a, updateJacobian y w js q u = Some a /\ length a = rows y * width y u /\
  forall e c, e < rows y -> c < width y u -> nth (e * width y u + c) a 0%R = (w * wanted_j y js e u c)%R.
Proof. exact jacobian_ok. Qed.
Print Assumptions C54_jacobian_complete.
Example C54_jacobian_example : holder exLayout 1 /\ length exJ = numProcs exLayout /\ 0 < numUpdaters exLayout /\
  (forall r x, r < numProcs exLayout -> In x (nth r exJ []) -> valid_j exLayout r x) /\
  rows exLayout = 3 /\ width exLayout 0 = 7 /\ wanted_j exLayout exJ 1 0 6 = 8%R /\ wanted_j exLayout exJ 2 0 3 = 2%R.
Proof. exact exLayout_ok. Qed.

(** C54: the same for the error vector, for all errors that are added up. *)
Theorem C54_errors_complete : forall y w es q u, holder y q -> length es = numProcs y -> u < numUpdaters y ->
  (forall r x, r < numProcs y -> In x (nth r es []) -> valid_e y r x) ->
  exists a, updateError y w es q u = Some a /\ length a = rows y /\ forall e, e < rows y -> nth e a 0%R = (w * wanted_e y es e u)%R.
Proof. exact error_ok. Qed.
Print Assumptions C54_errors_complete.
Example C54_errors_example : length exE = numProcs exLayout /\ (forall r x, r < numProcs exLayout -> In x (nth r exE []) -> valid_e exLayout r x) /\ wanted_e exLayout exE 2 0 = 2%R.
Proof. exact exE_ok. Qed.

(** C54: distinct batch elements of distinct processes have distinct rows (unless they are to be added). *)
Theorem C54_rows_distinct : forall y r b r' b', l_jac y <> JM_SUM -> r < numProcs y -> r' < numProcs y ->
  (l_jac y = JM_FULL -> b < nth r (l_batch y) 0 /\ b' < nth r' (l_batch y) 0) ->
  row y r b = row y r' b' -> r = r' /\ (l_jac y = JM_FULL -> b = b').
Proof. exact row_distinct. Qed.
Print Assumptions C54_rows_distinct.

(** C54: every row belongs to some process and batch element, and is within the vector. *)
Theorem C54_rows_used : forall y e, l_jac y <> JM_SUM -> e < rows y ->
  exists r b, r < numProcs y /\ (b < nth r (l_batch y) 0 \/ l_jac y = JM_TASK) /\ row y r b = e.
Proof. exact row_exists. Qed.
Print Assumptions C54_rows_used.
Theorem C54_rows_in_range : forall y r b, r < numProcs y -> b < nth r (l_batch y) 0 -> row y r b < rows y.
Proof. exact row_bound. Qed.
Print Assumptions C54_rows_in_range.

(** C54: distinct parameters of the elements have distinct columns, all in range. *)
Theorem C54_parameters_distinct : forall y i j i' j', i < numElements y -> i' < numElements y -> j < slots y i -> j' < slots y i' ->
  updater y i = updater y i' -> position y i j = position y i' j' -> i = i' /\ j = j'.
Proof. exact position_distinct. Qed.
Print Assumptions C54_parameters_distinct.
Theorem C54_parameters_in_range : forall y i j, i < numElements y -> j < slots y i -> position y i j < width y (updater y i).
Proof. exact position_bound. Qed.
Print Assumptions C54_parameters_in_range.
Theorem C54_parameters_used : forall y u p, u < numUpdaters y -> p < width y u ->
  exists i j, i < numElements y /\ j < slots y i /\ updater y i = u /\ position y i j = p.
Proof. exact parameter_cover. Qed.
Print Assumptions C54_parameters_used.

(** C54, refuted for charges of HDNNP_4G: their errors overwrite each other when they should be added (batch size above 1, sum or task mode). *)
Theorem C54_charge_errors_refuted : exists y es a, holder y 0 /\ length es = numProcs y /\
  (forall r x, r < numProcs y -> In x (nth r es []) -> e_b x < nth r (l_batch y) 0 /\ e_u x < numUpdaters y) /\
  updateError y 1 es 0 0 = Some a /\ nth 0 a 0%R <> wanted_e y es 0 0.
Proof. exact charge_errors_overwritten. Qed.
Print Assumptions C54_charge_errors_refuted.
