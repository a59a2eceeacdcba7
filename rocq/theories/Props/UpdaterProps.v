(** Properties C45, C46, C47: Kalman filter and gradient descent. *)
From Coq Require Import Reals Lra Lia Arith.
From Coquelicot Require Import Coquelicot.
From Coq Require Import List.
From Verif Require Import Base.SumR Base.Loop Model.Updaters Spec.UpdaterSpec Proofs.KalmanProofs Proofs.KalmanHistory Proofs.DescentProofs Proofs.UpdaterExamples.
Import ListNotations.
Local Open Scope R_scope.

(** The covariance stays symmetric positive definite and the matrix to be inverted by the next update is symmetric
    positive definite (hence regular), after every history of updates. *)
Theorem C45_covariance_standard : forall inv n w k0 eps q0 qtau qmin eta0 etatau etamax, exact_inverse inv ->
  new_kalman n KT_STANDARD w = Some k0 -> 0 < eps -> 0 <= q0 -> 0 < eta0 ->
  forall os, let k := kalman_run inv os (setParametersStandard eps q0 qtau qmin eta0 etatau etamax k0) in
  spd n (k_P k) /\
  forall o, let S := innovation n (k_P k) (o_H o) (1 / k_eta (kalman_update inv o k)) in spd (o_m o) S /\ invertible (o_m o) S.
Proof. exact std_covariance. Qed.
Print Assumptions C45_covariance_standard.
Theorem C45_covariance_fading : forall inv n w k0 eps q0 qtau qmin lambda nu, exact_inverse inv ->
  new_kalman n KT_FADINGMEMORY w = Some k0 -> 0 < eps -> 0 <= q0 -> 0 < lambda <= 1 -> 0 <= nu <= 1 ->
  forall os, let k := kalman_run inv os (setParametersFadingMemory eps q0 qtau qmin lambda nu k0) in
  spd n (k_P k) /\
  forall o, let S := innovation n (k_P k) (o_H o) (k_lambda k) in spd (o_m o) S /\ invertible (o_m o) S.
Proof. exact fade_covariance. Qed.
Print Assumptions C45_covariance_fading.

(** Every update adds eta H H^T to the inverse covariance; process noise is added to the covariance afterwards. *)
Theorem C45_information_step_standard : forall inv n w k0 eps q0 qtau qmin eta0 etatau etamax, exact_inverse inv ->
  new_kalman n KT_STANDARD w = Some k0 -> 0 < eps -> 0 <= q0 -> 0 < eta0 ->
  forall os o M, let k := kalman_run inv os (setParametersStandard eps q0 qtau qmin eta0 etatau etamax k0) in
  let k' := kalman_update inv o k in
  inverse_of n (k_P k) M ->
  exists D, inverse_of n D (fun i j => M i j + k_eta k' * outer (o_m o) (o_H o) i j) /\
  forall i j, (i < n)%nat -> (j < n)%nat -> k_P k' i j = D i j + k_q k * delta i j.
Proof. exact std_information_step. Qed.
Print Assumptions C45_information_step_standard.
Theorem C45_information_step_fading : forall inv n w k0 eps q0 qtau qmin lambda nu, exact_inverse inv ->
  new_kalman n KT_FADINGMEMORY w = Some k0 -> 0 < eps -> 0 <= q0 -> 0 < lambda <= 1 -> 0 <= nu <= 1 ->
  forall os o M, let k := kalman_run inv os (setParametersFadingMemory eps q0 qtau qmin lambda nu k0) in
  let k' := kalman_update inv o k in
  inverse_of n (k_P k) M ->
  exists D, inverse_of n D (fun i j => k_lambda k * M i j + outer (o_m o) (o_H o) i j) /\
  forall i j, (i < n)%nat -> (j < n)%nat -> k_P k' i j = D i j + k_q k * delta i j.
Proof. exact fade_information_step. Qed.
Print Assumptions C45_information_step_fading.
(** Without process noise the inverse covariance after a history is the sum over all updates of that history. *)
Theorem C45_information_standard : forall inv n w k0 eps q0 qtau qmin eta0 etatau etamax, exact_inverse inv ->
  new_kalman n KT_STANDARD w = Some k0 -> 0 < eps -> 0 <= q0 -> 0 < eta0 ->
  forall os d, q0 = 0 ->
  let start := setParametersStandard eps q0 qtau qmin eta0 etatau etamax k0 in
  inverse_of n (k_P (kalman_run inv os start))
    (fun i j => eps * delta i j +
       sumn (length os) (fun t => k_eta (kalman_run inv (firstn (S t) os) start) * outer (o_m (nth t os d)) (o_H (nth t os d)) i j)).
Proof. exact std_information. Qed.
Print Assumptions C45_information_standard.
(** The new state is the one minimum of the weighted least squares problem of the update. *)
Theorem C45_state_standard : forall inv n w k0 eps q0 qtau qmin eta0 etatau etamax, exact_inverse inv ->
  new_kalman n KT_STANDARD w = Some k0 -> 0 < eps -> 0 <= q0 -> 0 < eta0 ->
  forall os o M v, let k := kalman_run inv os (setParametersStandard eps q0 qtau qmin eta0 etatau etamax k0) in
  let k' := kalman_update inv o k in
  inverse_of n (k_P k) M ->
  let cost := update_cost n (o_m o) M (o_H o) (o_xi o) (k_w k) (k_eta k') in
  cost (k_w k') <= cost v /\ (cost v <= cost (k_w k') -> forall i, (i < n)%nat -> v i = k_w k' i).
Proof. exact std_optimal. Qed.
Print Assumptions C45_state_standard.
Theorem C45_state_fading : forall inv n w k0 eps q0 qtau qmin lambda nu, exact_inverse inv ->
  new_kalman n KT_FADINGMEMORY w = Some k0 -> 0 < eps -> 0 <= q0 -> 0 < lambda <= 1 -> 0 <= nu <= 1 ->
  forall os o M v, let k := kalman_run inv os (setParametersFadingMemory eps q0 qtau qmin lambda nu k0) in
  let k' := kalman_update inv o k in
  inverse_of n (k_P k) M ->
  let cost := update_cost n (o_m o) M (o_H o) (o_xi o) (k_w k) (1 / k_lambda k) in
  cost (k_w k') <= cost v /\ (cost v <= cost (k_w k') -> forall i, (i < n)%nat -> v i = k_w k' i).
Proof. exact fade_optimal. Qed.
Print Assumptions C45_state_fading.
(** An exact inversion exists; a filter with two parameters and two updates (of one and two observations). *)
Example C45_inverse_exists : exact_inverse gauss_inverse.
Proof. exact gauss_inverse_exact. Qed.
Example C45_nontrivial : exists k0, new_kalman 2 KT_STANDARD (fun _ => 0) = Some k0 /\
  let k := kalman_run gauss_inverse [mkObs 1 (fun i _ => INR (S i)) (fun _ => 1)] (setParametersStandard 1 0 0 0 1 0 1 k0) in
  k_P k 0%nat 0%nat = 5 / 6 /\ k_P k 0%nat 1%nat = - (1 / 3) /\ k_P k 1%nat 1%nat = 1 / 3 /\ k_w k 0%nat = 1 / 6 /\ k_w k 1%nat = 1 / 3.
Proof. exact ex_kalman. Qed.

(** Learning rate: non-decreasing, exponential until the maximum is reached, constant afterwards. *)
Theorem C46_learning_rate : forall inv n w k0 eps q0 qtau qmin eta0 etatau etamax,
  new_kalman n KT_STANDARD w = Some k0 -> 0 < eta0 -> 0 <= etatau ->
  let eta := fun os => k_eta (kalman_run inv os (setParametersStandard eps q0 qtau qmin eta0 etatau etamax k0)) in
  (forall os os', eta os <= eta (os ++ os')) /\
  (forall os, (forall s, (s < length os)%nat -> eta0 * exp (INR s * etatau) < etamax) -> eta os = eta0 * exp (INR (length os) * etatau)) /\
  (forall os os', etamax <= eta os -> eta (os ++ os') = eta os) /\
  (forall os, eta os = eta0 \/ eta os < etamax * exp etatau).
Proof. exact learning_rate. Qed.
Print Assumptions C46_learning_rate.
(** Process noise: non-increasing, exponential until the minimum is reached, constant afterwards (both types). *)
Theorem C46_process_noise_standard : forall inv n w k0 eps q0 qtau qmin eta0 etatau etamax,
  new_kalman n KT_STANDARD w = Some k0 -> 0 <= q0 -> 0 <= qtau ->
  let q := fun os => k_q (kalman_run inv os (setParametersStandard eps q0 qtau qmin eta0 etatau etamax k0)) in
  (forall os os', q (os ++ os') <= q os) /\
  (forall os, (forall s, (s < length os)%nat -> qmin < q0 * exp (- (INR s * qtau))) -> q os = q0 * exp (- (INR (length os) * qtau))) /\
  (forall os os', q os <= qmin -> q (os ++ os') = q os) /\
  (forall os, q os = q0 \/ qmin * exp (- qtau) < q os).
Proof. exact process_noise_standard. Qed.
Print Assumptions C46_process_noise_standard.
Theorem C46_process_noise_fading : forall inv n w k0 eps q0 qtau qmin lambda nu,
  new_kalman n KT_FADINGMEMORY w = Some k0 -> 0 <= q0 -> 0 <= qtau ->
  let q := fun os => k_q (kalman_run inv os (setParametersFadingMemory eps q0 qtau qmin lambda nu k0)) in
  (forall os os', q (os ++ os') <= q os) /\
  (forall os, (forall s, (s < length os)%nat -> qmin < q0 * exp (- (INR s * qtau))) -> q os = q0 * exp (- (INR (length os) * qtau))) /\
  (forall os os', q os <= qmin -> q (os ++ os') = q os) /\
  (forall os, q os = q0 \/ qmin * exp (- qtau) < q os).
Proof. exact process_noise_fading. Qed.
Print Assumptions C46_process_noise_fading.
(** Forgetting factor: closed form, range; recursion of the forgetting gain. *)
Theorem C46_forgetting : forall inv n w k0 eps q0 qtau qmin lambda nu,
  new_kalman n KT_FADINGMEMORY w = Some k0 -> 0 < lambda <= 1 -> 0 <= nu <= 1 ->
  let k := fun os => kalman_run inv os (setParametersFadingMemory eps q0 qtau qmin lambda nu k0) in
  (forall os, k_lambda (k os) = 1 - nu ^ length os * (1 - lambda)) /\
  (forall os, 0 < k_lambda (k os) <= 1) /\
  (forall os os', k_lambda (k os) <= k_lambda (k (os ++ os'))) /\
  k_gamma (k []) = 1 /\ (forall os, 0 < k_gamma (k os) <= 1) /\
  (forall os o, / k_gamma (k (os ++ [o])) = 1 + k_lambda (k (os ++ [o])) / k_gamma (k os)) /\
  (forall os, k_num (k os) = length os).
Proof. exact forgetting. Qed.
Print Assumptions C46_forgetting.
(** The bounds are not strict: one update may step over them. *)
Theorem C46_maximum_exceeded_refuted : exists inv n w k0 eps q0 qtau qmin eta0 etatau etamax os,
  new_kalman n KT_STANDARD w = Some k0 /\ 0 < eps /\ 0 <= q0 /\ 0 < eta0 < etamax /\ 0 < etatau /\
  etamax < k_eta (kalman_run inv os (setParametersStandard eps q0 qtau qmin eta0 etatau etamax k0)).
Proof. exact eta_overshoot. Qed.
Print Assumptions C46_maximum_exceeded_refuted.
Theorem C46_minimum_undercut_refuted : exists inv n w k0 eps q0 qtau qmin eta0 etatau etamax os,
  new_kalman n KT_STANDARD w = Some k0 /\ 0 < eps /\ 0 < qmin < q0 /\ 0 < qtau /\
  k_q (kalman_run inv os (setParametersStandard eps q0 qtau qmin eta0 etatau etamax k0)) < qmin.
Proof. exact q_undershoot. Qed.
Print Assumptions C46_minimum_undercut_refuted.

(** Fixed step: against the gradient of half the squared error, for every differentiable prediction. *)
Theorem C47_fixed_direction : forall n w g0 eta os, new_descent n DT_FIXED w = Some g0 ->
  let g := descent_run os (setParametersFixed eta g0) in
  forall (prediction : vector -> R) target error gradient,
  error = target - prediction (g_w g) ->
  (forall i, (i < n)%nat -> is_derive (fun t => prediction (upd (g_w g) i t)) (g_w g i) (gradient i)) ->
  forall i, (i < n)%nat -> exists D : R,
    is_derive (fun t => (target - prediction (upd (g_w g) i t)) ^ 2 / 2) (g_w g i) D /\
    g_w (descent_update (error, gradient) g) i = g_w g i - eta * D.
Proof. exact fixed_history. Qed.
Print Assumptions C47_fixed_direction.
(** Adam: the parameters and moments after every history are those of the published algorithm, with
    its small constant replaced by epsilon / sqrt(1 - beta2^t). *)
Theorem C47_adam : forall n w g0 alpha beta1 beta2 eps os, new_descent n DT_ADAM w = Some g0 ->
  0 <= beta1 < 1 -> 0 <= beta2 < 1 -> 0 < eps ->
  let g := descent_run os (setParametersAdam alpha beta1 beta2 eps g0) in
  let '(t, m, v, theta) := adam_reference alpha beta1 beta2 (fun t => eps / sqrt (1 - beta2 ^ t)) w
      (map (fun o i => fst o * - snd o i) os) in
  t = length os /\ forall i, (i < n)%nat -> g_m g i = m i /\ g_v g i = v i /\ g_w g i = theta i.
Proof. exact adam_history. Qed.
Print Assumptions C47_adam.
Theorem C47_moments : forall os n w g0 alpha beta1 beta2 eps, new_descent n DT_ADAM w = Some g0 ->
  0 <= beta1 < 1 -> 0 <= beta2 < 1 -> 0 < eps ->
  let g := descent_run os (setParametersAdam alpha beta1 beta2 eps g0) in forall i, (i < n)%nat ->
  g_m g i = weighted_past beta1 (map (fun o => fst o * - snd o i) os) /\
  g_v g i = weighted_past beta2 (map (fun o => (fst o * - snd o i) ^ 2) os).
Proof. exact adam_moments_history. Qed.
Print Assumptions C47_moments.
Example C47_nontrivial : exists g0, new_descent 1 DT_ADAM (fun _ => 0) = Some g0 /\
  let g := descent_run [(1, fun _ => 1); (2, fun _ => 1)] (setParametersAdam 1 (1/2) (1/2) 1 g0) in g_m g 0%nat = - (5 / 4) /\ g_v g 0%nat = 9 / 4.
Proof. exact ex_adam. Qed.
