(** Restated histories, refutations and concrete cases for the update algorithms. *)
From Coq Require Import Reals Lra Lia Arith.
From Coquelicot Require Import Coquelicot.
From Coq Require Import List.
From Verif Require Import Base.SumR Base.Loop Base.Linear Model.Updaters Spec.UpdaterSpec Proofs.KalmanProofs Proofs.KalmanHistory Proofs.DescentProofs.
Import ListNotations.
Local Open Scope R_scope.

Lemma new_kalman_some n t w k0 : new_kalman n t w = Some k0 -> k_type k0 = t /\ k_n k0 = n /\ k_num k0 = 0%nat.
Proof. unfold new_kalman. destruct (Nat.ltb n 1); [discriminate|]. intros E. injection E as <-. auto. Qed.

Lemma learning_rate : forall inv n w k0 eps q0 qtau qmin eta0 etatau etamax,
  new_kalman n KT_STANDARD w = Some k0 -> 0 < eta0 -> 0 <= etatau ->
  let eta := fun os => k_eta (kalman_run inv os (setParametersStandard eps q0 qtau qmin eta0 etatau etamax k0)) in
  (forall os os', eta os <= eta (os ++ os')) /\
  (forall os, (forall s, (s < length os)%nat -> eta0 * exp (INR s * etatau) < etamax) -> eta os = eta0 * exp (INR (length os) * etatau)) /\
  (forall os os', etamax <= eta os -> eta (os ++ os') = eta os) /\
  (forall os, eta os = eta0 \/ eta os < etamax * exp etatau).
Proof.
  intros inv n w k0 eps q0 qtau qmin eta0 etatau etamax Hn He Ht eta. destruct (new_kalman_some _ _ _ _ Hn) as (T & _).
  set (k := setParametersStandard eps q0 qtau qmin eta0 etatau etamax k0) in *.
  assert (Tk : k_type k = KT_STANDARD) by exact T.
  split. { intros. now apply (eta_monotone inv k). } split. { intros os H. now apply (eta_law inv k). }
  split. { intros. now apply (eta_stays inv k). } intros. now apply (eta_bound inv k).
Qed.
Lemma process_noise_standard : forall inv n w k0 eps q0 qtau qmin eta0 etatau etamax,
  new_kalman n KT_STANDARD w = Some k0 -> 0 <= q0 -> 0 <= qtau ->
  let q := fun os => k_q (kalman_run inv os (setParametersStandard eps q0 qtau qmin eta0 etatau etamax k0)) in
  (forall os os', q (os ++ os') <= q os) /\
  (forall os, (forall s, (s < length os)%nat -> qmin < q0 * exp (- (INR s * qtau))) -> q os = q0 * exp (- (INR (length os) * qtau))) /\
  (forall os os', q os <= qmin -> q (os ++ os') = q os) /\
  (forall os, q os = q0 \/ qmin * exp (- qtau) < q os).
Proof.
  intros inv n w k0 eps q0 qtau qmin eta0 etatau etamax Hn He Ht q.
  set (k := setParametersStandard eps q0 qtau qmin eta0 etatau etamax k0) in *.
  split. { intros. now apply (q_monotone inv k). } split. { intros os H. now apply (q_law inv k). }
  split. { intros. now apply (q_stays inv k). } intros. now apply (q_bound inv k).
Qed.
Lemma process_noise_fading : forall inv n w k0 eps q0 qtau qmin lambda nu,
  new_kalman n KT_FADINGMEMORY w = Some k0 -> 0 <= q0 -> 0 <= qtau ->
  let q := fun os => k_q (kalman_run inv os (setParametersFadingMemory eps q0 qtau qmin lambda nu k0)) in
  (forall os os', q (os ++ os') <= q os) /\
  (forall os, (forall s, (s < length os)%nat -> qmin < q0 * exp (- (INR s * qtau))) -> q os = q0 * exp (- (INR (length os) * qtau))) /\
  (forall os os', q os <= qmin -> q (os ++ os') = q os) /\
  (forall os, q os = q0 \/ qmin * exp (- qtau) < q os).
Proof.
  intros inv n w k0 eps q0 qtau qmin lambda nu Hn He Ht q.
  set (k := setParametersFadingMemory eps q0 qtau qmin lambda nu k0) in *.
  split. { intros. now apply (q_monotone inv k). } split. { intros os H. now apply (q_law inv k). }
  split. { intros. now apply (q_stays inv k). } intros. now apply (q_bound inv k).
Qed.
Lemma forgetting : forall inv n w k0 eps q0 qtau qmin lambda nu,
  new_kalman n KT_FADINGMEMORY w = Some k0 -> 0 < lambda <= 1 -> 0 <= nu <= 1 ->
  let k := fun os => kalman_run inv os (setParametersFadingMemory eps q0 qtau qmin lambda nu k0) in
  (forall os, k_lambda (k os) = 1 - nu ^ length os * (1 - lambda)) /\
  (forall os, 0 < k_lambda (k os) <= 1) /\
  (forall os os', k_lambda (k os) <= k_lambda (k (os ++ os'))) /\
  k_gamma (k []) = 1 /\ (forall os, 0 < k_gamma (k os) <= 1) /\
  (forall os o, / k_gamma (k (os ++ [o])) = 1 + k_lambda (k (os ++ [o])) / k_gamma (k os)) /\
  (forall os, k_num (k os) = length os).
Proof.
  intros inv n w k0 eps q0 qtau qmin lambda nu Hn Hl Hnu k. destruct (new_kalman_some _ _ _ _ Hn) as (T & _ & N0).
  set (s := setParametersFadingMemory eps q0 qtau qmin lambda nu k0) in *.
  assert (Tk : k_type s = KT_FADINGMEMORY) by exact T.
  assert (R : forall os, 0 < k_lambda (k os) <= 1).
  { intros os. pose proof (lambda_range inv s Tk os Hl Hnu) as [A B]. unfold k. change (lambda <= k_lambda (kalman_run inv os s)) in A. lra. }
  assert (G : forall os, 0 < k_gamma (k os) <= 1).
  { intros os. induction os as [|o os IH] using rev_ind. { cbn. lra. }
    unfold k in *. rewrite (gamma_next inv s Tk os o). specialize (R (os ++ [o])).
    set (l := k_lambda (kalman_run inv (os ++ [o]) s)) in *. set (g := k_gamma (kalman_run inv os s)) in *.
    assert (0 < l / g) by (apply Rdiv_lt_0_compat; lra). split. { apply Rdiv_lt_0_compat; lra. }
    apply (Rmult_le_reg_r (1 + l / g)); [lra|]. replace (1 / (1 + l / g) * (1 + l / g)) with 1 by (field; lra). lra. }
  split. { intros. apply (lambda_law inv s Tk). } split; [exact R|].
  split. { intros os os'. unfold k. rewrite run_app. pose proof (lambda_range inv (kalman_run inv os s) ltac:(now rewrite run_type) os') as A.
           apply A. { apply R. } rewrite run_nu. exact Hnu. }
  split. { reflexivity. } split; [exact G|]. split.
  - intros os o. unfold k. rewrite (gamma_next inv s Tk os o) at 1. specialize (R (os ++ [o])). specialize (G os). unfold k in *.
    set (l := k_lambda (kalman_run inv (os ++ [o]) s)) in *. set (g := k_gamma (kalman_run inv os s)) in *.
    assert (0 < l / g) by (apply Rdiv_lt_0_compat; lra). unfold Rdiv at 1. rewrite Rmult_1_l, Rinv_inv. reflexivity.
  - intros os. unfold k. rewrite run_num. change (k_num s) with (k_num k0). rewrite N0. reflexivity.
Qed.
Lemma exp_gt x : 0 < x -> 1 + x < exp x.
Proof. intros. apply exp_ineq1. lra. Qed.
Lemma eta_overshoot : exists inv n w k0 eps q0 qtau qmin eta0 etatau etamax os,
  new_kalman n KT_STANDARD w = Some k0 /\ 0 < eps /\ 0 <= q0 /\ 0 < eta0 < etamax /\ 0 < etatau /\
  etamax < k_eta (kalman_run inv os (setParametersStandard eps q0 qtau qmin eta0 etatau etamax k0)).
Proof.
  exists gauss_inverse, 1%nat, (fun _ => 0). eexists. exists 1, 0, 0, 0, 1, 1, 2, [mkObs 1 (fun _ _ => 1) (fun _ => 1)].
  split; [reflexivity|]. split; [lra|]. split; [lra|]. split; [lra|]. split; [lra|].
  cbn [kalman_run fold_left]. unfold kalman_update, setParametersStandard. cbn [k_eta k_type k_etamax k_etatau].
  destruct (Rlt_dec 1 2); [|lra]. pose proof (exp_gt 1 ltac:(lra)). lra.
Qed.
Lemma q_undershoot : exists inv n w k0 eps q0 qtau qmin eta0 etatau etamax os,
  new_kalman n KT_STANDARD w = Some k0 /\ 0 < eps /\ 0 < qmin < q0 /\ 0 < qtau /\
  k_q (kalman_run inv os (setParametersStandard eps q0 qtau qmin eta0 etatau etamax k0)) < qmin.
Proof.
  exists gauss_inverse, 1%nat, (fun _ => 0). eexists. exists 1, 2, 1, 1, 1, 1, 2, [mkObs 1 (fun _ _ => 1) (fun _ => 1)].
  split; [reflexivity|]. split; [lra|]. split; [lra|]. split; [lra|].
  cbn [kalman_run fold_left]. unfold kalman_update, setParametersStandard. cbn [k_q k_qmin k_qtau].
  destruct (Rlt_dec 1 2); [|lra]. pose proof (exp_gt 1 ltac:(lra)). rewrite exp_Ropp.
  apply (Rmult_lt_reg_r (exp 1)); [lra|]. rewrite Rmult_assoc, Rinv_l by lra. lra.
Qed.

Lemma fixed_history : forall n w g0 eta os, new_descent n DT_FIXED w = Some g0 ->
  let g := descent_run os (setParametersFixed eta g0) in
  forall (prediction : vector -> R) target error gradient,
  error = target - prediction (g_w g) ->
  (forall i, (i < n)%nat -> is_derive (fun t => prediction (upd (g_w g) i t)) (g_w g i) (gradient i)) ->
  forall i, (i < n)%nat -> exists D : R,
    is_derive (fun t => (target - prediction (upd (g_w g) i t)) ^ 2 / 2) (g_w g i) D /\
    g_w (descent_update (error, gradient) g) i = g_w g i - eta * D.
Proof.
  intros n w g0 eta os Hn g f target error gradient He Hd i Hi.
  destruct (fixed_run os n w g0 eta Hn) as (T & N & E & _). fold g in T, N, E.
  rewrite <- E. apply fixed_direction; auto; rewrite N; auto.
Qed.
Lemma adam_history : forall n w g0 alpha beta1 beta2 eps os, new_descent n DT_ADAM w = Some g0 ->
  0 <= beta1 < 1 -> 0 <= beta2 < 1 -> 0 < eps ->
  let g := descent_run os (setParametersAdam alpha beta1 beta2 eps g0) in
  let '(t, m, v, theta) := adam_reference alpha beta1 beta2 (fun t => eps / sqrt (1 - beta2 ^ t)) w
      (map (fun o i => fst o * - snd o i) os) in
  t = length os /\ forall i, (i < n)%nat -> g_m g i = m i /\ g_v g i = v i /\ g_w g i = theta i.
Proof.
  intros n w g0 alpha beta1 beta2 eps os Hn H1 H2 He g. pose proof (adam_run os n w g0 alpha beta1 beta2 eps Hn H1 H2 He) as A.
  cbv zeta in A. unfold grads in A. fold g in A.
  match type of A with context [adam_reference ?a ?b ?c ?d ?e ?f] => set (RS := adam_reference a b c d e f) in * end.
  destruct RS as [[[t m] v] theta]. tauto.
Qed.
Lemma adam_moments_history : forall os n w g0 alpha beta1 beta2 eps, new_descent n DT_ADAM w = Some g0 ->
  0 <= beta1 < 1 -> 0 <= beta2 < 1 -> 0 < eps ->
  let g := descent_run os (setParametersAdam alpha beta1 beta2 eps g0) in forall i, (i < n)%nat ->
  g_m g i = weighted_past beta1 (map (fun o => fst o * - snd o i) os) /\
  g_v g i = weighted_past beta2 (map (fun o => (fst o * - snd o i) ^ 2) os).
Proof.
  intros os n w g0 alpha beta1 beta2 eps Hn H1 H2 He g i Hi.
  pose proof (adam_moments os n w g0 alpha beta1 beta2 eps Hn H1 H2 He i Hi) as A. cbv zeta in A. unfold grads in A. rewrite !map_map in A. exact A.
Qed.

Lemma ex_kalman : exists k0, new_kalman 2 KT_STANDARD (fun _ => 0) = Some k0 /\
  let k := kalman_run gauss_inverse [mkObs 1 (fun i _ => INR (S i)) (fun _ => 1)] (setParametersStandard 1 0 0 0 1 0 1 k0) in
  k_P k 0%nat 0%nat = 5 / 6 /\ k_P k 0%nat 1%nat = - (1 / 3) /\ k_P k 1%nat 1%nat = 1 / 3 /\ k_w k 0%nat = 1 / 6 /\ k_w k 1%nat = 1 / 3.
Proof.
  eexists. split; [reflexivity|]. cbv zeta. cbn [kalman_run fold_left]. unfold kalman_update.
  cbn [setParametersStandard k_P k_w k_type k_n k_eta k_etamax k_etatau k_q k_lambda o_m o_H o_xi].
  match goal with |- context [gauss_inverse 1 ?A] => set (A0 := A) end.
  assert (EA : A0 0%nat 0%nat = 6).
  { unfold A0. cbn [Nat.eqb]. destruct (Rlt_dec 1 1); [lra|]. unfold mulLower, identity, sumn. cbn. field. }
  assert (HA : inverse_of 1 A0 (gauss_inverse 1 A0)).
  { apply gauss_inverse_exact. apply nonsingular_invertible. intros x Hx i Hi. replace i with 0%nat by lia.
    specialize (Hx 0%nat ltac:(lia)). unfold mv, sumn in Hx. cbn [seq map rsum] in Hx. rewrite EA in Hx. lra. }
  destruct (HA 0%nat 0%nat ltac:(lia) ltac:(lia)) as [E _]. unfold product, sumn in E. cbn [seq map rsum] in E. rewrite EA in E.
  unfold delta in E. cbn in E. change (6 * gauss_inverse 1 A0 0%nat 0%nat + 0 = 1) in E.
  set (G := gauss_inverse 1 A0) in *. clearbody G. clear HA EA A0.
  unfold mulLower, identity, sumn. cbn. assert (EG : G 0%nat 0%nat = 1 / 6) by lra. rewrite EG. repeat split; field.
Qed.
Lemma ex_adam : exists g0, new_descent 1 DT_ADAM (fun _ => 0) = Some g0 /\
  let g := descent_run [(1, fun _ => 1); (2, fun _ => 1)] (setParametersAdam 1 (1/2) (1/2) 1 g0) in g_m g 0%nat = - (5 / 4) /\ g_v g 0%nat = 9 / 4.
Proof. eexists. split; [reflexivity|]. cbn. unfold upd. cbn. split; field. Qed.
