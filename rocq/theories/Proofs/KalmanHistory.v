(** Kalman filter: statements over whole histories of updates. *)
From Coq Require Import Reals List Arith Lra Lia.
From Verif Require Import Base.SumR Base.Linear Model.Updaters Spec.UpdaterSpec Proofs.KalmanProofs.
Import ListNotations.
Open Scope R_scope.

Section Std.
Variables (inv : nat -> matrix -> matrix) (n : nat) (w : vector) (k0 : kalman) (eps q0 qtau qmin eta0 etatau etamax : R).
Hypothesis Hinv : exact_inverse inv.
Hypothesis Hnew : new_kalman n KT_STANDARD w = Some k0.
Hypothesis Heps : 0 < eps.
Hypothesis Hq0 : 0 <= q0.
Hypothesis Heta0 : 0 < eta0.
Let start := setParametersStandard eps q0 qtau qmin eta0 etatau etamax k0.

Lemma std_run os : std_ok (kalman_run inv os start).
Proof.
  apply (run_ind std_ok). { intros. now apply std_step. }
  apply (start_std n w k0 eps q0 qtau qmin eta0 etatau etamax); auto.
Qed.
Lemma std_size os : k_n (kalman_run inv os start) = n.
Proof. rewrite run_n. apply (start_std n w k0 eps q0 qtau qmin eta0 etatau etamax); auto. Qed.
Lemma std_covariance os : let k := kalman_run inv os start in
  spd n (k_P k) /\ forall o, let S := innovation n (k_P k) (o_H o) (1 / k_eta (kalman_update inv o k)) in spd (o_m o) S /\ invertible (o_m o) S.
Proof.
  intros k. pose proof (std_run os) as Hk. fold k in Hk. pose proof Hk as (Ht & HP & He & Hq).
  unfold k in HP at 1. rewrite std_size in HP. split; auto. intros o.
  pose proof (std_noise inv o k Hk) as Hn. unfold noise_of in Hn. rewrite Ht in Hn.
  split. { now apply innovation_spd. } now apply innovation_invertible.
Qed.
Lemma std_information_step os o M : let k := kalman_run inv os start in let k' := kalman_update inv o k in
  inverse_of n (k_P k) M ->
  exists D, inverse_of n D (fun i j => M i j + k_eta k' * outer (o_m o) (o_H o) i j) /\
  forall i j, (i < n)%nat -> (j < n)%nat -> k_P k' i j = D i j + k_q k * delta i j.
Proof.
  intros k k' HM. pose proof (std_run os) as Hk. fold k in Hk. pose proof Hk as (Ht & HP & He & Hq).
  assert (En : k_n k = n) by apply std_size.
  pose proof (update_information inv Hinv o k HP (std_noise inv o k Hk) M) as U. rewrite (std_forget k Hk), En in U.
  destruct (U ltac:(lra) HM) as (D & HD & E). exists D. split; auto.
  apply inverse_swap. apply (inverse_of_ext n (fun i j => (M i j + / noise_of o inv k * outer (o_m o) (o_H o) i j) / 1)).
  - intros i j _ _. unfold noise_of. rewrite Ht. fold k'. pose proof (eta_pos inv o k He) as Hep. fold k' in Hep. field. lra.
  - now apply inverse_swap.
Qed.
Lemma std_optimal os o M v : let k := kalman_run inv os start in let k' := kalman_update inv o k in
  inverse_of n (k_P k) M ->
  let cost := update_cost n (o_m o) M (o_H o) (o_xi o) (k_w k) (k_eta k') in
  cost (k_w k') <= cost v /\ (cost v <= cost (k_w k') -> forall i, (i < n)%nat -> v i = k_w k' i).
Proof.
  intros k k' HM cost. pose proof (std_run os) as Hk. fold k in Hk. pose proof Hk as (Ht & HP & He & Hq).
  assert (En : k_n k = n) by apply std_size.
  pose proof (update_optimal inv Hinv o k HP (std_noise inv o k Hk) M v) as U. rewrite En in U. specialize (U HM). cbv zeta in U.
  replace (/ noise_of o inv k) with (k_eta k') in U; [exact U|].
  unfold noise_of. rewrite Ht. fold k'. pose proof (eta_pos inv o k He) as Hep. fold k' in Hep. field. lra.
Qed.

Lemma run_firstn os o t : (t <= length os)%nat -> kalman_run inv (firstn t (os ++ [o])) start = kalman_run inv (firstn t os) start.
Proof. intros Ht. rewrite firstn_app. replace (t - length os)%nat with 0%nat by lia. cbn [firstn]. now rewrite app_nil_r. Qed.

Lemma q_zero : q0 = 0 -> forall os, k_q (kalman_run inv os start) = 0.
Proof.
  intros E os. apply (run_ind (fun k => k_q k = 0)).
  - intros o k Hk. rewrite q_next, Hk. destruct (Rlt_dec _ _); ring.
  - exact E.
Qed.
Lemma std_information os d : q0 = 0 ->
  inverse_of n (k_P (kalman_run inv os start))
    (fun i j => eps * delta i j + sumn (length os) (fun t => k_eta (kalman_run inv (firstn (S t) os) start) * outer (o_m (nth t os d)) (o_H (nth t os d)) i j)).
Proof.
  intros Eq. induction os as [|o os IH] using rev_ind.
  - assert (E : forall i j, k_P start i j = / eps * delta i j).
    { unfold start. unfold new_kalman in Hnew. destruct (Nat.ltb n 1); [discriminate|]. injection Hnew as <-. intros i j. cbn. unfold identity, delta.
      destruct (Nat.eqb_spec i j), (Nat.eq_dec i j); try lia; field; lra. }
    cbn [kalman_run fold_left length]. change (kalman_run inv [] start) with start.
    intros i j Hi Hj. split.
    + transitivity (product n delta delta i j); [|now apply product_delta_r].
      apply sumn_ext. intros. rewrite E, sumn_0. field. lra.
    + transitivity (product n delta delta i j); [|now apply product_delta_r].
      apply sumn_ext. intros. rewrite E, sumn_0. field. lra.
  - rewrite run_snoc. destruct (std_information_step os o _ IH) as (D & HD & E).
    apply inverse_swap. eapply inverse_of_ext; [|apply inverse_swap; eapply inverse_of_ext; [|exact HD]].
    + intros i j Hi Hj. cbv beta. rewrite app_length. cbn [length]. rewrite Nat.add_1_r, sumn_S, <- Rplus_assoc. f_equal.
      * f_equal. apply sumn_ext. intros t Ht. rewrite run_firstn by lia. now rewrite app_nth1 by auto.
      * rewrite app_nth2, Nat.sub_diag by lia. cbn [nth]. f_equal.
        rewrite firstn_all2 by (rewrite app_length; cbn; lia). now rewrite run_snoc.
    + intros i j Hi Hj. rewrite E, (q_zero Eq) by auto. ring.
Qed.
End Std.

Section Fade.
Variables (inv : nat -> matrix -> matrix) (n : nat) (w : vector) (k0 : kalman) (eps q0 qtau qmin lambda nu : R).
Hypothesis Hinv : exact_inverse inv.
Hypothesis Hnew : new_kalman n KT_FADINGMEMORY w = Some k0.
Hypothesis Heps : 0 < eps.
Hypothesis Hq0 : 0 <= q0.
Hypothesis Hl : 0 < lambda <= 1.
Hypothesis Hnu : 0 <= nu <= 1.
Let start := setParametersFadingMemory eps q0 qtau qmin lambda nu k0.

Lemma fade_run os : fade_ok (kalman_run inv os start).
Proof.
  apply (run_ind fade_ok). { intros. now apply fade_step. }
  apply (start_fade n w k0 eps q0 qtau qmin lambda nu); auto.
Qed.
Lemma fade_size os : k_n (kalman_run inv os start) = n.
Proof. rewrite run_n. apply (start_fade n w k0 eps q0 qtau qmin lambda nu); auto. Qed.
Lemma fade_covariance os : let k := kalman_run inv os start in
  spd n (k_P k) /\ forall o, let S := innovation n (k_P k) (o_H o) (k_lambda k) in spd (o_m o) S /\ invertible (o_m o) S.
Proof.
  intros k. pose proof (fade_run os) as Hk. fold k in Hk. pose proof Hk as (Ht & HP & He & Hq).
  unfold k in HP at 1. rewrite fade_size in HP. split; auto. intros o.
  split. { apply innovation_spd; auto. lra. } apply innovation_invertible; auto. lra.
Qed.
Lemma fade_information_step os o M : let k := kalman_run inv os start in let k' := kalman_update inv o k in
  inverse_of n (k_P k) M ->
  exists D, inverse_of n D (fun i j => k_lambda k * M i j + outer (o_m o) (o_H o) i j) /\
  forall i j, (i < n)%nat -> (j < n)%nat -> k_P k' i j = D i j + k_q k * delta i j.
Proof.
  intros k k' HM. pose proof (fade_run os) as Hk. fold k in Hk. pose proof Hk as (Ht & HP & He & Hq).
  assert (En : k_n k = n) by apply fade_size.
  pose proof (update_information inv Hinv o k HP (fade_noise inv o k Hk) M) as U. rewrite En in U.
  destruct (U (proj2 (fade_forget k Hk)) HM) as (D & HD & E). exists D. split; auto.
  apply inverse_swap. apply (inverse_of_ext n (fun i j => (M i j + / noise_of o inv k * outer (o_m o) (o_H o) i j) / forget k)).
  - intros i j _ _. rewrite (proj1 (fade_forget k Hk)). unfold noise_of. rewrite Ht. field. lra.
  - now apply inverse_swap.
Qed.
Lemma fade_optimal os o M v : let k := kalman_run inv os start in let k' := kalman_update inv o k in
  inverse_of n (k_P k) M ->
  let cost := update_cost n (o_m o) M (o_H o) (o_xi o) (k_w k) (1 / k_lambda k) in
  cost (k_w k') <= cost v /\ (cost v <= cost (k_w k') -> forall i, (i < n)%nat -> v i = k_w k' i).
Proof.
  intros k k' HM cost. pose proof (fade_run os) as Hk. fold k in Hk. pose proof Hk as (Ht & HP & He & Hq).
  assert (En : k_n k = n) by apply fade_size.
  pose proof (update_optimal inv Hinv o k HP (fade_noise inv o k Hk) M v) as U. rewrite En in U. specialize (U HM). cbv zeta in U.
  replace (/ noise_of o inv k) with (1 / k_lambda k) in U; [exact U|].
  unfold noise_of. rewrite Ht. field. lra.
Qed.
End Fade.

(** * Annealing *)
Section Anneal.
Variable inv : nat -> matrix -> matrix.

Lemma run_num os k : k_num (kalman_run inv os k) = (k_num k + length os)%nat.
Proof.
  revert k. induction os as [|o os IH]; intros k. { cbn. lia. }
  change (k_num (kalman_run inv os (kalman_update inv o k)) = (k_num k + length (o :: os))%nat). rewrite IH. cbn. lia.
Qed.
Lemma run_type os k : k_type (kalman_run inv os k) = k_type k.
Proof. now apply run_constant. Qed.
Lemma run_etamax os k : k_etamax (kalman_run inv os k) = k_etamax k.
Proof. now apply run_constant. Qed.
Lemma run_etatau os k : k_etatau (kalman_run inv os k) = k_etatau k.
Proof. now apply run_constant. Qed.
Lemma run_qtau os k : k_qtau (kalman_run inv os k) = k_qtau k.
Proof. now apply run_constant. Qed.
Lemma run_qmin os k : k_qmin (kalman_run inv os k) = k_qmin k.
Proof. now apply run_constant. Qed.
Lemma run_nu os k : k_nu (kalman_run inv os k) = k_nu k.
Proof. now apply run_constant. Qed.
Lemma run_app os os' k : kalman_run inv (os ++ os') k = kalman_run inv os' (kalman_run inv os k).
Proof. unfold kalman_run. now rewrite fold_left_app. Qed.

Lemma eta_next o k : k_type k = KT_STANDARD -> k_eta (kalman_update inv o k) = if Rlt_dec (k_eta k) (k_etamax k) then k_eta k * exp (k_etatau k) else k_eta k.
Proof. intros Ht. unfold kalman_update. cbn. now rewrite Ht. Qed.

Section Eta.
Variable k : kalman.
Hypothesis Ht : k_type k = KT_STANDARD.
Hypothesis He : 0 < k_eta k.
Hypothesis Htau : 0 <= k_etatau k.
Lemma exp_ge1 x : 0 <= x -> 1 <= exp x.
Proof. intros [H| <-]. { left. rewrite <- exp_0. now apply exp_increasing. } rewrite exp_0. lra. Qed.
Lemma exp_le1 x : 0 <= x -> exp (- x) <= 1.
Proof. intros [H| <-]. { left. rewrite <- exp_0. apply exp_increasing. lra. } rewrite Ropp_0, exp_0. lra. Qed.
Lemma eta_run_pos os : 0 < k_eta (kalman_run inv os k).
Proof. apply (run_ind (fun k => 0 < k_eta k)); auto. intros. now apply eta_pos. Qed.
Lemma eta_monotone os os' : k_eta (kalman_run inv os k) <= k_eta (kalman_run inv (os ++ os') k).
Proof.
  induction os' as [|o os' IH] using rev_ind. { rewrite app_nil_r. lra. }
  rewrite app_assoc, run_snoc, eta_next by now rewrite run_type. eapply Rle_trans; [exact IH|].
  destruct (Rlt_dec _ _); [|lra]. rewrite run_etatau.
  pose proof (exp_ge1 _ Htau). pose proof (eta_run_pos (os ++ os')). nra.
Qed.
Lemma eta_law os : (forall s, (s < length os)%nat -> k_eta k * exp (INR s * k_etatau k) < k_etamax k) ->
  k_eta (kalman_run inv os k) = k_eta k * exp (INR (length os) * k_etatau k).
Proof.
  induction os as [|o os IH] using rev_ind; intros H.
  - cbn. rewrite Rmult_0_l, exp_0. ring.
  - rewrite app_length in *. cbn [length] in *. rewrite run_snoc, eta_next by now rewrite run_type.
    rewrite IH. 2:{ intros s Hs. apply H. lia. }
    rewrite run_etamax, run_etatau. destruct (Rlt_dec _ _) as [L|L].
    + rewrite plus_INR. cbn [INR]. rewrite Rmult_plus_distr_r, exp_plus, Rmult_1_l. ring.
    + exfalso. apply L. apply H. lia.
Qed.
Lemma eta_stays os os' : k_etamax k <= k_eta (kalman_run inv os k) -> k_eta (kalman_run inv (os ++ os') k) = k_eta (kalman_run inv os k).
Proof.
  intros H. induction os' as [|o os' IH] using rev_ind. { now rewrite app_nil_r. }
  rewrite app_assoc, run_snoc, eta_next by now rewrite run_type. rewrite IH, run_etamax.
  destruct (Rlt_dec _ _); lra.
Qed.
Lemma eta_bound os : k_eta (kalman_run inv os k) = k_eta k \/ k_eta (kalman_run inv os k) < k_etamax k * exp (k_etatau k).
Proof.
  induction os as [|o os IH] using rev_ind. { auto. }
  rewrite run_snoc, eta_next by now rewrite run_type. rewrite run_etamax, run_etatau.
  destruct (Rlt_dec _ _) as [L|L]; auto. right. apply Rmult_lt_compat_r; auto. apply exp_pos.
Qed.
End Eta.

Section Q.
Variable k : kalman.
Hypothesis Hq : 0 <= k_q k.
Hypothesis Htau : 0 <= k_qtau k.
Lemma q_run_nonneg os : 0 <= k_q (kalman_run inv os k).
Proof. apply (run_ind (fun k => 0 <= k_q k)); auto. intros. now apply q_nonneg. Qed.
Lemma q_monotone os os' : k_q (kalman_run inv (os ++ os') k) <= k_q (kalman_run inv os k).
Proof.
  induction os' as [|o os' IH] using rev_ind. { rewrite app_nil_r. lra. }
  rewrite app_assoc, run_snoc, q_next. eapply Rle_trans; [|exact IH].
  destruct (Rlt_dec _ _); [|lra]. rewrite run_qtau.
  pose proof (exp_le1 _ Htau). pose proof (q_run_nonneg (os ++ os')). nra.
Qed.
Lemma q_law os : (forall s, (s < length os)%nat -> k_qmin k < k_q k * exp (- (INR s * k_qtau k))) ->
  k_q (kalman_run inv os k) = k_q k * exp (- (INR (length os) * k_qtau k)).
Proof.
  induction os as [|o os IH] using rev_ind; intros H.
  - cbn. rewrite Rmult_0_l, Ropp_0, exp_0. ring.
  - rewrite app_length in *. cbn [length] in *. rewrite run_snoc, q_next.
    rewrite IH. 2:{ intros s Hs. apply H. lia. }
    rewrite run_qmin, run_qtau. destruct (Rlt_dec _ _) as [L|L].
    + rewrite plus_INR. cbn [INR]. rewrite Rmult_plus_distr_r, Ropp_plus_distr, exp_plus, Rmult_1_l. ring.
    + exfalso. apply L. apply H. lia.
Qed.
Lemma q_stays os os' : k_q (kalman_run inv os k) <= k_qmin k -> k_q (kalman_run inv (os ++ os') k) = k_q (kalman_run inv os k).
Proof.
  intros H. induction os' as [|o os' IH] using rev_ind. { now rewrite app_nil_r. }
  rewrite app_assoc, run_snoc, q_next. rewrite IH, run_qmin.
  destruct (Rlt_dec _ _); lra.
Qed.
Lemma q_bound os : k_q (kalman_run inv os k) = k_q k \/ k_qmin k * exp (- k_qtau k) < k_q (kalman_run inv os k).
Proof.
  induction os as [|o os IH] using rev_ind. { auto. }
  rewrite run_snoc, q_next. rewrite run_qmin, run_qtau.
  destruct (Rlt_dec _ _) as [L|L]; auto. right. apply Rmult_lt_compat_r; auto. apply exp_pos.
Qed.
End Q.

Section Lambda.
Variable k : kalman.
Hypothesis Ht : k_type k = KT_FADINGMEMORY.
Lemma lambda_law os : k_lambda (kalman_run inv os k) = 1 - k_nu k ^ length os * (1 - k_lambda k).
Proof.
  induction os as [|o os IH] using rev_ind. { cbn. ring. }
  rewrite run_snoc, lambda_next by now rewrite run_type. rewrite IH, run_nu, app_length. cbn [length].
  rewrite Nat.add_1_r. cbn [pow]. ring.
Qed.
Lemma lambda_range os : 0 < k_lambda k <= 1 -> 0 <= k_nu k <= 1 -> k_lambda k <= k_lambda (kalman_run inv os k) <= 1.
Proof.
  intros Hl Hn. rewrite lambda_law.
  assert (0 <= k_nu k ^ length os <= 1). { split. { apply pow_le. lra. } rewrite <- (pow1 (length os)). apply pow_incr. lra. }
  split; nra.
Qed.
Lemma gamma_next os o : k_gamma (kalman_run inv (os ++ [o]) k) = 1 / (1 + k_lambda (kalman_run inv (os ++ [o]) k) / k_gamma (kalman_run inv os k)).
Proof.
  rewrite run_snoc. pose proof (run_type os k) as E. rewrite Ht in E. unfold kalman_update. cbn [k_gamma k_lambda]. now rewrite E.
Qed.
End Lambda.
End Anneal.
