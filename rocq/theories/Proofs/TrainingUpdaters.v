(** C83: updaters of a training. *)
From Coq Require Import Reals Lra ZArith Lia Ascii String Bool Arith Permutation.
From Coq Require Import List.
From Verif Require Import Base.AssocMap Model.Strings Model.Printf Model.Settings Model.SymLines Model.NetworkSetup Model.DataFiles
  Model.Updaters Model.Selection Model.UpdatePlan Model.TrainingSetup Spec.TrainingSpec
  Proofs.SymLineProofs Proofs.NetworkSetupProofs Proofs.NetworkSetupMain Proofs.EpochProofs Proofs.UpdaterExamples Proofs.TrainingSchedule Proofs.TrainingSelection
  Proofs.TrainingLoop Proofs.TrainingFiles Proofs.TrainingMain Proofs.TrainingTheorems Proofs.TrainingResults.
Import ListNotations.
Local Open Scope R_scope.

Lemma given_same_int s k a b : given_int s k a -> given_int s k b -> a = b.
Proof. intros (w & G & A) (w' & G' & A'). unfold given in *. congruence. Qed.
Lemma given_same_real s k a b : given_real s k a -> given_real s k b -> a = b.
Proof. intros (w & G & A) (w' & G' & A'). unfold given in *. rewrite A, A'. f_equal. congruence. Qed.
Lemma given_not_absent s k v : given s k v -> absent s k -> False.
Proof. intros G A. unfold given, absent, getValue, keywordCheck in *. rewrite A in G. discriminate. Qed.
Lemma total_is t : total_updates (t_props t) = updates_per_epoch t.
Proof.
  unfold total_updates, updates_per_epoch. assert (G : forall l a, fold_left (fun t p => t + IZR (tr_updates p)) l a = a + fold_right Rplus 0 (map (fun p => IZR (tr_updates p)) l)).
  { induction l as [|p l IH]; intro a; cbn; [lra|]. rewrite IH. lra. }
  rewrite G. lra.
Qed.
Lemma sizes_eq par jac strat z h conn : strategy_of z = Done strat ->
  numWeightsPerUpdater (mkLayout par jac strat h conn []) = updater_sizes z h conn.
Proof.
  intro S. unfold strategy_of in S. unfold numWeightsPerUpdater, weightsMemory, updater_sizes. cbn [l_strat l_hardness l_conn].
  destruct (Z.eqb_spec z 0) as [->|D].
  - apply done_inj in S. subst strat.
    assert (G : forall l a o, fst (fold_left (fun (st : nat * list nat) n => let '(numWeights, off) := st in ((if h then Datatypes.S (numWeights + n) else (numWeights + n)%nat), off ++ [numWeights])) l (a, o))
       = (a + fold_right Nat.add 0 (map (fun n => if h then Datatypes.S n else n) l))%nat).
    { induction l as [|n l IH]; intros a o; cbn [fold_left fold_right map]; [cbn; lia|]. rewrite IH. destruct h; lia. }
    specialize (G conn 0%nat []). cbn [Nat.add] in G. cbv zeta. revert G.
    match goal with |- fst ?X = _ -> _ => destruct X as (nw, off) end. cbn [fst]. now intros ->.
  - destruct (Z.eqb z 1); [|discriminate]. apply done_inj in S. subst strat. cbn [fst].
    assert (G : forall (l a : list nat), fold_left (fun acc n => acc ++ [n]) l a = a ++ l).
    { induction l as [|n l IH]; intro a; cbn; [now rewrite app_nil_r|]. now rewrite IH, <- app_assoc. }
    apply G.
Qed.

(** The only assumptions on the learning rate. *)
Lemma kalman_started s u ty n w k0 k z : 0 < u -> given_int s (lit "kalman_type") z -> kalman_of z = Done ty -> new_kalman n ty w = Some k0 -> kalmanParameters s u ty k0 = Done k ->
  starts_kalman s n u w k.
Proof.
  intros Hu Gz T K P. unfold new_kalman in K. destruct (Nat.ltb n 1); [discriminate|]. injection K as <-. unfold kalmanParameters in P.
  apply bindo_done in P. destruct P as (eps & E1 & P). apply bindo_done in P. destruct P as (q0 & E2 & P). apply bindo_done in P. destruct P as (qtau & E3 & P).
  apply bindo_done in P. destruct P as (qmin & E4 & P). apply get_real_given in E1, E2, E3, E4.
  assert (Q : qtau / u * u = qtau) by (field; lra).
  destruct ty.
  - apply bindo_done in P. destruct P as (eta & E5 & P). apply bindo_done in P. destruct P as (b1 & B1 & P). apply bindo_done in P. destruct P as (b2 & B2 & P).
    apply bindo_done in P. destruct P as ((tau, emax) & E6 & P). cbn [fst snd] in P. apply done_inj in P. subst k. apply get_real_given in E5.
    unfold starts_kalman, setParametersStandard. cbn [k_n k_num k_w k_eps k_q0 k_q k_qtau k_qmin k_P k_type k_eta0 k_eta k_etatau k_etamax].
    rewrite Q. split; [reflexivity|]. split; [reflexivity|]. split; [reflexivity|]. split; [exact E1|]. split; [exact E2|]. split; [reflexivity|]. split; [exact E3|]. split; [exact E4|].
    split; [reflexivity|]. split; [unfold kalman_of in T; destruct (Z.eqb_spec z 0) as [->|]; [exact Gz|]; destruct (Z.eqb z 1); discriminate|]. split; [exact E5|]. split; [reflexivity|].
    destruct b1, b2; cbn [andb] in E6.
    + apply bindo_done in E6. destruct E6 as (ta & T1 & E6). apply bindo_done in E6. destruct E6 as (m & T2 & E6). apply done_inj in E6. apply pair_equal_spec in E6. destruct E6 as (<- & <-).
      left. apply get_real_given in T1, T2. split; [|exact T2]. replace (ta / u * u) with ta by (field; lra). exact T1.
    + right. apply done_inj in E6. apply pair_equal_spec in E6. destruct E6 as (<- & <-). split; [right; now apply has_false | reflexivity].
    + right. apply done_inj in E6. apply pair_equal_spec in E6. destruct E6 as (<- & <-). split; [left; now apply has_false | reflexivity].
    + right. apply done_inj in E6. apply pair_equal_spec in E6. destruct E6 as (<- & <-). split; [left; now apply has_false | reflexivity].
  - apply bindo_done in P. destruct P as (la & E5 & P). apply bindo_done in P. destruct P as (nu & E6 & P). apply done_inj in P. subst k. apply get_real_given in E5, E6.
    unfold starts_kalman, setParametersFadingMemory. cbn [k_n k_num k_w k_eps k_q0 k_q k_qtau k_qmin k_P k_type k_lambda k_nu k_gamma].
    rewrite Q. split; [reflexivity|]. split; [reflexivity|]. split; [reflexivity|]. split; [exact E1|]. split; [exact E2|]. split; [reflexivity|]. split; [exact E3|]. split; [exact E4|].
    split; [reflexivity|]. split; [unfold kalman_of in T; destruct (Z.eqb_spec z 0) as [->|]; [discriminate|]; destruct (Z.eqb_spec z 1) as [->|]; [exact Gz | discriminate]|]. split; [exact E5|]. split; [exact E6 | reflexivity].
Qed.
Lemma descent_started s ty n w g0 g z : given_int s (lit "gradient_type") z -> descent_of z = Done ty -> new_descent n ty w = Some g0 -> descentParameters s ty g0 = Done g ->
  starts_descent s n w g.
Proof.
  intros Gz T K P. unfold new_descent in K. destruct (Nat.ltb n 1); [discriminate|]. injection K as <-. unfold descentParameters in P. destruct ty.
  - apply bindo_done in P. destruct P as (eta & E & P). apply done_inj in P. subst g. apply get_real_given in E. unfold starts_descent, setParametersFixed. cbn [g_n g_w g_type g_eta].
    split; [reflexivity|]. split; [reflexivity|]. split; [|exact E]. unfold descent_of in T. destruct (Z.eqb_spec z 0) as [->|]; [exact Gz|]. destruct (Z.eqb z 1); discriminate.
  - apply bindo_done in P. destruct P as (eta & E1 & P). apply bindo_done in P. destruct P as (b1 & E2 & P). apply bindo_done in P. destruct P as (b2 & E3 & P). apply bindo_done in P. destruct P as (ep & E4 & P).
    apply done_inj in P. subst g. apply get_real_given in E1, E2, E3, E4. unfold starts_descent, setParametersAdam. cbn [g_n g_w g_type g_eta0 g_beta1 g_beta2 g_eps g_m g_v g_beta1t g_beta2t].
    split; [reflexivity|]. split; [reflexivity|]. split; [|repeat split; assumption].
    unfold descent_of in T. destruct (Z.eqb_spec z 0) as [->|]; [discriminate|]. destruct (Z.eqb_spec z 1) as [->|]; [exact Gz | discriminate].
Qed.

(** What makeUpdaters makes. *)
Lemma made_kalman s h u sizes ws us : makeUpdaters s h UT_KF u sizes ws = Done us ->
  List.length us = (if h then List.length sizes else 0%nat) /\
  forall i o, nth_error us i = Some o -> exists n z ty k0 k, o = UK k /\ nth_error sizes i = Some n /\ given_int s (lit "kalman_type") z /\ kalman_of z = Done ty /\
    new_kalman n ty (ws i) = Some k0 /\ kalmanParameters s u ty k0 = Done k.
Proof.
  intro H. cbn [makeUpdaters] in H. apply bindo_done in H. destruct H as (z & Gz & H). apply get_int_given in Gz. destruct h.
  - apply mapo_nth in H. rewrite seq_length in H. destruct H as (L & H). split; [exact L|]. intros i o Ho. destruct (H i o Ho) as (j & Hj & X).
    assert (j = i). { assert (i < List.length sizes)%nat by (rewrite <- L; apply nth_error_Some; congruence). rewrite (nth_error_nth' _ 0%nat) in Hj by now rewrite seq_length.
      rewrite seq_nth in Hj by assumption. injection Hj as <-. reflexivity. } subst j.
    apply bindo_done in X. destruct X as (ty & T & X). apply bindo_done in X. destruct X as (n & N & X). apply bindo_done in X. destruct X as (k0 & K & X).
    apply bindo_done in X. destruct X as (k & P & X). apply done_inj in X. apply throwing_done in N, K. exists n, z, ty, k0, k. auto 10.
  - apply done_inj in H. subst us. split; [reflexivity|]. intros [|i] o X; discriminate.
Qed.
Lemma made_descent s h u sizes ws us : makeUpdaters s h UT_GD u sizes ws = Done us ->
  List.length us = (if h then List.length sizes else 0%nat) /\
  forall i o, nth_error us i = Some o -> exists n z ty k0 k, o = UG k /\ nth_error sizes i = Some n /\ given_int s (lit "gradient_type") z /\ descent_of z = Done ty /\
    new_descent n ty (ws i) = Some k0 /\ descentParameters s ty k0 = Done k.
Proof.
  intro H. cbn [makeUpdaters] in H. apply bindo_done in H. destruct H as (z & Gz & H). apply get_int_given in Gz. destruct h.
  - apply mapo_nth in H. rewrite seq_length in H. destruct H as (L & H). split; [exact L|]. intros i o Ho. destruct (H i o Ho) as (j & Hj & X).
    assert (j = i). { assert (i < List.length sizes)%nat by (rewrite <- L; apply nth_error_Some; congruence). rewrite (nth_error_nth' _ 0%nat) in Hj by now rewrite seq_length.
      rewrite seq_nth in Hj by assumption. injection Hj as <-. reflexivity. } subst j.
    apply bindo_done in X. destruct X as (ty & T & X). apply bindo_done in X. destruct X as (n & N & X). apply bindo_done in X. destruct X as (k0 & K & X).
    apply bindo_done in X. destruct X as (k & P & X). apply done_inj in X. apply throwing_done in N, K. exists n, z, ty, k0, k. auto 10.
  - apply done_inj in H. subst us. split; [reflexivity|]. intros [|i] o X; discriminate.
Qed.

Theorem start_theorem s nnp stage e t y strategy parallel : setupTraining s nnp stage e = Done t ->
  given_int s (lit "updater_type") y -> given_int s (lit "update_strategy") strategy -> given_int s (lit "parallel_mode") parallel ->
  let sizes := updater_sizes strategy (is_4G nnp && Nat.eqb stage 1)%bool (su_conn e) in
  List.length (t_updaters t) = (if has_updaters e parallel then List.length sizes else 0%nat) /\
  forall i, (i < List.length (t_updaters t))%nat -> exists n, nth_error sizes i = Some n /\
    ((y = 1%Z /\ exists k, nth_error (t_updaters t) i = Some (UK k) /\ (0 < updates_per_epoch t -> starts_kalman s n (updates_per_epoch t) (su_values e (t_strategy t) i) k)) \/
     (y = 0%Z /\ exists g, nth_error (t_updaters t) i = Some (UG g) /\ starts_descent s n (su_values e (t_strategy t) i) g)).
Proof.
  intros H Gy Gs Gp sizes. pose proof (setup_inv _ _ _ _ _ H) as U. pose proof (su_updaters _ _ _ _ _ U) as M.
  destruct (su_strat _ _ _ _ _ U) as (zs & Gs' & Ss). pose proof (given_same_int _ _ _ _ Gs Gs') as <-. rewrite (sizes_eq _ _ _ strategy _ _ Ss) in M. fold sizes in M.
  destruct (su_par _ _ _ _ _ U) as (zp & Gp' & Sp). pose proof (given_same_int _ _ _ _ Gp Gp') as <-.
  destruct (su_type _ _ _ _ _ U) as (zt & Gt & St). pose proof (given_same_int _ _ _ _ Gy Gt) as <-. rewrite total_is in M.
  assert (HH : (Nat.eqb (su_rank e) 0 || match t_parallel t with PM_TRAIN_ALL => true | PM_TRAIN_RK0 => false end)%bool = has_updaters e parallel).
  { unfold has_updaters. f_equal. unfold parallel_of in Sp. destruct (Z.eqb_spec parallel 0) as [->|]; [apply done_inj in Sp; now rewrite <- Sp|].
    destruct (Z.eqb parallel 1); [apply done_inj in Sp; now rewrite <- Sp | discriminate]. }
  rewrite HH in M. unfold updater_type_of in St.
  destruct (Z.eqb_spec y 0) as [->|D0]; [|destruct (Z.eqb_spec y 1) as [->|D1]; [|discriminate]]; apply done_inj in St; rewrite <- St in M.
  - apply made_descent in M. destruct M as (L & M). split; [exact L|]. intros i Hi. destruct (nth_error (t_updaters t) i) as [o|] eqn:E; [|apply nth_error_None in E; lia].
    destruct (M i o E) as (n & z & ty & k0 & k & -> & N & Gz & T & K & P). exists n. split; [exact N|]. right. split; [reflexivity|]. exists k. split; [reflexivity|].
    eapply descent_started; eauto.
  - apply made_kalman in M. destruct M as (L & M). split; [exact L|]. intros i Hi. destruct (nth_error (t_updaters t) i) as [o|] eqn:E; [|apply nth_error_None in E; lia].
    destruct (M i o E) as (n & z & ty & k0 & k & -> & N & Gz & T & K & P). exists n. split; [exact N|]. left. split; [reflexivity|]. exists k. split; [reflexivity|].
    intro Hu. eapply kalman_started; eauto.
Qed.

(** ** The updaters in the loop *)
Lemma updaters_nth inv kobs gobs us i k : nth_error us i = Some (UK k) -> forall n,
  nth_error (updaters_at inv kobs gobs us n) i = Some (UK (kalman_run inv (map (fun j => kobs j i) (seq 0 n)) k)).
Proof.
  intros H n. induction n as [|n IH]; [exact H|]. cbn [updaters_at]. unfold updateAll.
  set (us' := updaters_at inv kobs gobs us n) in *.
  assert (C : nth_error (List.combine (seq 0 (List.length us')) us') i = Some (i, UK (kalman_run inv (map (fun j => kobs j i) (seq 0 n)) k))).
  { assert (Hi : (i < List.length us')%nat) by (apply nth_error_Some; congruence).
    rewrite (nth_error_nth' _ (0%nat, UK k)) by (rewrite combine_length, seq_length; lia). rewrite combine_nth by apply seq_length.
    rewrite seq_nth by exact Hi. do 2 f_equal. now apply nth_error_nth. }
  rewrite (map_nth_error _ _ _ C). cbn [fst snd]. do 2 f_equal. rewrite seq_S, map_app. unfold kalman_run. rewrite fold_left_app. reflexivity.
Qed.
Lemma list_sum_perm l l' : Permutation l l' -> list_sum l = list_sum l'.
Proof. unfold list_sum; induction 1; cbn [fold_right]; lia. Qed.
Lemma seq_nth_id (l : list nat) : map (fun i => nth i l 0%nat) (seq 0 (List.length l)) = l.
Proof.
  apply (nth_ext _ _ 0%nat 0%nat); [now rewrite map_length, seq_length|]. intros i Hi. rewrite map_length, seq_length in Hi.
  rewrite (nth_indep _ _ (nth (List.length l) l 0%nat)) by now rewrite map_length, seq_length. rewrite (map_nth (fun i => nth i l 0%nat)), seq_nth by assumption. reflexivity.
Qed.
Lemma schedule_length shuffle l : (forall m, Permutation (shuffle m) m) -> List.length (setEpochSchedule shuffle l) = list_sum l.
Proof.
  intro Sh. unfold setEpochSchedule. set (c := concat _).
  assert (C : List.length c = list_sum l).
  { unfold c. clear c. transitivity (list_sum (map (fun i => nth i l 0%nat) (seq 0 (List.length l)))); [|now rewrite seq_nth_id].
    rewrite (list_sum_perm (map (fun i => nth i l 0%nat) (seq 0 (List.length l))) (map (fun i => nth i l 0%nat) (rev (seq 0 (List.length l))))).
    - induction (rev (seq 0 (List.length l))) as [|i r IH]; [reflexivity|]. cbn [map concat]. rewrite app_length, repeat_length, IH. reflexivity.
    - apply Permutation_map, Permutation_rev. }
  destruct (Nat.eqb (List.length l) 1); [exact C | now rewrite (Permutation_length (Sh c))].
Qed.
Lemma steps_number shuffle t : (forall n l, Permutation (shuffle n l) l) -> forall z, Forall (fun p => (0 <= tr_updates p)%Z) (t_props t) ->
  INR (List.length (steps_at shuffle t z)) = INR z * updates_per_epoch t.
Proof.
  intros Sh z Pos. assert (L : forall e, INR (List.length (epoch_steps shuffle t e)) = updates_per_epoch t).
  { intro e. unfold epoch_steps. rewrite map_length. unfold schedule_at. rewrite schedule_length by apply Sh. unfold updates_per_epoch. clear - Pos.
    induction (t_props t) as [|p l IH]; [reflexivity|]. inversion Pos as [|? ? F1 F2]; subst. cbn [map list_sum fold_right]. 
    rewrite plus_INR. change (fold_right Nat.add 0%nat) with list_sum. rewrite IH by exact F2. rewrite INR_IZR_INZ, Z2Nat.id by exact F1. reflexivity. }
  unfold steps_at. induction z as [|z IH]; [cbn; ring|]. rewrite seq_S_r, flat_map_app, app_length, plus_INR, IH. cbn [flat_map]. rewrite app_nil_r, L, S_INR. ring.
Qed.
Lemma updates_positive s nnp stage e t : set_up s nnp stage e t -> Forall (fun p => (0 <= tr_updates p)%Z) (t_props t).
Proof.
  intro U. destruct (su_metric _ _ _ _ _ U) as (m & _ & F). eapply Forall_impl; [|exact F]. intros p (_ & _ & _ & p0 & _ & P). unfold setupUpdatePlan in P.
  apply bindo_done in P. destruct P as (f & _ & P). apply bindo_done in P. destruct P as (b & _ & P). apply bindo_done in P. destruct P as ((pt, u) & Pu & P). apply done_inj in P. subst p. cbn [tr_updates snd].
  destruct (Z.eqb (to_size b) 0); apply bindo_done in Pu; destruct Pu as (x & Tx & Pu); apply done_inj in Pu; apply pair_equal_spec in Pu; destruct Pu as (_ & <-); [lia|].
  now apply trunc_bounds in Tx.
Qed.
Lemma at_start s nnp stage e t i k : set_up s nnp stage e t -> kalman_at t i k -> 
  exists n z ty k0, given_int s (lit "kalman_type") z /\ kalman_of z = Done ty /\ new_kalman n ty (su_values e (t_strategy t) i) = Some k0 /\ kalmanParameters s (updates_per_epoch t) ty k0 = Done k.
Proof.
  intros U K. pose proof (su_updaters _ _ _ _ _ U) as M. rewrite total_is in M. destruct (t_type t) eqn:Ty.
  - apply made_descent in M. destruct M as (_ & M). destruct (M i _ K) as (n & z & ty & k0 & g & X & _). discriminate.
  - apply made_kalman in M. destruct M as (_ & M). destruct (M i _ K) as (n & z & ty & k0 & g & X & N & Gz & T & K0 & P). injection X as <-. exists n, z, ty, k0. auto.
Qed.
Lemma exp_below a b : a <= b -> exp a <= exp b.
Proof. intro H. destruct (Rle_lt_or_eq_dec _ _ H) as [L| ->]; [left; now apply exp_increasing | right; reflexivity]. Qed.
Theorem noise_theorem s nnp stage e zs shuffle inv kobs gobs z t x : training_run s nnp stage e zs shuffle inv kobs gobs z t x -> 0 < updates_per_epoch t ->
  forall i k0 k, kalman_at t i k0 -> kalman_at (lo_training x) i k ->
  forall q0 qtau qmin, given_real s (lit "kalman_q0") q0 -> given_real s (lit "kalman_qtau") qtau -> given_real s (lit "kalman_qmin") qmin ->
  0 <= q0 -> 0 <= qtau -> qmin < q0 * exp (- (INR z * qtau)) -> k_q k = q0 * exp (- (INR z * qtau)).
Proof.
  intros H Hu i k0 k K0 K q0 qtau qmin G0 Gt Gm P0 Pt Hq. destruct (run_state _ _ _ _ _ _ _ _ _ _ _ _ H) as (U & E & -> & B & Sh).
  destruct (at_start _ _ _ _ _ _ _ U K0) as (n & zt & ty & k1 & Gz & T & N & P). set (u := updates_per_epoch t) in *.
  unfold kalman_at in K. cbn [state_at lo_training training_at with_epoch with_updaters with_props t_updaters] in K.
  rewrite (updaters_nth _ _ _ _ _ _ K0) in K. injection K as <-. set (os := map _ _).
  assert (Ln : INR (List.length os) = INR z * u) by (unfold os; rewrite map_length, seq_length; apply steps_number; [exact Sh | eapply updates_positive; eauto]).
  assert (C : forall j, (j < List.length os)%nat -> qmin < q0 * exp (- (INR j * (qtau / u)))).
  { intros j Hj. eapply Rlt_le_trans; [exact Hq|]. apply Rmult_le_compat_l; [exact P0|]. apply exp_below. apply Ropp_le_contravar. apply lt_INR in Hj. rewrite Ln in Hj.
    replace (INR z * qtau) with (INR z * u * (qtau / u)) by (field; lra). apply Rmult_le_compat_r; [|lra]. apply Rmult_le_pos; [exact Pt | left; now apply Rinv_0_lt_compat]. }
  assert (Pu : 0 <= qtau / u) by (apply Rmult_le_pos; [exact Pt | left; now apply Rinv_0_lt_compat]).
  assert (Z : q0 * exp (- (INR (List.length os) * (qtau / u))) = q0 * exp (- (INR z * qtau))) by (rewrite Ln; do 3 f_equal; field; lra).
  unfold kalmanParameters in P.
  apply bindo_done in P. destruct P as (eps & E1 & P). apply bindo_done in P. destruct P as (q0' & E2 & P). apply bindo_done in P. destruct P as (qtau' & E3 & P).
  apply bindo_done in P. destruct P as (qmin' & E4 & P). apply get_real_given in E2, E3, E4.
  pose proof (given_same_real _ _ _ _ G0 E2) as <-. pose proof (given_same_real _ _ _ _ Gt E3) as <-. pose proof (given_same_real _ _ _ _ Gm E4) as <-.
  destruct ty.
  - apply bindo_done in P. destruct P as (eta & E5 & P). apply bindo_done in P. destruct P as (b1 & B1 & P). apply bindo_done in P. destruct P as (b2 & B2 & P).
    apply bindo_done in P. destruct P as ((tau, emax) & E6 & P). cbn [fst snd] in P. apply done_inj in P. subst k0.
    destruct (process_noise_standard inv n _ k1 eps q0 (qtau / u) qmin eta tau emax N P0 Pu) as (_ & L & _). rewrite (L os C). exact Z.
  - apply bindo_done in P. destruct P as (la & E5 & P). apply bindo_done in P. destruct P as (nu & E6 & P). apply done_inj in P. subst k0.
    destruct (process_noise_fading inv n _ k1 eps q0 (qtau / u) qmin la nu N P0 Pu) as (_ & L & _). rewrite (L os C). exact Z.
Qed.
Theorem rate_theorem s nnp stage e zs shuffle inv kobs gobs z t x : training_run s nnp stage e zs shuffle inv kobs gobs z t x -> 0 < updates_per_epoch t ->
  given_int s (lit "kalman_type") 0%Z ->
  forall i k0 k, kalman_at t i k0 -> kalman_at (lo_training x) i k ->
  forall eta, given_real s (lit "kalman_eta") eta -> 0 < eta ->
  (forall tau max, given_real s (lit "kalman_etatau") tau -> given_real s (lit "kalman_etamax") max -> 0 <= tau ->
     eta * exp (INR z * tau) < max -> k_eta k = eta * exp (INR z * tau)) /\
  (absent s (lit "kalman_etatau") \/ absent s (lit "kalman_etamax") -> k_eta k = eta).
Proof.
  intros H Hu G0 i k0 k K0 K eta Ge Pe. destruct (run_state _ _ _ _ _ _ _ _ _ _ _ _ H) as (U & E & -> & B & Sh).
  destruct (at_start _ _ _ _ _ _ _ U K0) as (n & zt & ty & k1 & Gz & T & N & P). set (u := updates_per_epoch t) in *. pose proof (given_same_int _ _ _ _ G0 Gz) as <-. cbn in T. apply done_inj in T. subst ty.
  unfold kalman_at in K. cbn [state_at lo_training training_at with_epoch with_updaters with_props t_updaters] in K.
  rewrite (updaters_nth _ _ _ _ _ _ K0) in K. injection K as <-. set (os := map _ _).
  assert (Ln : INR (List.length os) = INR z * u) by (unfold os; rewrite map_length, seq_length; apply steps_number; [exact Sh | eapply updates_positive; eauto]).
  unfold kalmanParameters in P.
  apply bindo_done in P. destruct P as (eps & E1 & P). apply bindo_done in P. destruct P as (q0' & E2 & P). apply bindo_done in P. destruct P as (qtau' & E3 & P).
  apply bindo_done in P. destruct P as (qmin' & E4 & P). cbn beta iota zeta in P.
  apply bindo_done in P. destruct P as (eta' & E5 & P). apply get_real_given in E5. pose proof (given_same_real _ _ _ _ Ge E5) as <-.
  apply bindo_done in P. destruct P as (b1 & B1 & P). apply bindo_done in P. destruct P as (b2 & B2 & P).
  apply bindo_done in P. destruct P as ((tau', emax) & E6 & P). cbn [fst snd] in P. apply done_inj in P. subst k0. split.
  - intros tau max Gt Gm Pt Hm.
    assert (b1 = true). { destruct b1; [reflexivity|]. apply has_false in B1. destruct Gt as (w & G & _). exfalso. eapply given_not_absent; eauto. }
    assert (b2 = true). { destruct b2; [reflexivity|]. apply has_false in B2. destruct Gm as (w & G & _). exfalso. eapply given_not_absent; eauto. }
    subst b1 b2. cbn [andb] in E6. apply bindo_done in E6. destruct E6 as (ta & T1 & E6). apply bindo_done in E6. destruct E6 as (m & T2 & E6). apply done_inj in E6. apply pair_equal_spec in E6. destruct E6 as (<- & <-).
    apply get_real_given in T1, T2. pose proof (given_same_real _ _ _ _ Gt T1) as <-. pose proof (given_same_real _ _ _ _ Gm T2) as <-.
    assert (Pu : 0 <= tau / u) by (apply Rmult_le_pos; [exact Pt | left; now apply Rinv_0_lt_compat]).
    destruct (learning_rate inv n _ k1 eps q0' (qtau' / u) qmin' eta (tau / u) max N Pe Pu) as (_ & L & _). rewrite (L os).
    + rewrite Ln. do 2 f_equal. field; lra.
    + intros j Hj. eapply Rle_lt_trans; [|exact Hm]. apply Rmult_le_compat_l; [lra|]. apply exp_below. apply lt_INR in Hj. rewrite Ln in Hj.
      replace (INR z * tau) with (INR z * u * (tau / u)) by (field; lra). apply Rmult_le_compat_r; [exact Pu | lra].
  - intro A. assert (A' : (b1 && b2)%bool = false).
    { destruct A as [A|A]; apply has_false in A; [assert (b1 = false) by congruence; subst b1; reflexivity | assert (b2 = false) by congruence; subst b2; apply andb_false_r]. }
    rewrite A' in E6. apply done_inj in E6. apply pair_equal_spec in E6. destruct E6 as (<- & <-).
    destruct (learning_rate inv n _ k1 eps q0' (qtau' / u) qmin' eta 1 eta N Pe ltac:(lra)) as (_ & _ & L & _).
    specialize (L [] os). cbn [app] in L. apply L. cbn. lra.
Qed.

(** ** What is rejected *)
Theorem accepted_theorem s nnp stage e t : setupTraining s nnp stage e = Done t ->
  (nnp = HDNNP_2G \/ stage = 1%nat \/ stage = 2%nat) /\
  (exists y, given_int s (lit "updater_type") y /\ ((y = 0%Z /\ given_int s (lit "jacobian_mode") 0) \/ y = 1%Z)) /\
  (exists y, given_int s (lit "parallel_mode") y /\ (y = 0%Z \/ y = 1%Z)) /\
  (exists y, given_int s (lit "jacobian_mode") y /\ (y = 0%Z \/ y = 1%Z \/ y = 2%Z)) /\
  (exists y, given_int s (lit "update_strategy") y /\ (y = 0%Z \/ y = 1%Z)) /\
  (exists y, given_int s (lit "epochs") y) /\
  (trained s nnp stage Force -> absent s (lit "repeated_energy_update")) /\
  (forall k, trained s nnp stage k -> exists b, given_int s (batch_keyword k) b).
Proof.
  intro H. pose proof (setup_inv _ _ _ _ _ H) as U. split; [apply (su_ok _ _ _ _ _ U)|].
  destruct (su_type _ _ _ _ _ U) as (yt & Gt & St), (su_par _ _ _ _ _ U) as (yp & Gp & Sp), (su_jac _ _ _ _ _ U) as (yj & Gj & Sj), (su_strat _ _ _ _ _ U) as (ys & Gs & Ss).
  assert (J : yj = 0%Z /\ t_jacobian t = JM_SUM \/ yj = 1%Z /\ t_jacobian t = JM_TASK \/ yj = 2%Z /\ t_jacobian t = JM_FULL).
  { unfold jacobian_of in Sj. destruct (Z.eqb_spec yj 0) as [->|]; [apply done_inj in Sj; auto|]. destruct (Z.eqb_spec yj 1) as [->|]; [apply done_inj in Sj; auto|].
    destruct (Z.eqb_spec yj 2) as [->|]; [apply done_inj in Sj; auto | discriminate]. }
  split; [|split; [|split; [|split; [|split; [|split]]]]].
  - exists yt. split; [exact Gt|]. unfold updater_type_of in St. destruct (Z.eqb_spec yt 0) as [->|]; [|destruct (Z.eqb_spec yt 1) as [->|]; [now right | discriminate]].
    left. split; [reflexivity|]. apply done_inj in St. symmetry in St. pose proof (su_gd _ _ _ _ _ U St) as G. destruct J as [(-> & _)|[(_ & X)|(_ & X)]]; [exact Gj | congruence | congruence].
  - exists yp. split; [exact Gp|]. unfold parallel_of in Sp. destruct (Z.eqb_spec yp 0); [now left|]. destruct (Z.eqb_spec yp 1); [now right | discriminate].
  - exists yj. split; [exact Gj|]. tauto.
  - exists ys. split; [exact Gs|]. unfold strategy_of in Ss. destruct (Z.eqb_spec ys 0); [now left|]. destruct (Z.eqb_spec ys 1); [now right | discriminate].
  - destruct (su_epochs _ _ _ _ _ U) as (y & G & _). now exists y.
  - intros (N & F). apply (su_repeated _ _ _ _ _ U). pose proof (su_force _ _ _ _ _ U) as W. unfold forceWeight_of in W.
    assert (Q : (is_2G nnp || Nat.eqb stage 2)%bool = true).
    { destruct (su_ok _ _ _ _ _ U) as [->|[->| ->]]; [reflexivity | | apply orb_true_r]. unfold first_of_two in N. destruct nnp; [reflexivity | exfalso; apply N; split; congruence | exfalso; apply N; split; congruence]. }
    rewrite Q in W. unfold has in W at 1. rewrite F in W. cbn [throwing bindo] in W. apply bindo_done in W. destruct W as (b & _ & W). destruct b.
    + apply bindo_done in W. destruct W as (w & _ & W). apply done_inj in W. apply pair_equal_spec in W. now destruct W as (<- & _).
    + apply done_inj in W. apply pair_equal_spec in W. now destruct W as (<- & _).
  - intros k Hk. apply (trained_keys _ _ _ _ _ U) in Hk. apply in_map_iff in Hk. destruct Hk as (p & K & Hp). destruct (su_metric _ _ _ _ _ U) as (m & _ & F). rewrite Forall_forall in F.
    destruct (F _ Hp) as (_ & _ & _ & p0 & K0 & P). unfold setupUpdatePlan in P. rewrite K0, K in P. apply bindo_done in P. destruct P as (f & _ & P). apply bindo_done in P. destruct P as (b & Gb & _).
    apply get_int_given in Gb. exists b. now destruct k.
Qed.
Theorem metric_theorem s nnp stage e t : setupTraining s nnp stage e = Done t -> forall p, In p (t_props t) ->
  In (tr_metric p) (metrics_of (tr_key p)) /\
  ((absent s (lit "main_error_metric") /\ shown_metric None (tr_key p) (tr_metric p)) \/
   (exists v, given s (lit "main_error_metric") v /\ shown_metric (Some v) (tr_key p) (tr_metric p))).
Proof.
  intros H p Hp. pose proof (setup_inv _ _ _ _ _ H) as U. destruct (su_metric _ _ _ _ _ U) as (m & M & F). rewrite Forall_forall in F. destruct (F _ Hp) as (_ & -> & _). clear F.
  unfold metric_of in M. apply bindo_done in M. destruct M as (b & B & M). destruct b.
  - apply bindo_done in M. destruct M as (v & V & M). apply get_given in V.
    destruct (str_eqb v (lit "RMSEpa")) eqn:E1; [|destruct (str_eqb v (lit "RMSE")) eqn:E2; [|destruct (str_eqb v (lit "MAEpa")) eqn:E3; [|destruct (str_eqb v (lit "MAE")) eqn:E4; [|discriminate]]]];
    apply done_inj in M; subst m; 
    match goal with E : str_eqb v _ = true |- _ => apply StringProofs.str_eqb_true in E; subst v end;
    (split; [destruct (tr_key p); cbn; tauto|]); right; eexists; (split; [exact V|]); unfold shown_metric; destruct (tr_key p); tauto.
  - apply done_inj in M. subst m. split; [destruct (tr_key p); cbn; tauto|]. left. split; [now apply has_false|]. unfold shown_metric. destruct (tr_key p); reflexivity.
Qed.
