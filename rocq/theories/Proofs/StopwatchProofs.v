From Coq Require Import Reals List ZArith Lia Lra.
From Coq Require Import List.
From Verif Require Import Model.Stopwatch Spec.StopwatchSpec.
Import ListNotations.
Local Open Scope R_scope.

Lemma call_old h e i P : (i < length h)%nat -> (call_at (h ++ [e]) i P <-> call_at h i P).
Proof. intros H. unfold call_at. rewrite nth_error_app1 by assumption. tauto. Qed.
Lemma call_new h e P : call_at (h ++ [e]) (length h) P <-> P e.
Proof.
  unfold call_at. rewrite nth_error_app2, Nat.sub_diag by lia. cbn. split; [intros (x & [= <-] & H); exact H|eauto].
Qed.
Lemma call_lt h i P : call_at h i P -> (i < length h)%nat.
Proof. intros (e & H & _). apply nth_error_Some. congruence. Qed.
Lemma call_out h e i P : call_at (h ++ [e]) i P -> (i < length h)%nat \/ i = length h.
Proof. intros H. apply call_lt in H. rewrite app_length in H. cbn in H. lia. Qed.

Lemma running_old h e n : (n <= length h)%nat -> (running_before (h ++ [e]) n <-> running_before h n).
Proof.
  intros H. unfold running_before. split; intros (i & A & B); exists i; (split; [assumption|]); intros j Hj; specialize (B j Hj);
    [rewrite call_old in B by lia; exact B|apply call_old; [lia|exact B]].
Qed.
Lemma running_new h e : running_before (h ++ [e]) (S (length h)) <-> is_start e.
Proof.
  split.
  - intros (i & A & B). assert (Hj : (i <= length h < S (length h))%nat) by lia. specialize (B _ Hj). rewrite call_new in B. exact B.
  - intros H. exists (length h). split; [lia|]. intros j Hj. replace j with (length h) by lia. now apply call_new.
Qed.
Lemma starts_clock_old h e i : (i < length h)%nat -> (starts_clock (h ++ [e]) i <-> starts_clock h i).
Proof. intros H. unfold starts_clock. rewrite call_old by assumption. rewrite running_old by lia. tauto. Qed.
Lemma starts_clock_new h e : starts_clock (h ++ [e]) (length h) <-> is_start e /\ ~ running_before h (length h).
Proof. unfold starts_clock. rewrite call_new. rewrite running_old by lia. tauto. Qed.
Lemma starts_clock_lt h i : starts_clock h i -> (i < length h)%nat.
Proof. intros [H _]. eapply call_lt; eauto. Qed.
Lemma interval_lt h i j : interval h i j -> (i < j < length h)%nat.
Proof. intros (A & _ & B & _). apply call_lt in B. lia. Qed.
Lemma interval_old h e i j : (j < length h)%nat -> (interval (h ++ [e]) i j <-> interval h i j).
Proof.
  intros H. unfold interval. split; intros (A & B & C & D).
  - rewrite starts_clock_old in B by lia. rewrite call_old in C by lia. repeat split; auto; try apply B.
    intros k Hk. specialize (D k Hk). rewrite call_old in D by lia. exact D.
  - repeat split; auto; try (apply starts_clock_old; [lia|exact B]). + now apply call_old. + intros k Hk. apply call_old; [lia|]. now apply D.
Qed.
(** The call which started the running clock. *)
Definition current (h : list event) (i : nat) : Prop :=
  starts_clock h i /\ forall k, (i < k < length h)%nat -> call_at h k is_start.
Lemma interval_new h e i : interval (h ++ [e]) i (length h) <-> is_end e /\ current h i.
Proof.
  unfold interval, current. split.
  - intros (A & B & C & D). rewrite call_new in C. rewrite starts_clock_old in B by assumption. split; [assumption|]. split; [assumption|].
    intros k Hk. specialize (D k Hk). now rewrite call_old in D by lia.
  - intros (A & B & C). assert (L := starts_clock_lt _ _ B). split; [assumption|]. split; [now apply starts_clock_old|]. split; [now apply call_new|].
    intros k Hk. apply call_old; [lia|]. now apply C.
Qed.
Lemma current_unique h i i' : current h i -> current h i' -> i = i'.
Proof.
  assert (W : forall a b, current h a -> current h b -> (a < b)%nat -> False).
  { intros a b [A A'] [[Bs B] B'] L. apply B. exists a. split; [assumption|]. intros j Hj.
    destruct (Nat.eq_dec j a) as [->|]; [apply A|]. apply A'. apply call_lt in Bs. lia. }
  intros A B. destruct (Nat.lt_trichotomy i i') as [H|[H|H]]; auto; exfalso; eauto.
Qed.
Lemma no_reset_new h e j : (j <= length h)%nat -> (no_reset_from (h ++ [e]) j <-> no_reset_from h j /\ ~ is_reset e).
Proof.
  intros Hj. unfold no_reset_from. split.
  - intros H. split.
    + intros k Hk C. apply (H k Hk). apply call_old; [eapply call_lt; eauto|exact C].
    + intros R. apply (H (length h)); [lia|]. now apply call_new.
  - intros [A B] k Hk C. destruct (call_out _ _ _ _ C) as [L| ->].
    + rewrite call_old in C by assumption. now apply (A k).
    + rewrite call_new in C. auto.
Qed.
Lemma starts_loop_old h e k : (k < length h)%nat -> (starts_loop (h ++ [e]) k <-> starts_loop h k).
Proof. intros H. unfold starts_loop. rewrite starts_clock_old, call_old by assumption. tauto. Qed.
Lemma starts_loop_new h e : starts_loop (h ++ [e]) (length h) <-> e_call e = WStart true /\ ~ running_before h (length h).
Proof. unfold starts_loop. rewrite starts_clock_new, call_new. unfold is_start. split; [tauto|]. intros [-> H]. tauto. Qed.
Lemma starts_loop_lt h k : starts_loop h k -> (k < length h)%nat.
Proof. intros [H _]. now apply starts_clock_lt. Qed.

Definition in_total (h : list event) (i j : nat) : Prop := no_reset_from h j.
Definition in_loop (h : list event) (i j : nat) : Prop := no_reset_from h j /\ forall k, starts_loop h k -> (k <= i)%nat.

Lemma clock_old h e i : (i < length h)%nat -> clock_at (h ++ [e]) i = clock_at h i.
Proof. intros H. unfold clock_at. now rewrite nth_error_app1. Qed.
Lemma clock_new h e : clock_at (h ++ [e]) (length h) = seconds (e_clock e).
Proof. unfold clock_at. rewrite nth_error_app2, Nat.sub_diag by lia. reflexivity. Qed.
Lemma total_old h e L : (forall i j, In (i, j) L -> interval h i j) -> total_of (h ++ [e]) L = total_of h L.
Proof.
  intros H. unfold total_of. f_equal. apply map_ext_in. intros [i j] Hin. apply H, interval_lt in Hin. unfold elapsed. cbn. rewrite !clock_old by lia. reflexivity.
Qed.
(** Nothing added. *)
Lemma time_same h e (P P' : nat -> nat -> Prop) t : (forall i j, interval (h ++ [e]) i j /\ P' i j <-> interval h i j /\ P i j) ->
  time_in h P t -> time_in (h ++ [e]) P' t.
Proof.
  intros E (L & N & I & T). exists L. split; [assumption|]. split.
  - intros i j. rewrite E. apply I.
  - rewrite total_old; [assumption|]. intros i j Hij. now apply I in Hij.
Qed.
Lemma time_none h (P : nat -> nat -> Prop) : (forall i j, interval h i j -> ~ P i j) -> time_in h P 0.
Proof. intros H. exists []. split; [constructor|]. split; [|reflexivity]. intros i j. split; [contradiction|]. intros [A B]. exact (H i j A B). Qed.
Lemma time_one h e (P P' : nat -> nat -> Prop) t i0 : 
  (forall i j, interval (h ++ [e]) i j /\ P' i j <-> (interval h i j /\ P i j) \/ (i = i0 /\ j = length h)) -> (i0 < length h)%nat ->
  time_in h P t -> time_in (h ++ [e]) P' (t + (seconds (e_clock e) - clock_at h i0)).
Proof.
  intros E L0 (L & N & I & T). exists ((i0, length h) :: L). split; [|split].
  - constructor; [|assumption]. intros C. apply I in C. destruct C as [C _]. apply interval_lt in C. lia.
  - intros i j. rewrite E, <- I. cbn. split.
    + intros [[= <- <-]|H]; auto.
    + intros [H|[-> ->]]; auto.
  - unfold total_of. cbn [map fold_right]. fold (total_of (h ++ [e]) L). rewrite total_old by (intros i j Hij; now apply I in Hij).
    unfold elapsed. cbn [fst snd]. rewrite clock_new, clock_old by assumption. rewrite T. ring.
Qed.

Lemma interval_cases h e i j : interval (h ++ [e]) i j <-> interval h i j \/ (is_end e /\ j = length h /\ current h i).
Proof.
  split.
  - intros H. assert (L := interval_lt _ _ _ H). rewrite app_length in L. cbn in L.
    destruct (Nat.eq_dec j (length h)) as [->|]; [right; rewrite interval_new in H; tauto|left; rewrite interval_old in H by lia; assumption].
  - intros [H|(A & -> & C)]; [apply interval_old; [apply interval_lt in H; lia|assumption]|apply interval_new; auto].
Qed.
Lemma running_current h : running_before h (length h) -> exists i, current h i.
Proof.
  induction h as [|e h IH] using rev_ind; [intros (i & L & _); cbn in L; lia|].
  intros R. rewrite app_length, Nat.add_1_r in R. assert (S := proj1 (running_new h e) R).
  assert (D : running_before h (length h) \/ ~ running_before h (length h)).
  { destruct h as [|x h'] using rev_ind; [right; intros (i & L & _); cbn in L; lia|]. rewrite app_length, Nat.add_1_r, running_new.
    unfold is_start. destruct (e_call x); tauto. }
  destruct D as [D|D].
  - destruct (IH D) as (i & A & B). exists i. assert (L := starts_clock_lt _ _ A). split; [now apply starts_clock_old|].
    intros k Hk. rewrite app_length in Hk. cbn in Hk. destruct (Nat.eq_dec k (length h)) as [->|]; [now apply call_new|]. apply call_old; [lia|]. apply B. lia.
  - exists (length h). split; [now apply starts_clock_new|]. intros k Hk. rewrite app_length in Hk. cbn in Hk. lia.
Qed.

Record winv (h : list event) (w : watch) : Prop := {
  i_run : w_running w = true <-> running_before h (length h);
  i_time : forall i, current h i -> w_running w = true -> seconds (w_time w) = clock_at h i;
  i_total : time_in h (in_total h) (w_total w);
  i_loop : time_in h (in_loop h) (w_loop w) }.

Lemma winv_init : winv [] newWatch.
Proof.
  assert (A : ~ running_before [] 0) by (intros (i & L & _); lia).
  split; cbn.
  - split; [discriminate|]. intros; contradiction.
  - discriminate.
  - apply time_none. intros i j H. apply interval_lt in H. cbn in H. lia.
  - apply time_none. intros i j H. apply interval_lt in H. cbn in H. lia.
Qed.

Lemma seconds_diff (a b : timespec) : IZR (fst a - fst b) + IZR (snd a - snd b) * (1 / 10 ^ 9) = seconds a - seconds b.
Proof. unfold seconds. rewrite !minus_IZR. unfold Rdiv. ring. Qed.

Lemma winv_step h e w : winv h w -> winv (h ++ [e]) (fst (wstep e w)).
Proof.
  intros [R T Tot Lp].
  assert (NR : forall j, (j <= length h)%nat -> ~ is_reset e -> (no_reset_from (h ++ [e]) j <-> no_reset_from h j)).
  { intros j Hj Hr. rewrite no_reset_new by assumption. tauto. }
  assert (SL : ~ (e_call e = WStart true /\ ~ running_before h (length h)) -> forall i, 
     (forall k, starts_loop (h ++ [e]) k -> (k <= i)%nat) <-> (forall k, starts_loop h k -> (k <= i)%nat)).
  { intros Hn i. split; intros A k Hk.
    - apply A. apply starts_loop_old; [now apply starts_loop_lt|assumption].
    - assert (L := starts_loop_lt _ _ Hk). rewrite app_length in L. cbn in L. destruct (Nat.eq_dec k (length h)) as [->|].
      + rewrite starts_loop_new in Hk. contradiction.
      + apply A. rewrite starts_loop_old in Hk by lia; assumption. }
  assert (RL : running_before (h ++ [e]) (length (h ++ [e])) <-> is_start e) by (rewrite app_length, Nat.add_1_r; apply running_new).
  assert (Same : ~ is_end e -> ~ is_reset e -> forall i j, interval (h ++ [e]) i j /\ in_total (h ++ [e]) i j <-> interval h i j /\ in_total h i j).
  { intros He Hr i j. unfold in_total. rewrite interval_cases. split.
    - intros [[A|A] B]; [|tauto]. split; [assumption|]. rewrite NR in B by (auto; apply interval_lt in A; lia); exact B.
    - intros [A B]. split; [auto|]. apply NR; auto. apply interval_lt in A. lia. }
  assert (SameL : ~ is_end e -> ~ is_reset e -> ~ (e_call e = WStart true /\ ~ running_before h (length h)) ->
      forall i j, interval (h ++ [e]) i j /\ in_loop (h ++ [e]) i j <-> interval h i j /\ in_loop h i j).
  { intros He Hr Hs i j. unfold in_loop. rewrite interval_cases, (SL Hs). split.
    - intros [[A|A] [B C]]; [|tauto]. split; [assumption|]. split; [|assumption]. rewrite NR in B by (auto; apply interval_lt in A; lia); exact B.
    - intros [A [B C]]. split; [auto|]. split; [|assumption]. apply NR; auto. apply interval_lt in A. lia. }
  assert (None : is_reset e -> forall i j, interval (h ++ [e]) i j -> ~ no_reset_from (h ++ [e]) j).
  { intros Hr i j A B. assert (L := interval_lt _ _ _ A). rewrite app_length in L. cbn in L. rewrite no_reset_new in B by lia. tauto. }
  destruct e as [c ck]. unfold wstep. cbn [e_call e_clock] in *. destruct c as [nl| | |].
  - (* start *)
    assert (NE : ~ is_end (mkEvent (WStart nl) ck)) by (cbn; tauto).
    assert (NRs : ~ is_reset (mkEvent (WStart nl) ck)) by (cbn; tauto).
    unfold wstart. destruct (w_running w) eqn:W; cbn [fst].
    + assert (Run : running_before h (length h)) by (now apply R). split.
      * rewrite W. rewrite RL. cbn. tauto.
      * intros i Hi _. destruct (running_current h Run) as (i0 & Ci).
        assert (C0 : current (h ++ [mkEvent (WStart nl) ck]) i0).
        { destruct Ci as [A B]. assert (L := starts_clock_lt _ _ A). split; [now apply starts_clock_old|]. intros k Hk.
          rewrite app_length in Hk. cbn in Hk. destruct (Nat.eq_dec k (length h)) as [->|]; [apply call_new; exact I|]. apply call_old; [lia|]. apply B. lia. }
        rewrite (current_unique _ _ _ Hi C0). rewrite clock_old by (apply starts_clock_lt, Ci). now apply T.
      * eapply time_same; [|exact Tot]. now apply Same.
      * eapply time_same; [|exact Lp]. apply SameL; auto. intros [_ H]. contradiction.
    + assert (Run : ~ running_before h (length h)) by (intros H; apply R in H; congruence). split; cbn [w_running w_total w_loop w_time].
      * rewrite RL. cbn. tauto.
      * intros i Hi _. assert (C0 : current (h ++ [mkEvent (WStart nl) ck]) (length h)).
        { split; [apply starts_clock_new; cbn; tauto|]. intros k Hk. rewrite app_length in Hk. cbn in Hk. lia. }
        rewrite (current_unique _ _ _ Hi C0). now rewrite clock_new.
      * eapply time_same; [|exact Tot]. now apply Same.
      * destruct nl.
        -- apply time_none. intros i j A [_ B]. assert (L := interval_lt _ _ _ A). rewrite app_length in L. cbn in L.
           specialize (B (length h)). assert (K : (length h <= i)%nat); [|lia]. apply B. apply starts_loop_new. cbn. tauto.
        -- eapply time_same; [|exact Lp]. apply SameL; auto. intros [H _]. discriminate.
  - (* stop *)
    assert (NRs : ~ is_reset (mkEvent WStop ck)) by (cbn; tauto).
    unfold stopTime, updateTime. destruct (w_running w) eqn:W; cbn [fst].
    + assert (Run : running_before h (length h)) by (now apply R). destruct (running_current h Run) as (i0 & Ci).
      assert (L0 : (i0 < length h)%nat) by (apply starts_clock_lt, Ci).
      rewrite seconds_diff, (T i0 Ci eq_refl). split; cbn [w_running w_total w_loop w_time].
      * rewrite RL. cbn. split; [discriminate|tauto].
      * discriminate.
      * apply (time_one h (mkEvent WStop ck) (in_total h)); [|assumption|assumption]. intros i j. unfold in_total. rewrite interval_cases. split.
        -- intros [[A|(_ & -> & C)] B]; [left; split; [assumption|]; rewrite NR in B by (auto; apply interval_lt in A; lia); exact B|right]. split; [eapply current_unique; eauto|reflexivity].
        -- intros [[A B]|[-> ->]]; [split; [auto|apply NR; auto; apply interval_lt in A; lia]|]. split; [right; cbn; auto|]. apply NR; auto.
           intros k Hk C. apply call_lt in C. lia.
      * apply (time_one h (mkEvent WStop ck) (in_loop h)); [|assumption|assumption]. intros i j. unfold in_loop. rewrite interval_cases.
        rewrite (SL ltac:(intros [H _]; discriminate)). split.
        -- intros [[A|(_ & -> & C)] [B D]]; [left; split; [assumption|]; split; [|assumption]; rewrite NR in B by (auto; apply interval_lt in A; lia); exact B|right]. split; [eapply current_unique; eauto|reflexivity].
        -- intros [[A [B D]]|[-> ->]]; [split; [auto|split; [apply NR; auto; apply interval_lt in A; lia|assumption]]|]. split; [right; cbn; auto|]. split.
           ++ apply NR; auto. intros k Hk C. apply call_lt in C. lia.
           ++ intros k Hk. destruct Hk as [Hk _]. destruct (le_lt_dec k i0) as [|Lt]; [assumption|exfalso].
              destruct Hk as [Cs Nr]. apply Nr. exists i0. split; [assumption|]. intros x Hx. apply call_lt in Cs.
              destruct (Nat.eq_dec x i0) as [->|]; [exact (proj1 (proj1 Ci))|]. apply (proj2 Ci). lia.
    + assert (Run : ~ running_before h (length h)) by (intros H; apply R in H; congruence). rewrite !Rplus_0_r.
      assert (NC : forall i, ~ current h i).
      { intros i [[A Ax] B]. apply Run. exists i. split; [eapply call_lt; eauto|]. intros k Hk. destruct (Nat.eq_dec k i) as [->|]; [assumption|]. apply B. lia. }
      split; cbn [w_running w_total w_loop w_time].
      * rewrite RL. cbn. split; [discriminate|tauto].
      * discriminate.
      * eapply time_same; [|exact Tot]. intros i j. unfold in_total. rewrite interval_cases. split.
        -- intros [[A|(_ & _ & C)] B]; [|destruct (NC _ C)]. split; [assumption|]; rewrite NR in B by (auto; apply interval_lt in A; lia); exact B.
        -- intros [A B]. split; [auto|]. apply NR; auto; apply interval_lt in A; lia.
      * eapply time_same; [|exact Lp]. intros i j. unfold in_loop. rewrite interval_cases. rewrite (SL ltac:(intros [H _]; discriminate)). split.
        -- intros [[A|(_ & _ & C)] [B D]]; [|destruct (NC _ C)]. split; [assumption|]; split; [|assumption]. rewrite NR in B by (auto; apply interval_lt in A; lia); exact B.
        -- intros [A [B D]]. split; [auto|]. split; [|assumption]. apply NR; auto; apply interval_lt in A; lia.
  - (* loop *)
    assert (NRs : ~ is_reset (mkEvent WLoop ck)) by (cbn; tauto).
    unfold stopTime, updateTime. destruct (w_running w) eqn:W; cbn [fst].
    + assert (Run : running_before h (length h)) by (now apply R). destruct (running_current h Run) as (i0 & Ci).
      assert (L0 : (i0 < length h)%nat) by (apply starts_clock_lt, Ci).
      rewrite seconds_diff, (T i0 Ci eq_refl). split; cbn [w_running w_total w_loop w_time].
      * rewrite RL. cbn. split; [discriminate|tauto].
      * discriminate.
      * apply (time_one h (mkEvent WLoop ck) (in_total h)); [|assumption|assumption]. intros i j. unfold in_total. rewrite interval_cases. split.
        -- intros [[A|(_ & -> & C)] B]; [left; split; [assumption|]; rewrite NR in B by (auto; apply interval_lt in A; lia); exact B|right]. split; [eapply current_unique; eauto|reflexivity].
        -- intros [[A B]|[-> ->]]; [split; [auto|apply NR; auto; apply interval_lt in A; lia]|]. split; [right; cbn; auto|]. apply NR; auto.
           intros k Hk C. apply call_lt in C. lia.
      * apply (time_one h (mkEvent WLoop ck) (in_loop h)); [|assumption|assumption]. intros i j. unfold in_loop. rewrite interval_cases.
        rewrite (SL ltac:(intros [H _]; discriminate)). split.
        -- intros [[A|(_ & -> & C)] [B D]]; [left; split; [assumption|]; split; [|assumption]; rewrite NR in B by (auto; apply interval_lt in A; lia); exact B|right]. split; [eapply current_unique; eauto|reflexivity].
        -- intros [[A [B D]]|[-> ->]]; [split; [auto|split; [apply NR; auto; apply interval_lt in A; lia|assumption]]|]. split; [right; cbn; auto|]. split.
           ++ apply NR; auto. intros k Hk C. apply call_lt in C. lia.
           ++ intros k Hk. destruct Hk as [Hk _]. destruct (le_lt_dec k i0) as [|Lt]; [assumption|exfalso].
              destruct Hk as [Cs Nr]. apply Nr. exists i0. split; [assumption|]. intros x Hx. apply call_lt in Cs.
              destruct (Nat.eq_dec x i0) as [->|]; [exact (proj1 (proj1 Ci))|]. apply (proj2 Ci). lia.
    + assert (Run : ~ running_before h (length h)) by (intros H; apply R in H; congruence). rewrite !Rplus_0_r.
      assert (NC : forall i, ~ current h i).
      { intros i [[A Ax] B]. apply Run. exists i. split; [eapply call_lt; eauto|]. intros k Hk. destruct (Nat.eq_dec k i) as [->|]; [assumption|]. apply B. lia. }
      split; cbn [w_running w_total w_loop w_time].
      * rewrite RL. cbn. split; [discriminate|tauto].
      * discriminate.
      * eapply time_same; [|exact Tot]. intros i j. unfold in_total. rewrite interval_cases. split.
        -- intros [[A|(_ & _ & C)] B]; [|destruct (NC _ C)]. split; [assumption|]; rewrite NR in B by (auto; apply interval_lt in A; lia); exact B.
        -- intros [A B]. split; [auto|]. apply NR; auto; apply interval_lt in A; lia.
      * eapply time_same; [|exact Lp]. intros i j. unfold in_loop. rewrite interval_cases. rewrite (SL ltac:(intros [H _]; discriminate)). split.
        -- intros [[A|(_ & _ & C)] [B D]]; [|destruct (NC _ C)]. split; [assumption|]; split; [|assumption]. rewrite NR in B by (auto; apply interval_lt in A; lia); exact B.
        -- intros [A [B D]]. split; [auto|]. split; [|assumption]. apply NR; auto; apply interval_lt in A; lia.
  - (* reset *)
    cbn [fst]. split; cbn [w_running w_total w_loop w_time].
    + rewrite RL. cbn. split; [discriminate|tauto].
    + discriminate.
    + apply time_none. apply None. exact I.
    + apply time_none. intros i j A [B _]. revert B. apply (None I i j A).
Qed.
Lemma wrun_inv h : winv h (wrun h).
Proof.
  induction h as [|e h IH] using rev_ind; [apply winv_init|]. unfold wrun. rewrite fold_left_app. cbn. now apply winv_step.
Qed.

Theorem stopwatch_times h : time_in h (fun _ j => no_reset_from h j) (w_total (wrun h)) /\
  time_in h (fun i j => no_reset_from h j /\ forall k, starts_loop h k -> (k <= i)%nat) (w_loop (wrun h)).
Proof. destruct (wrun_inv h) as [_ _ A B]. split; assumption. Qed.

Theorem stopwatch_call h e w' r : wstep e (wrun h) = (w', r) ->
  w' = wrun (h ++ [e]) /\
  (r_warning r = true <-> misuse h e) /\
  (r_warning r = true -> w_total w' = w_total (wrun h) /\ w_loop w' = w_loop (wrun h) /\ 
     (is_start e -> w' = wrun h)) /\
  r_value r = match e_call e with WStop => Some (w_total w') | WLoop => Some (w_loop w') | _ => None end.
Proof.
  intros E. destruct (wrun_inv h) as [R _ _ _]. split; [|].
  { unfold wrun. rewrite fold_left_app. cbn. fold (wrun h). now rewrite E. }
  unfold misuse, is_start, is_end. rewrite <- R. unfold wstep, wstart, stopTime, updateTime in E.
  destruct (e_call e); destruct (w_running (wrun h)); injection E as <- <-; cbn; rewrite ?Rplus_0_r; intuition congruence.
Qed.

Definition exHistory : list event :=
  [mkEvent (WStart true) (1, 0)%Z; mkEvent (WStart true) (2, 0)%Z; mkEvent WStop (3, 500000000)%Z; mkEvent WStop (9, 0)%Z;
   mkEvent (WStart false) (10, 0)%Z; mkEvent WLoop (11, 0)%Z].
Lemma exHistory_ok : interval exHistory 0 2 /\ interval exHistory 4 5 /\ misuse (firstn 1 exHistory) (mkEvent (WStart true) (2, 0)%Z) /\
  misuse (firstn 3 exHistory) (mkEvent WStop (9, 0)%Z) /\ w_total (wrun exHistory) = 35 / 10.
Proof.
  assert (N4 : ~ running_before exHistory 4).
  { intros (i & L & H). destruct (H 3%nat ltac:(lia)) as (e & [= <-] & B). exact B. }
  split; [|split; [|split; [|split]]].
  - split; [lia|]. split; [split; [eexists; split; [reflexivity|exact I]|intros (i & L & _); lia]|]. split; [eexists; split; [reflexivity|exact I]|].
    intros k Hk. replace k with 1%nat by lia. eexists; split; [reflexivity|exact I].
  - split; [lia|]. split; [split; [eexists; split; [reflexivity|exact I]|exact N4]|]. split; [eexists; split; [reflexivity|exact I]|]. intros k Hk. lia.
  - left. split; [exact I|]. exists 0%nat. split; [cbn; lia|]. intros j Hj. cbn in Hj. replace j with 0%nat by lia. eexists; split; [reflexivity|exact I].
  - right. split; [exact I|]. intros (i & L & H). cbn in L. destruct (H 2%nat ltac:(cbn; lia)) as (e & [= <-] & B). exact B.
  - unfold wrun, exHistory. cbn -[Rmult Rdiv Rminus Rplus Rinv pow INR IZR]. unfold Rdiv. cbn [pow]. lra.
Qed.
