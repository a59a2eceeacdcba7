From Coq Require Import Reals Lra ZArith List Bool Lia.
From Verif Require Import Model.LammpsLimits Spec.LammpsLimitsSpec.
Import ListNotations.
Local Open Scope Z_scope.

Lemma zsum_ext ks f g : (forall k, In k ks -> f k = g k) -> zsum ks f = zsum ks g.
Proof. intros H. induction ks as [|k ks IH]; auto. cbn. rewrite H by now left. f_equal. apply IH. intros; apply H; now right. Qed.
Lemma zsum_shift n a f : zsum (seq (S a) n) f = zsum (seq a n) (fun k => f (S k)).
Proof. revert a. induction n as [|n IH]; intros a; auto. cbn [seq zsum fold_right]. f_equal. apply IH. Qed.
Lemma zsum_add ks f g : zsum ks (fun k => f k + g k) = zsum ks f + zsum ks g.
Proof. induction ks as [|k ks IH]; auto. cbn. unfold zsum in IH. rewrite IH. lia. Qed.

(** One call. *)
Definition total (cs : list counters) (p : nat) : Z := ct_total (nth p cs no_warnings).
Definition summary (cs : list counters) (p : nat) : Z := ct_summary (nth p cs no_warnings).
Definition due_b (o : ew_settings) (ts : Z) : bool := (0 <? ew_sum o) && (ts mod ew_sum o =? 0).
Lemma due_spec o steps k : due_b o (time steps k) = true <-> due o steps k.
Proof. unfold due_b, due. rewrite andb_true_iff, Z.ltb_lt, Z.eqb_eq. tauto. Qed.
Lemma active_spec o : active o <-> ew_show o || (0 <? ew_sum o) || (0 <=? ew_max o) = true.
Proof. unfold active. rewrite !orb_true_iff, Z.ltb_lt, Z.leb_le. tauto. Qed.

Lemma nth_step o counts cs p : length counts = length cs -> (p < length cs)%nat ->
  nth p (map (fun nc => addWarnings o (fst nc) (snd nc)) (combine counts cs)) no_warnings = addWarnings o (nth p counts 0) (nth p cs no_warnings).
Proof.
  intros L H. rewrite (nth_indep _ no_warnings (addWarnings o (fst (0, no_warnings)) (snd (0, no_warnings)))) by (rewrite map_length, combine_length; lia).
  rewrite map_nth with (f := fun nc => addWarnings o (fst nc) (snd nc)). rewrite combine_nth by auto. reflexivity.
Qed.
Lemma fold_summaries cs : forall a, fold_left (fun s c => s + ct_summary c) cs a = a + zsum (seq 0 (length cs)) (summary cs).
Proof.
  induction cs as [|c cs IH]; intros a; [cbn; lia|]. cbn [fold_left length seq zsum fold_right]. rewrite IH.
  rewrite <- Z.add_assoc. f_equal. unfold summary at 2. cbn [nth]. f_equal. fold (zsum (seq 1 (length cs)) (summary (c :: cs))). rewrite zsum_shift. reflexivity.
Qed.
Lemma step_spec o ts counts cs line cs' stop : active o -> length counts = length cs -> computeCounts o ts counts cs = (line, cs', stop) ->
  length cs' = length cs /\
  (forall p, (p < length cs)%nat -> total cs' p = if ew_reset o then nth p counts 0 else total cs p + nth p counts 0) /\
  (forall p, (p < length cs)%nat -> 0 < ew_sum o -> summary cs' p = if due_b o ts then 0 else summary cs p + nth p counts 0) /\
  line = (if due_b o ts then let W := zsum (seq 0 (length cs)) (fun p => summary cs p + nth p counts 0) in Some (ts, W, (IZR W / IZR (ew_sum o))%R) else None) /\
  (stop = true <-> exists p, (p < length cs)%nat /\ ew_max o < total cs' p).
Proof.
  intros A L H. unfold computeCounts in H. apply active_spec in A. rewrite A in H. unfold handleCounts in H.
  set (cs1 := map (fun nc => addWarnings o (fst nc) (snd nc)) (combine counts cs)) in *.
  assert (L1 : length cs1 = length cs) by (unfold cs1; rewrite map_length, combine_length; lia).
  assert (N1 : forall p, (p < length cs)%nat -> nth p cs1 no_warnings = addWarnings o (nth p counts 0) (nth p cs no_warnings)) by (intros; now apply nth_step).
  unfold summarize in H. fold (due_b o ts) in H.
  assert (E : forall l, existsb (fun c => ew_max o <? ct_total c) l = true <-> exists p, (p < length l)%nat /\ ew_max o < total l p).
  { intros l. rewrite existsb_exists. split.
    - intros (c & I & B). apply Z.ltb_lt in B. apply In_nth with (d := no_warnings) in I. destruct I as (p & P1 & P2). exists p. split; auto. unfold total. now rewrite P2.
    - intros (p & P1 & P2). exists (nth p l no_warnings). split; [now apply nth_In|]. now apply Z.ltb_lt. }
  destruct (due_b o ts) eqn:D.
  - injection H as <- <- <-.
    assert (N2 : forall p, (p < length cs)%nat -> nth p (map (fun c => mkCounters (ct_total c) 0) cs1) no_warnings = mkCounters (ct_total (nth p cs1 no_warnings)) 0).
    { intros p Hp. rewrite (nth_indep _ no_warnings (mkCounters (ct_total no_warnings) 0)) by (rewrite map_length; lia).
      now rewrite map_nth with (f := fun c => mkCounters (ct_total c) 0). }
    split; [now rewrite map_length|]. split; [|split; [|split]].
    + intros p Hp. unfold total. rewrite N2, N1 by auto. cbn. now destruct (ew_reset o).
    + intros p Hp _. unfold summary. now rewrite N2.
    + rewrite fold_summaries, L1. cbn [Z.add].
      assert (Z1 : zsum (seq 0 (length cs)) (summary cs1) = zsum (seq 0 (length cs)) (fun p => summary cs p + nth p counts 0)).
      { apply zsum_ext. intros p Hp. apply in_seq in Hp. unfold summary. rewrite N1 by lia. unfold addWarnings. cbn [ct_summary].
        unfold due_b in D. apply andb_true_iff in D. now rewrite (proj1 D). }
      now rewrite Z1.
    + rewrite E, map_length, L1. tauto.
  - injection H as <- <- <-. split; auto. split; [|split; [|split]]; auto.
    + intros p Hp. unfold total. rewrite N1 by auto. unfold addWarnings. cbn [ct_total]. now destruct (ew_reset o).
    + intros p Hp S. unfold summary. rewrite N1 by auto. unfold addWarnings. cbn [ct_summary]. apply Z.ltb_lt in S. now rewrite S.
    + rewrite E, L1. tauto.
Qed.

(** ** Stopping *)
Definition warned_from (o : ew_settings) (cs : list counters) (steps : list (Z * list Z)) (k p : nat) : Z :=
  if ew_reset o then count steps k p else total cs p + zsum (seq 0 (S k)) (fun i => count steps i p).
Definition too_many_from (o : ew_settings) (cs : list counters) (steps : list (Z * list Z)) (k : nat) : Prop :=
  exists p, (p < length cs)%nat /\ ew_max o < warned_from o cs steps k p.
Lemma stop_general o steps : active o -> forall cs, for_processes (length cs) steps -> forall lines st, simulate o steps cs = (lines, st) ->
  (st = false /\ length lines = length steps /\ forall k, (k < length steps)%nat -> ~ too_many_from o cs steps k) \/
  (st = true /\ exists k, (k < length steps)%nat /\ length lines = S k /\ too_many_from o cs steps k /\ forall j, (j < k)%nat -> ~ too_many_from o cs steps j).
Proof.
  intros A. induction steps as [|[ts counts] steps IH]; intros cs F lines st H.
  - cbn in H. injection H as <- <-. left. split; auto. split; auto. intros k Hk. cbn in Hk. lia.
  - cbn [simulate] in H. destruct (computeCounts o ts counts cs) as [[line cs1] stop] eqn:C.
    assert (L : length counts = length cs) by (apply (F ts counts); now left).
    destruct (step_spec o ts counts cs line cs1 stop A L C) as (L1 & T & _ & _ & B).
    assert (Z0 : too_many_from o cs ((ts, counts) :: steps) 0 <-> stop = true).
    { rewrite B. unfold too_many_from, warned_from. split; intros (p & P1 & P2); exists p; split; auto; rewrite T in * by auto;
        destruct (ew_reset o); cbn [seq zsum fold_right] in *; unfold count in *; cbn [nth snd] in *; lia. }
    assert (ZS : forall k, too_many_from o cs ((ts, counts) :: steps) (S k) <-> too_many_from o cs1 steps k).
    { intros k. unfold too_many_from, warned_from. rewrite L1. split; intros (p & P1 & P2); exists p; split; auto; rewrite T in * by auto;
        destruct (ew_reset o); auto; replace (seq 0 (S (S k))) with (0%nat :: seq 1 (S k)) in * by reflexivity;
        cbn [zsum fold_right] in *; fold (zsum (seq 1 (S k)) (fun i => count ((ts, counts) :: steps) i p)) in *; rewrite zsum_shift in *;
        unfold count in *; cbn [nth snd] in *; lia. }
    destruct stop.
    + injection H as <- <-. right. split; auto. exists 0%nat. split; [cbn; lia|]. split; auto. split; [now apply Z0|]. intros; lia.
    + destruct (simulate o steps cs1) as [ls s1] eqn:Q. injection H as <- <-.
      assert (F1 : for_processes (length cs1) steps) by (intros t c I; rewrite L1; apply (F t c); now right).
      destruct (IH cs1 F1 ls s1 Q) as [(E1 & E2 & E3) | (E1 & k & E2 & E3 & E4 & E5)].
      * left. split; auto. split; [cbn; lia|]. intros [|k] Hk.
        -- rewrite Z0. discriminate.
        -- rewrite ZS. apply E3. cbn in Hk. lia.
      * right. split; auto. exists (S k). split; [cbn; lia|]. split; [cbn; lia|]. split; [now apply ZS|]. intros [|j] Hj.
        -- rewrite Z0. discriminate.
        -- rewrite ZS. apply E5. lia.
Qed.

Lemma fresh_total P p : total (repeat no_warnings P) p = 0.
Proof. unfold total. rewrite nth_repeat. reflexivity. Qed.
Lemma fresh_summary P p : summary (repeat no_warnings P) p = 0.
Proof. unfold summary. rewrite nth_repeat. reflexivity. Qed.

Theorem stop_theorem o P steps lines st : active o -> for_processes P steps -> simulate o steps (repeat no_warnings P) = (lines, st) ->
  (st = false /\ length lines = length steps /\ forall k, (k < length steps)%nat -> ~ too_many o P steps k) \/
  (st = true /\ exists k, (k < length steps)%nat /\ length lines = S k /\ too_many o P steps k /\ forall j, (j < k)%nat -> ~ too_many o P steps j).
Proof.
  intros A F H. assert (E : forall k, too_many_from o (repeat no_warnings P) steps k <-> too_many o P steps k).
  { intros k. unfold too_many_from, too_many, warned_from, warned. rewrite repeat_length.
    split; intros (p & P1 & P2); exists p; split; auto; rewrite fresh_total in *; destruct (ew_reset o); lia. }
  pose proof (stop_general o steps A (repeat no_warnings P)) as G. rewrite repeat_length in G. specialize (G F lines st H).
  destruct G as [(E1 & E2 & E3) | (E1 & k & E2 & E3 & E4 & E5)].
  - left. split; auto. split; auto. intros k Hk. rewrite <- E. auto.
  - right. split; auto. exists k. rewrite <- E. repeat split; auto. intros j Hj. rewrite <- E. auto.
Qed.
Theorem inactive_theorem o P steps : ~ active o -> simulate o steps (repeat no_warnings P) = (repeat None (length steps), false).
Proof.
  intros A. rewrite active_spec in A. apply not_true_is_false in A. generalize (repeat no_warnings P).
  induction steps as [|[ts counts] steps IH]; intros cs; auto. cbn [simulate length repeat]. unfold computeCounts. rewrite A. now rewrite IH.
Qed.

(** ** Summaries *)
Definition window_from (o : ew_settings) (cs : list counters) (steps : list (Z * list Z)) (m k : nat) (W : Z) : Prop :=
  (m <= k)%nat /\ (forall j, (m <= j < k)%nat -> ~ due o steps j) /\
  exists base, ((m = 0%nat /\ base = zsum (seq 0 (length cs)) (summary cs)) \/ ((0 < m)%nat /\ due o steps (m - 1) /\ base = 0)) /\
    W = base + zsum (seq m (S k - m)) (all_processes (length cs) steps).
Lemma due_cons o x steps k : due o (x :: steps) (S k) <-> due o steps k.
Proof. reflexivity. Qed.
Lemma zsum_procs_cons P x steps a n : zsum (seq (S a) n) (all_processes P (x :: steps)) = zsum (seq a n) (all_processes P steps).
Proof. rewrite zsum_shift. reflexivity. Qed.
Lemma lines_general o steps : active o -> forall cs, for_processes (length cs) steps -> forall lines st, simulate o steps cs = (lines, st) ->
  forall k line, nth_error lines k = Some line ->
  match line with
  | None => ~ due o steps k
  | Some (ts, W, r) => due o steps k /\ ts = time steps k /\ r = (IZR W / IZR (ew_sum o))%R /\ exists m, window_from o cs steps m k W
  end.
Proof.
  intros A. induction steps as [|[ts counts] steps IH]; intros cs F lines st H k line N.
  - cbn in H. injection H as <- <-. destruct k; discriminate.
  - cbn [simulate] in H. destruct (computeCounts o ts counts cs) as [[line0 cs1] stop] eqn:C.
    assert (L : length counts = length cs) by (apply (F ts counts); now left).
    destruct (step_spec o ts counts cs line0 cs1 stop A L C) as (L1 & _ & S & E & _).
    assert (D0 : due_b o ts = true <-> due o ((ts, counts) :: steps) 0) by apply (due_spec o ((ts, counts) :: steps) 0).
    assert (H0 : match line0 with None => ~ due o ((ts, counts) :: steps) 0
                 | Some (ts', W, r) => due o ((ts, counts) :: steps) 0 /\ ts' = time ((ts, counts) :: steps) 0 /\ r = (IZR W / IZR (ew_sum o))%R /\ exists m, window_from o cs ((ts, counts) :: steps) m 0 W end).
    { rewrite E. destruct (due_b o ts).
      - cbv zeta. split; [now apply D0|]. split; [reflexivity|]. split; [reflexivity|]. exists 0%nat. split; [lia|]. split; [intros; lia|].
        exists (zsum (seq 0 (length cs)) (summary cs)). split; [now left|].
        rewrite (zsum_add (seq 0 (length cs)) (summary cs) (fun p => nth p counts 0)). f_equal. cbn [seq Nat.sub zsum fold_right]. rewrite Z.add_0_r. reflexivity.
      - intros B. apply D0 in B. discriminate. }
    destruct stop.
    + injection H as <- <-. destruct k as [|[|k]]; cbn in N; try discriminate. injection N as <-. exact H0.
    + destruct (simulate o steps cs1) as [ls s1] eqn:Q. injection H as <- <-. destruct k as [|k]; cbn [nth_error] in N; [injection N as <-; exact H0|].
      assert (F1 : for_processes (length cs1) steps) by (intros t c I; rewrite L1; apply (F t c); now right).
      specialize (IH cs1 F1 ls s1 Q k line N). destruct line as [[[ts' W] r]|]; [|exact IH].
      destruct IH as (B1 & B2 & B3 & m & M1 & M2 & base & M3 & M4). split; [exact B1|]. split; [exact B2|]. split; [exact B3|].
      assert (S0 : 0 < ew_sum o) by (destruct B1; auto).
      destruct (due_b o ts) eqn:D.
      * exists (Datatypes.S m). split; [lia|]. split; [intros [|j] Hj; [lia|]; apply M2; lia|]. exists base. split.
        -- right. split; [lia|]. destruct M3 as [[-> M3] | (M3 & M3' & M3'')].
           ++ cbn [Nat.sub]. split; [now apply D0|]. rewrite M3. rewrite L1. rewrite (zsum_ext _ _ (fun _ => 0)).
              ** clear. induction (seq 0 (length cs)) as [|a l IH]; auto.
              ** intros p Hp. apply in_seq in Hp. rewrite S by (auto; lia). reflexivity.
           ++ replace (Datatypes.S m - 1)%nat with (Datatypes.S (m - 1)) by lia. split; auto.
        -- rewrite M4, L1. f_equal. cbn [Nat.sub]. now rewrite zsum_procs_cons.
      * destruct M3 as [[-> M3] | (M3 & M3' & M3'')].
        -- exists 0%nat. split; [lia|]. split.
           ++ intros [|j] Hj; [rewrite <- D0; discriminate|]. apply M2. lia.
           ++ exists (zsum (seq 0 (length cs)) (summary cs)). split; [now left|]. rewrite M4, M3, L1. cbn [Nat.sub].
              replace (seq 0 (Datatypes.S (Datatypes.S k))) with (0%nat :: seq 1 (Datatypes.S k)) by reflexivity. cbn [zsum fold_right].
              fold (zsum (seq 1 (Datatypes.S k)) (all_processes (length cs) ((ts, counts) :: steps))). rewrite zsum_procs_cons.
              rewrite Z.add_assoc. f_equal. unfold all_processes. rewrite <- zsum_add. apply zsum_ext. intros p Hp. apply in_seq in Hp. rewrite S by (auto; lia). reflexivity.
        -- exists (Datatypes.S m). split; [lia|]. split; [intros [|j] Hj; [lia|]; apply M2; lia|]. exists 0. split.
           ++ right. split; [lia|]. replace (Datatypes.S m - 1)%nat with (Datatypes.S (m - 1)) by lia. split; auto.
           ++ rewrite M4, M3'', L1. cbn [Nat.sub]. now rewrite zsum_procs_cons.
Qed.
Theorem summary_theorem o P steps lines st : for_processes P steps -> simulate o steps (repeat no_warnings P) = (lines, st) ->
  forall k line, nth_error lines k = Some line ->
  match line with
  | None => ~ due o steps k
  | Some (ts, W, r) => due o steps k /\ ts = time steps k /\ r = (IZR W / IZR (ew_sum o))%R /\
      exists m, window o steps m k /\ W = zsum (seq m (S k - m)) (all_processes P steps)
  end.
Proof.
  intros F H k line N.
  assert (X : active o \/ ~ active o) by (rewrite active_spec; destruct (ew_show o || (0 <? ew_sum o) || (0 <=? ew_max o)); auto).
  destruct X as [A|A].
  - pose proof (lines_general o steps A (repeat no_warnings P)) as G. rewrite repeat_length in G. specialize (G F lines st H k line N).
    destruct line as [[[ts W] r]|]; auto. destruct G as (G1 & G2 & G3 & m & G4 & G5 & base & G6 & G7). repeat split; try tauto.
    + apply G1.
    + apply G1.
    + exists m. assert (base = 0) as ->.
      { destruct G6 as [[_ ->] | (_ & _ & ->)]; auto. rewrite (zsum_ext _ _ (fun _ => 0)) by (intros; apply fresh_summary). clear. induction (seq 0 _) as [|a l IH]; auto. }
      rewrite repeat_length in G7. split; [|lia]. split; auto. split; auto. destruct G6 as [[-> _] | (_ & G6 & _)]; auto.
  - rewrite inactive_theorem in H by auto. injection H as <- <-. apply nth_error_In in N. apply repeat_spec in N. subst line.
    intros [D _]. apply A. right. now left.
Qed.
(** Consecutive time steps: a window after another summary has as many calls as
    the interval says. *)
Theorem interval_theorem o steps m k : (forall i, (i < length steps)%nat -> time steps i = time steps 0 + Z.of_nat i) -> (k < length steps)%nat ->
  due o steps k -> window o steps m k -> (0 < m)%nat -> Z.of_nat (S k - m) = ew_sum o.
Proof.
  intros T K [S0 D] (M1 & [-> | M2] & M3) P; [lia|]. destruct M2 as [_ M2].
  rewrite T in D by auto. rewrite T in M2 by lia.
  set (s := ew_sum o) in *. set (t := time steps 0) in *.
  apply Z.mod_divide in D; [|lia]. apply Z.mod_divide in M2; [|lia]. destruct D as (a & D). destruct M2 as (b & M2).
  assert (AB : Z.of_nat (S k - m) = (a - b) * s) by nia.
  assert (G1 : 0 < a - b) by nia.
  destruct (Z.eq_dec (a - b) 1) as [Q|Q]; [rewrite Q in AB; lia|]. exfalso.
  assert (G2 : 2 <= a - b) by lia. clear Q.
  assert (J : (Z.to_nat (Z.of_nat (m - 1) + s) < k)%nat) by nia.
  apply (M3 (Z.to_nat (Z.of_nat (m - 1) + s))).
  - nia.
  - split; [exact S0|]. rewrite T by lia. fold t. rewrite Z2Nat.id by lia. fold s. rewrite Z.add_assoc, M2.
    replace (b * s + s) with ((b + 1) * s) by ring. apply Z.mod_mul. lia.
Qed.

(** ** Examples *)
Definition example_steps : list (Z * list Z) := [(98, [1; 0]); (99, [0; 2]); (100, [3; 0]); (101, [0; 1]); (102, [1; 4])].
Lemma example_run : for_processes 2 example_steps /\
  simulate (mkEW false 2 4 false) example_steps (repeat no_warnings 2) =
    ([Some (98, 1, (IZR 1 / IZR 2)%R); None; Some (100, 5, (IZR 5 / IZR 2)%R); None; Some (102, 6, (IZR 6 / IZR 2)%R)], true) /\
  too_many (mkEW false 2 4 false) 2 example_steps 4.
Proof.
  split; [|split; [reflexivity|]].
  - intros ts c H. cbn in H. repeat (destruct H as [H|H]; [injection H as <- <-; reflexivity|]). destruct H.
  - exists 1%nat. split; [lia|]. vm_compute. reflexivity.
Qed.
(** The log says that there is no limit, but the first warning stops the run. *)
Lemma no_limit : exists o P steps lines, limitMessage (ew_max o) = None /\ for_processes P steps /\ simulate o steps (repeat no_warnings P) = (lines, true).
Proof.
  exists ew_default, 1%nat, [(0, [0]); (1, [1])], [None; None]. split; [reflexivity|]. split; [|reflexivity].
  intros ts c H. cbn in H. repeat (destruct H as [H|H]; [injection H as <- <-; reflexivity|]). destruct H.
Qed.
(** With a negative limit the run is stopped without any warning if warnings are
    shown, but is never stopped if they are not. *)
Lemma negative_limit : exists P steps, for_processes P steps /\ (forall k p, count steps k p = 0) /\
  (exists lines, simulate (mkEW true 0 (-1) false) steps (repeat no_warnings P) = (lines, true)) /\
  (forall steps', exists lines, simulate (mkEW false 0 (-1) false) steps' (repeat no_warnings P) = (lines, false)).
Proof.
  exists 1%nat, [(0, [0])]. split; [|split; [|split]].
  - intros ts c [H | []]. injection H as <- <-. reflexivity.
  - intros [|[|k]] [|[|p]]; reflexivity.
  - eexists. reflexivity.
  - intros steps'. eexists. apply inactive_theorem. intros [A | [A | A]]; cbn in A; [discriminate|lia|lia].
Qed.
(** The first summary need not cover an interval: 11 warnings in a single call
    are 0.11 per step. *)
Lemma first_rate : exists o P steps lines W r, for_processes P steps /\ length steps = 1%nat /\
  simulate o steps (repeat no_warnings P) = (lines, false) /\ lines = [Some (0, W, r)] /\
  W = all_processes P steps 0 /\ r <> (IZR W / INR (length steps))%R.
Proof.
  exists (mkEW false 100 1000 false), 1%nat, [(0, [11])], [Some (0, 11, (IZR 11 / IZR 100)%R)], 11, (IZR 11 / IZR 100)%R.
  split; [|split; [reflexivity|split; [reflexivity|split; [reflexivity|split; [reflexivity|]]]]].
  - intros ts c [H | []]. injection H as <- <-. reflexivity.
  - cbn. lra.
Qed.
(** Each process counts for itself: more warnings than allowed in total. *)
Lemma per_process : exists o P steps lines, for_processes P steps /\ ew_reset o = false /\ simulate o steps (repeat no_warnings P) = (lines, false) /\
  ew_max o < zsum (seq 0 (length steps)) (all_processes P steps).
Proof.
  exists (mkEW true 0 2 false), 2%nat, [(0, [2; 2])], [None]. split; [|split; [reflexivity|split; reflexivity]].
  intros ts c [H | []]. injection H as <- <-. reflexivity.
Qed.
