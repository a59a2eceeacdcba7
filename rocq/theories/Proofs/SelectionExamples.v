From Coq Require Import List Arith Reals Lra Bool Lia Permutation.
From Verif Require Import Model.SymFunctions Model.Selection Spec.SelectionSpec Proofs.SelectSetsProofs Proofs.SelectionProofs Proofs.EpochProofs.
Import ListNotations.

Lemma threshold_found useSub frac u j : (forall o, position_free (fun c => frac c o)) -> ready useSub u -> u_mode u = SM_THRESHOLD -> j < u_trials u ->
  (forall i, i < j -> (error_at frac u (tried useSub u i) <= u_threshold u)%R) -> (u_threshold u < error_at frac u (tried useSub u j))%R ->
  exists x, select useSub frac u = Some x /\ (x_cand x, x_sub x) = tried useSub u j /\ x_log x = logged useSub (tried useSub u j) /\ x_il x = j /\
  ready useSub (x_prop x) /\ same_places (u_cands u) (u_cands (x_prop x)) /\ (forall i, tried useSub (x_prop x) i = tried useSub u (S j + i)).
Proof.
  intros F H Hm Hj Hlow Hhigh. unfold select. rewrite Hm.
  destruct (trialLoop_found useSub frac F (u_trials u) 0 u 0 0 None j H Hm Hj Hlow Hhigh) as (x & X1 & X2 & X3 & X4 & X5 & X6 & X7).
  exists x. split; [exact X1|]. split; [exact X2|]. split; [exact X3|]. split; [exact X4|]. split; [exact X5|]. split; [now apply alike_places|exact X7].
Qed.
Lemma threshold_exhausted useSub frac u : (forall o, position_free (fun c => frac c o)) -> ready useSub u -> u_mode u = SM_THRESHOLD -> 0 < u_trials u ->
  (forall i, i < u_trials u -> (error_at frac u (tried useSub u i) <= u_threshold u)%R) ->
  exists x, select useSub frac u = Some x /\ (x_cand x, x_sub x) = tried useSub u (u_trials u - 1) /\ x_il x = u_trials u /\
  ((exists i, i < u_trials u /\ (0 < error_at frac u (tried useSub u i))%R) ->
   exists i, i < u_trials u /\ x_log x = logged useSub (tried useSub u i) /\
     forall i', i' < u_trials u -> (error_at frac u (tried useSub u i') <= error_at frac u (tried useSub u i))%R) /\
  ready useSub (x_prop x) /\ same_places (u_cands u) (u_cands (x_prop x)) /\ (forall i, tried useSub (x_prop x) i = tried useSub u (u_trials u + i)).
Proof.
  intros F H Hm Hj Hlow. unfold select. rewrite Hm.
  destruct (trialLoop_none useSub frac F (u_trials u) 0 u 0 0 None H Hm ltac:(lia) Hlow) as (x & X1 & X2 & X3 & X4 & X5 & X6 & X7).
  exists x. split; [exact X1|]. split. { destruct (u_trials u) as [|m]; [lia|]. cbn [Nat.sub]. rewrite Nat.sub_0_r. exact X2. } split; [exact X4|]. split.
  - intros (i & Hi & Pi). destruct X3 as [[_ Y]|(k & Y1 & Y2 & _ & Y4)]. { specialize (Y i Hi). lra. } exists k. auto.
  - split; [exact X5|]. split; [now apply alike_places|exact X7].
Qed.

(** Two candidates, errors 8/10 and 5/10 of the RMSE, threshold 1. *)
Definition twoErr (c : candidate) (_ : option subCandidate) : R := match c_s c with 0 => 8 / 10 | _ => 5 / 10 end.
Definition two : prop := mkProp SM_THRESHOLD 1 2 0 [mkCand 0 0 0 []; mkCand 1 0 0 []] 0 0.
Lemma two_ready : ready false two.
Proof. split; [cbn; lia|]. split; [cbn; lia|]. intros c [<-|[<-|[]]]; cbn; split; lia || discriminate. Qed.
Lemma exhausted_refuted : exists frac u x, (forall o, position_free (fun c => frac c o)) /\ ready false u /\ u_mode u = SM_THRESHOLD /\ 0 < u_trials u /\
  (forall i, i < u_trials u -> (error_at frac u (tried false u i) <= u_threshold u)%R) /\ select false frac u = Some x /\
  exists i, i < u_trials u /\ (error_at frac u (x_cand x, x_sub x) < error_at frac u (tried false u i))%R.
Proof.
  assert (F : forall o, position_free (fun c => twoErr c o)) by (intros o c n; reflexivity).
  assert (L : forall i, i < u_trials two -> (error_at twoErr two (tried false two i) <= u_threshold two)%R).
  { intros [|[|i]] Hi; cbn in *; try lia; unfold error_at, twoErr, tried; cbn; lra. }
  destruct (threshold_exhausted false twoErr two F two_ready eq_refl ltac:(cbn; lia) L) as (x & X1 & X2 & _).
  exists twoErr, two, x. split; [exact F|]. split; [exact two_ready|]. split; [reflexivity|]. split; [cbn; lia|]. split; [exact L|]. split; [exact X1|].
  exists 0. split; [cbn; lia|]. rewrite X2. unfold error_at, twoErr, tried. cbn. lra.
Qed.

(** * Examples *)
(** Three structures: undecided, in the test set, undecided; first random number 1/2, second 1/100. *)
Definition exStructures : list tstructure := [mkT ST_UNKNOWN 2 [0; 1] [1; 1]; mkT ST_TEST 1 [0] [1; 0]; mkT ST_UNKNOWN 1 [0] [0; 1]].
Definition exDraw (k : nat) : R := match k with 0 => 1 / 2 | _ => 1 / 100 end.
Lemma exSets : exists st, selectSets HDNNP_2G true true true 2 (1 / 10) exDraw exStructures = Some st /\
  ss_types st = [ST_TRAINING; ST_TEST; ST_TEST] /\ length (pt_cands (ss_force st)) = 6 /\ pt_test (ss_force st) = 6 /\ all_indexed exStructures.
Proof.
  assert (E0 : ltR (exDraw 0) (1 / 10) = false). { unfold ltR, exDraw. destruct (Rlt_dec (1 / 2) (1 / 10)); [lra|reflexivity]. }
  assert (E1 : ltR (exDraw 1) (1 / 10) = true). { unfold ltR, exDraw. destruct (Rlt_dec (1 / 100) (1 / 10)); [reflexivity|lra]. }
  revert E0 E1. generalize (1 / 10)%R exDraw. intros r d E0 E1.
  unfold selectSets, exStructures. cbn [length seq combine].
  lazy -[ltR R0]. rewrite E0. lazy -[ltR R0]. rewrite E1. lazy -[ltR R0]. eexists. split; [reflexivity|]. split; [reflexivity|]. split; [reflexivity|]. split; [reflexivity|].
  intros s [<-|[<-|[<-|[]]]]; reflexivity.
Qed.
(** Three candidates, at position 2. *)
Definition exProp : prop := mkProp SM_RANDOM 1 3 2 [mkCand 5 0 0 []; mkCand 6 0 0 []; mkCand 9 0 0 []] 0 0.
Lemma exReady : ready false exProp.
Proof. split; [cbn; lia|]. split; [cbn; lia|]. intros c [<-|[<-|[<-|[]]]]; cbn; split; lia || discriminate. Qed.
Lemma exEpoch : exists u', epochSelection false (fun _ => twoErr) (fun _ => 0) 2 2 exProp = Some ([(2, None); (0, None); (1, None); (2, None)], u').
Proof. destruct (epoch_plain (fun _ => twoErr) (fun _ => 0) 2 2 exProp exReady ltac:(discriminate)) as (u' & E & _). exists u'. rewrite E. reflexivity. Qed.
(** Two structures with sub-candidates; two sub-candidates of each are used before going on. *)
Definition exSubs (n : nat) : list subCandidate := map (fun a => mkSub a 0 0) (seq 0 n).
Definition exProp4G : prop := mkProp SM_SORT 1 3 0 [mkCand 0 0 2 (exSubs 3); mkCand 1 0 0 (exSubs 4)] 0 0.
Lemma exReady4G : ready true exProp4G.
Proof. split; [cbn; lia|]. split; [cbn; lia|]. intros c [<-|[<-|[]]]; cbn; split; lia. Qed.
Lemma exEpoch4G : exists u', epochSelection true (fun _ => twoErr) (fun _ => 2) 1 5 exProp4G
  = Some ([(0, Some 2); (0, Some 0); (1, Some 0); (1, Some 1); (0, Some 1)], u').
Proof. unfold exProp4G, exSubs. generalize twoErr. intros e. lazy -[IZR]. eexists. reflexivity. Qed.
