From Coq Require Import List Arith Reals Bool Lia Lra.
From Verif Require Import Base.Loop Model.SymFunctions Spec.NetworkSpec Model.NeuralNetwork Model.UpdatePlan Spec.UpdatePlanSpec
  Model.TrainWeights Spec.TrainWeightsSpec Proofs.NetLayout Proofs.UpdatePlanProofs Proofs.TrainWeightsProofs.
Import ListNotations.
Local Open Scope nat_scope.

Definition shape_inv (t0 t : trainer) : Prop :=
  tr_strat t = US_COMBINED /\ tr_hardness t = false /\ length (tr_elements t) = length (tr_elements t0) /\
  forall i e, element_is t0 i e -> exists e', element_is t i e' /\ same_shape (te_nn e') (te_nn e) /\ te_hardness e' = te_hardness e.

Section Num.
Variable t0 : trainer.
Hypothesis C0 : tr_strat t0 = US_COMBINED.
Hypothesis H0 : tr_hardness t0 = false.
Hypothesis I0 : initialized t0.

Lemma shape_inv_refl : shape_inv t0 t0.
Proof. split; [assumption|]. split; [assumption|]. split; [reflexivity|]. intros i e He. exists e. split; [assumption|]. split; [apply same_shape_refl|reflexivity]. Qed.
Lemma shape_init t w w0 : shape_inv t0 t -> tr_weights t0 = [w0] -> tr_weights t = [w] -> wv_size w = wv_size w0 ->
  initialized t /\ layout_of t = layout_of t0.
Proof.
  intros (A & B & L & S) E0 E Z. apply initialized_after; auto; try congruence.
  - rewrite E, E0. cbn. congruence.
  - intros i e He. destruct (S i e He) as (e' & X & Y & _). eauto.
Qed.

Lemma set_shifted t w w0 o d : shape_inv t0 t -> tr_weights t0 = [w0] -> tr_weights t = [w] -> wv_size w = wv_size w0 ->
  (forall p, p < wv_size w0 -> wv_at w p = (wv_at w0 p + shift o d p)%R) ->
  exists t', setWeights t = Some t' /\ tr_weights t' = [w] /\ shape_inv t0 t' /\ shifted_networks t0 o d (tr_elements t').
Proof.
  intros SI E0 E Z Hw. destruct (shape_init t w w0 SI E0 E Z) as [I Y]. pose proof SI as (A & B & L & S).
  destruct (setWeights_effect t I) as (t' & K1 & K2 & K3 & K4 & K5 & K6).
  exists t'. split; [assumption|]. split; [congruence|].
  assert (Fit : fit t = false) by (unfold fit; now rewrite A).
  assert (Key : forall i e, element_is t0 i e -> exists e', element_is t' i e' /\ same_shape (te_nn e') (te_nn e) /\ te_hardness e' = te_hardness e /\
            forall j, j < numConnections (te_nn e) -> entry_is t i j (conn (te_nn e') j)).
  { intros i e He. destruct (S i e He) as (e1 & X1 & X2 & X3). destruct (K6 i e1 X1) as (e2 & Y1 & Y2 & Y3 & _ & Y5).
    exists e2. split; [assumption|]. split; [|split].
    - eapply same_shape_trans; eauto.
    - rewrite Y5 by exact Fit. exact X3.
    - intros j Hj. apply Y3. now rewrite (numConnections_shape _ _ X2). }
  split.
  - split; [congruence|]. split; [congruence|]. split; [congruence|].
    intros i e He. destruct (Key i e He) as (e2 & ? & ? & ? & _). exists e2. auto.
  - assert (Ent : forall i e, element_is t0 i e -> forall e', element_is t' i e' -> forall j, j < numConnections (te_nn e) ->
              entry_is t0 i j (conn (te_nn e') j - shift o d (position (layout_of t0) i j))%R).
    { intros i e He e' He' j Hj. destruct (Key i e He) as (e2 & P1 & P2 & P3 & P4). unfold element_is in P1, He'. assert (e2 = e') by congruence. subst e2.
      destruct (P4 j Hj) as (w1 & Q1 & Q2 & Q3). rewrite Y in Q1, Q2, Q3. rewrite (updater_combined t0 i C0), E in Q1. cbn in Q1. injection Q1 as <-.
      exists w0. rewrite (updater_combined t0 i C0), E0. split; [reflexivity|]. split; [lia|].
      rewrite <- Q3, Hw by lia. lra. }
    split; [congruence|]. intros i e He. destruct (Key i e He) as (e' & P1 & P2 & P3 & P4). exists e'.
    split; [exact P1|]. split; [exact P3|]. cbv zeta. destruct P2 as (S1 & S2 & S3 & S4). do 4 (split; [assumption|]).
    assert (Wf : well_formed (te_nn e)) by (apply I0; eapply nth_error_In; exact He). pose proof (wf_layers _ Wf) as HL. split.
    + intros l j k Hl Hj Hk. rewrite <- (conn_weight (te_nn e') l j k) by (rewrite ?S1, ?S2; assumption). rewrite S2.
      eapply Ent; eauto. now apply weight_pos_lt.
    + intros l k Hl Hk. rewrite <- (conn_bias (te_nn e') l k) by (rewrite ?S1, ?S2; assumption). rewrite S2.
      eapply Ent; eauto. now apply bias_pos_lt.
Qed.

Lemma changeWeight_eq t w o f : tr_weights t = [w] -> o < wv_size w ->
  changeWeight t o f = Some (with_weights t [mkWVector (wv_size w) (fun q => if Nat.eqb q o then f (wv_at w o) else wv_at w q)]).
Proof.
  intros E Ho. unfold changeWeight. rewrite E. unfold wv_get, wv_set. destruct (Nat.ltb_spec o (wv_size w)); [reflexivity|lia].
Qed.

Variable quantity : nat -> list telement -> R.
Variable delta : R.
Variable w0 : wvector.
Hypothesis E0 : tr_weights t0 = [w0].

Definition inv (t : trainer) : Prop :=
  shape_inv t0 t /\ exists w, tr_weights t = [w] /\ wv_size w = wv_size w0 /\ forall p, p < wv_size w0 -> wv_at w p = wv_at w0 p.
Definition value (k o : nat) (v : R) : Prop :=
  exists high low, shifted_networks t0 o delta high /\ shifted_networks t0 o (- delta) low /\
    v = ((quantity k high - quantity k low) / (2 * delta))%R.

Lemma one_step k o t out : inv t -> o < wv_size w0 ->
  exists t' v, dPdcNOne quantity delta k o (t, out) = Some (t', out ++ [v]) /\ inv t' /\ value k o v /\
    shifted_networks t0 o (- delta) (tr_elements t').
Proof.
  intros [SI (w & E & Z & Hw)] Ho. unfold dPdcNOne. rewrite E.
  assert (Ho' : o < wv_size w) by lia.
  unfold wv_get. destruct (Nat.ltb_spec o (wv_size w)) as [_|?]; [|lia].
  rewrite (changeWeight_eq t w o _ E Ho').
  set (w1 := mkWVector _ _).
  destruct (set_shifted (with_weights t [w1]) w1 w0 o delta) as (t1 & R1 & W1 & S1 & N1); auto.
  { intros p Hp. unfold w1, shift. cbn [wv_at]. destruct (Nat.eqb_spec p o) as [->|]; [now rewrite Hw|rewrite Hw by assumption; lra]. }
  rewrite R1. rewrite (changeWeight_eq t1 w1 o _ W1 Ho').
  set (w2 := mkWVector _ _).
  destruct (set_shifted (with_weights t1 [w2]) w2 w0 o (- delta)) as (t2 & R2 & W2 & S2 & N2); auto.
  { intros p Hp. unfold w2, w1, shift. cbn [wv_at wv_size]. rewrite Nat.eqb_refl.
    destruct (Nat.eqb_spec p o) as [->|]; [rewrite Hw by assumption; lra|rewrite Hw by assumption; lra]. }
  rewrite R2. rewrite (changeWeight_eq t2 w2 o _ W2 Ho').
  eexists _, _. split; [reflexivity|]. split; [|split; [|exact N2]].
  - split; [exact S2|]. eexists. split; [reflexivity|]. cbn [wv_size wv_at w2 w1]. split; [exact Z|].
    intros p Hp. destruct (Nat.eqb_spec p o) as [->|]; [now apply Hw|now apply Hw].
  - exists (tr_elements t1), (tr_elements t2). auto.
Qed.
Lemma row_loop k : forall os t out, inv t -> (forall o, In o os -> o < wv_size w0) ->
  exists t' row, ofold (dPdcNOne quantity delta k) os (t, out) = Some (t', out ++ row) /\ inv t' /\ Forall2 (value k) os row /\
    (os <> [] -> shifted_networks t0 (last os 0) (- delta) (tr_elements t')).
Proof.
  induction os as [|o os IH]; intros t out HI Ho.
  - exists t, []. cbn [ofold]. rewrite app_nil_r. repeat split; auto; try apply HI. congruence.
  - destruct (one_step k o t out HI) as (t1 & v & R1 & I1 & V1 & N1); [apply Ho; now left|].
    destruct (IH t1 (out ++ [v]) I1) as (t2 & row & R2 & I2 & V2 & N2); [intros; apply Ho; now right|].
    exists t2, (v :: row). cbn [ofold]. rewrite R1, R2, <- app_assoc. split; [reflexivity|]. split; [assumption|]. split; [now constructor|].
    intros _. destruct os as [|o' os].
    + cbn [ofold] in R2. injection R2 as -> _. exact N1.
    + apply N2. discriminate.
Qed.

Definition offset_step (st : nat * list nat) (e : telement) : nat * list nat :=
  let '(offset, off) := st in ((offset + numConnections (te_nn e))%nat, off ++ [offset]).
Fixpoint offs (b : nat) (es : list telement) : list nat :=
  match es with [] => [] | e :: es => b :: offs (b + numConnections (te_nn e)) es end.
Lemma offsets_fold : forall es b acc, snd (fold_left offset_step es (b, acc)) = acc ++ offs b es.
Proof.
  induction es as [|e es IH]; intros b acc; cbn [fold_left offs]; [now rewrite app_nil_r|].
  cbn [offset_step]. rewrite IH, <- app_assoc. reflexivity.
Qed.
Lemma seq_shift_from b : forall n s, map (fun ic => b + ic) (seq s n) = seq (b + s) n.
Proof. clear. induction n as [|n IH]; intros s; cbn; [reflexivity|]. rewrite IH. f_equal. f_equal. lia. Qed.
Lemma indices_from : forall es b,
  flat_map (fun x => map (fun ic => snd x + ic) (seq 0 (fst x))) (List.combine (map (fun e => numConnections (te_nn e)) es) (offs b es)) =
  seq b (total false es).
Proof.
  induction es as [|e es IH]; intros b; [reflexivity|].
  cbn [map offs List.combine flat_map fst snd]. rewrite IH.
  change (total false (e :: es)) with (slot false e + total false es). unfold slot at 1. rewrite Nat.add_0_r, seq_app. f_equal.
  rewrite seq_shift_from, Nat.add_0_r. reflexivity.
Qed.
Lemma indices : dPdcNIndices t0 = seq 0 (total false (tr_elements t0)).
Proof.
  unfold dPdcNIndices, getNumConnectionsPerElement, getConnectionOffsets.
  change (fold_left _ (tr_elements t0) (0, [])) with (fold_left offset_step (tr_elements t0) (0, [])).
  rewrite offsets_fold. apply indices_from.
Qed.
Lemma size_total : wv_size w0 = total false (tr_elements t0).
Proof.
  destruct (init_combined t0 C0 I0) as (w & E & Z). rewrite E0 in E. injection E as <-. now rewrite H0 in Z.
Qed.

Lemma outer_loop : forall ks t dPdc, inv t ->
  exists t' rows, ofold (fun k (st : trainer * list (list R)) =>
           let '(t, dPdc) := st in
           match ofold (dPdcNOne quantity delta k) (dPdcNIndices t0) (t, []) with
           | None => None
           | Some (t, row) => Some (t, dPdc ++ [row])
           end) ks (t, dPdc) = Some (t', dPdc ++ rows) /\ inv t' /\
    Forall2 (fun k row => Forall2 (value k) (seq 0 (wv_size w0)) row) ks rows /\
    (ks <> [] -> 0 < wv_size w0 -> shifted_networks t0 (wv_size w0 - 1) (- delta) (tr_elements t')).
Proof.
  induction ks as [|k ks IH]; intros t dPdc HI.
  - exists t, []. cbn [ofold]. rewrite app_nil_r. repeat split; auto; try apply HI. congruence.
  - destruct (row_loop k (dPdcNIndices t0) t [] HI) as (t1 & row & R1 & I1 & V1 & N1).
    { rewrite indices, <- size_total. intros o Ho. apply in_seq in Ho. lia. }
    destruct (IH t1 (dPdc ++ [row]) I1) as (t2 & rows & R2 & I2 & V2 & N2).
    exists t2, (row :: rows). cbn [ofold]. rewrite R1. cbn [app]. rewrite R2, <- app_assoc. split; [reflexivity|]. split; [assumption|].
    rewrite indices, <- size_total in V1, N1. split; [now constructor|].
    intros _ Hp. destruct ks as [|k' ks].
    + cbn [ofold] in R2. injection R2 as -> _. specialize (N1 ltac:(destruct (wv_size w0); [lia|discriminate])).
      replace (last (seq 0 (wv_size w0)) 0) with (wv_size w0 - 1) in N1; [exact N1|].
      destruct (wv_size w0) as [|n]; [lia|]. rewrite seq_S, last_last. lia.
    + apply N2; auto. discriminate.
Qed.
End Num.

Lemma parameters_size t w : tr_strat t = US_COMBINED -> initialized t -> tr_weights t = [w] -> wv_size w = parameters t.
Proof.
  intros C I E. destruct I as [_ S]. unfold parameters. rewrite E in S. unfold numUpdaters in S. unfold layout_of at 2 in S. rewrite C in S.
  cbn [layoutOf l_strat seq map] in S. now injection S as S.
Qed.

Lemma numeric quantity delta n t : tr_strat t = US_COMBINED -> tr_hardness t = false -> initialized t ->
  exists t' rows, dPdcN quantity delta n t = Some (t', rows) /\ same_weights t t' /\ initialized t' /\
    Forall2 (fun k row => Forall2 (fun o v =>
        exists high low, shifted_networks t o delta high /\ shifted_networks t o (- delta) low /\
          v = ((quantity k high - quantity k low) / (2 * delta))%R) (seq 0 (parameters t)) row) (seq 0 n) rows /\
    (0 < n -> 0 < parameters t -> shifted_networks t (parameters t - 1) (- delta) (tr_elements t')).
Proof.
  intros C H I. destruct (init_combined t C I) as (w & E & Z).
  assert (I0 : inv t w t).
  { split; [now apply shape_inv_refl|]. exists w. auto. }
  destruct (outer_loop t C H I quantity delta w E (seq 0 n) t [] I0) as (t' & rows & R & I' & V & N).
  rewrite (parameters_size t w C I E) in V, N.
  exists t', rows. split; [exact R|]. destruct I' as [S (w' & E' & Z' & P')]. split; [|split; [|split]].
  - unfold same_weights. rewrite E, E'. constructor; [|constructor]. auto.
  - eapply shape_init; eauto.
  - exact V.
  - intros Hn Hp. apply N; auto. destruct n; [lia|discriminate].
Qed.

Lemma numeric_then_set quantity delta n t t' rows : tr_strat t = US_COMBINED -> tr_hardness t = false -> initialized t ->
  (forall i e, element_is t i e -> entries_are_network t i (te_nn e)) ->
  dPdcN quantity delta n t = Some (t', rows) -> exists t'', setWeights t' = Some t'' /\ same_networks t t''.
Proof.
  intros C H I Con D. destruct (init_combined t C I) as (w & E & Z).
  assert (I0 : inv t w t).
  { split; [now apply shape_inv_refl|]. exists w. auto. }
  destruct (outer_loop t C H I quantity delta w E (seq 0 n) t [] I0) as (t1 & rows1 & R & I' & _ & _).
  unfold dPdcN in D. rewrite R in D. injection D as <- _.
  destruct I' as [S (w' & E' & Z' & P')].
  destruct (set_shifted t C H I t1 w' w 0 0%R S E E' Z') as (t2 & R2 & W2 & S2 & L2 & N2).
  { intros p Hp. rewrite P' by assumption. unfold shift. destruct (Nat.eqb p 0); lra. }
  exists t2. split; [exact R2|]. unfold same_networks.
  assert (Hpt : forall i e e', nth_error (tr_elements t) i = Some e -> nth_error (tr_elements t2) i = Some e' ->
            same_network (te_nn e') (te_nn e) /\ te_hardness e' = te_hardness e).
  { intros i e e' He He'. destruct (N2 i e He) as (e2 & A & B & S1 & S3 & S4 & S5 & Wt & Bs). assert (e2 = e') by congruence. subst e2.
    split; [|exact B]. destruct (Con i e He) as [C1 C2].
    assert (Sh : forall p, (shift 0 0 p = 0)%R) by (intros; unfold shift; now destruct (Nat.eqb p 0)).
    repeat split; auto.
    - intros l j k Hl Hj Hk. rewrite S1 in Hl. rewrite S3 in Hj, Hk. pose proof (entry_fun _ _ _ _ _ (C1 l j k Hl Hj Hk) (Wt l j k Hl Hj Hk)) as Q.
      rewrite Sh in Q. lra.
    - intros l k Hl Hk. rewrite S1 in Hl. rewrite S3 in Hk. pose proof (entry_fun _ _ _ _ _ (C2 l k Hl Hk) (Bs l k Hl Hk)) as Q.
      rewrite Sh in Q. lra. }
  clear - Hpt L2. revert L2 Hpt. generalize (tr_elements t) (tr_elements t2). intros l.
  induction l as [|a l IH]; intros [|b l'] L Hq; try discriminate; constructor.
  - exact (Hq 0 a b eq_refl eq_refl).
  - apply IH; [now injection L|]. intros i. exact (Hq (S i)).
Qed.
