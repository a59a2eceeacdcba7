(** The network routines compute the derivatives they are named after. *)
From Coq Require Import Reals Lra List Arith Lia Bool FunctionalExtensionality.
From Coquelicot Require Import Coquelicot.
From Coq Require Import List.
From Verif Require Import Base.RealBase Base.SumR Base.Loop Model.NeuralNetwork Spec.NetworkSpec
  Proofs.NetLayout Proofs.NetForward Proofs.NetGrad Proofs.NetReverse Proofs.NetSecond.
Import ListNotations.
Local Open Scope R_scope.

Definition delta (k j : nat) : R := if Nat.eqb j k then 1 else 0.
Lemma delta_same k : delta k k = 1.
Proof. unfold delta. now rewrite Nat.eqb_refl. Qed.
Lemma delta_other k j : j <> k -> delta k j = 0.
Proof. intros H. unfold delta. apply Nat.eqb_neq in H. now rewrite H. Qed.
Lemma sumn_delta n (f : nat -> R) k : (k < n)%nat -> sumn n (fun j => f j * delta k j) = f k.
Proof.
  intros H. rewrite (sumn_single n _ k H).
  - rewrite delta_same. ring.
  - intros i Hi Hne. rewrite delta_other by auto. ring.
Qed.
Lemma upd_derive (c : nat -> R) p q : is_derive (fun t => upd c p t q) (c p) (delta p q).
Proof.
  unfold upd, delta. destruct (Nat.eqb q p); [apply (is_derive_id (c p))|apply (is_derive_const (c q) (c p))].
Qed.
Lemma upd_id (c : nat -> R) p q : upd c p (c p) q = c q.
Proof. unfold upd. destruct (Nat.eqb_spec q p); congruence. Qed.

Lemma regular_set net : well_formed net -> forall e, same_shape e net -> every_neuron regular e -> acts_set net.
Proof.
  intros [_ Hwf] e (E1 & E2 & E3 & _) Hr l Hl E.
  specialize (Hr l O). rewrite E1, E2, E3 in Hr. specialize (Hr Hl (Hwf l ltac:(lia))). rewrite E in Hr. exact Hr.
Qed.

(** Shape of the evaluated network, without any assumption. *)
Lemma evaluate_shape net G : same_shape (evaluate net G) net.
Proof.
  unfold evaluate, propagate. destruct (setInput_spec G net) as (I1 & _).
  assert (H : forall n, same_shape (for_up n (fun i => propagateLayer (1 + i)) (setInput G net)) net).
  { induction n; [exact I1|]. cbn [for_up]. eapply same_shape_trans; [apply propagateLayer_spec; lia|exact IHn]. }
  apply H.
Qed.

Section Eval.
Variable net : network.
Let N := numNeurons net.
Let act := actFun net.
Let nrm := net_nrm net.
Variable G : nat -> R.
Let e := evaluate net G.
Variable LT : nat.
Hypothesis HLT : numLayers net = S LT.
Hypothesis HLT1 : (2 <= LT)%nat.
Hypothesis Hact : acts_set net.
Let V := VAL N act nrm (weight net) (bias net) G.
Let P := PRE N act nrm (weight net) (bias net) G.

Lemma LT_pos : (1 <= LT)%nat.
Proof. clear Hact. lia. Qed.
Lemma ev_shape : same_shape e net.
Proof. apply evaluate_shape. Qed.
Lemma ev_weight l j k : weight e l j k = weight net l j k.
Proof. apply (evaluate_spec net G); auto. lia. Qed.
Lemma ev_bias l k : bias e l k = bias net l k.
Proof. apply (evaluate_spec net G); auto. lia. Qed.
Lemma ev_value l k : (l <= LT)%nat -> (k < N l)%nat -> n_value (neurons e l k) = V l k.
Proof. intros. apply (evaluate_spec net G); auto; lia. Qed.
Lemma ev_x l k : (1 <= l <= LT)%nat -> (k < N l)%nat -> n_x (neurons e l k) = P l k.
Proof. intros. apply (evaluate_spec net G); auto; lia. Qed.
Lemma ev_df l k : (1 <= l <= LT)%nat -> (k < N l)%nat -> n_dfdx (neurons e l k) = act_df (act l) (P l k).
Proof. intros. apply (evaluate_spec net G); auto; lia. Qed.
Lemma ev_d2 l k : (1 <= l <= LT)%nat -> (k < N l)%nat -> n_d2fdx2 (neurons e l k) = act_d2 (act l) (P l k).
Proof. intros. apply (evaluate_spec net G); auto; lia. Qed.
Lemma ev_N : numNeurons e = N.
Proof. apply ev_shape. Qed.
Lemma ev_L : numLayers e = S LT.
Proof. rewrite <- HLT. apply ev_shape. Qed.
Lemma ev_nrmR l : nrmR e l = nrm l.
Proof. unfold nrmR, nrm, net_nrm. destruct ev_shape as (_ & -> & _ & ->). reflexivity. Qed.
Lemma ev_output k : (k < N LT)%nat -> getOutput e k = V LT k.
Proof.
  intros Hk. unfold getOutput, outputLayer. rewrite ev_L. replace (S LT - 1)%nat with LT by lia. apply ev_value; auto.
Qed.
Lemma ev_output_sum : output_sum e = sumn (N LT) (V LT).
Proof.
  unfold output_sum. rewrite ev_N, ev_L. replace (S LT - 1)%nat with LT by lia. apply sumn_ext. intros. apply ev_output; auto.
Qed.

Lemma div_nrm x l : (if normalizeNeurons e then x / INR (N (l - 1)) else x) = x * nrm l.
Proof.
  unfold nrm, net_nrm. destruct ev_shape as (_ & _ & _ & ->). destruct (normalizeNeurons net); unfold N, Rdiv; ring.
Qed.
Lemma dEdG_YY k : (k < N 0)%nat -> forall l i2, (l < LT)%nat -> (i2 < N (S l))%nat ->
  dEdG_inner e k l i2 = YY N act nrm (weight net) (bias net) G (delta k) (S l) i2.
Proof.
  intros Hk. induction l as [|l IH]; intros i2 Hl Hi.
  - cbn [dEdG_inner]. rewrite ev_N. change (N 0) with (N (1 - 1)%nat). rewrite div_nrm. simpl YY.
    rewrite sumn_delta by auto. rewrite ev_df by (auto; lia).
    change (n_weights (neurons e 1 i2) k) with (weight e 0 k i2). rewrite ev_weight. unfold P. ring.
  - cbn [dEdG_inner]. rewrite ev_N, for_up_sum, Rplus_0_l. rewrite Nat.add_1_r.
    change (N (S l)) with (N (S (S l) - 1)%nat) at 2. rewrite div_nrm.
    rewrite ev_df by (auto; lia).
    set (Y := YY N act nrm (weight net) (bias net) G (delta k)) in *.
    replace (sumn (N (S l)) (fun j => n_weights (neurons e (S (S l)) i2) j * dEdG_inner e k l j))
      with (sumn (N (S l)) (fun j => weight net (S l) j i2 * Y (S l) j)).
    + change (Y (S (S l)) i2) with (act_df (act (S (S l))) (P (S (S l)) i2) *
        (sumn (N (S l)) (fun j => weight net (S l) j i2 * Y (S l) j) * nrm (S (S l)))). ring.
    + apply sumn_ext. intros j Hj. rewrite IH by (auto; lia).
      change (n_weights (neurons e (S (S l)) i2) j) with (weight e (S l) j i2). now rewrite ev_weight.
Qed.
Lemma ev_DEdG k : (k < N 0)%nat -> (0 < N LT)%nat ->
  calculateDEdG e k = YY N act nrm (weight net) (bias net) G (delta k) LT 0.
Proof.
  intros Hk H0. unfold calculateDEdG, numHiddenLayers. rewrite ev_L.
  replace (S LT - 2)%nat with (LT - 1)%nat by lia. rewrite dEdG_YY; auto; try lia.
  - replace (S (LT - 1)) with LT by lia. reflexivity.
  - replace (S (LT - 1)) with LT by lia. auto.
Qed.

(** Adjoints. *)
Definition ADJ1 : nat -> nat -> R :=
  adj_of N nrm (fun l j k r => r * weight net l j k * act_df (act l) (P l j))
    (fun k => act_df (act LT) (P LT k) * nrm LT) LT.
Lemma ADJ1_top k : ADJ1 LT k = act_df (act LT) (P LT k) * nrm LT.
Proof. unfold ADJ1. now rewrite adj_of_top. Qed.
Lemma ADJ1_step l j : (l < LT)%nat ->
  ADJ1 l j = sumn (N (S l)) (fun k => ADJ1 (S l) k * weight net l j k * act_df (act l) (P l j)) * nrm l.
Proof. intros Hl. unfold ADJ1. now rewrite adj_of_step. Qed.
Lemma ADJ1_step' l j : (l < LT)%nat ->
  ADJ1 l j = sumn (N (S l)) (fun k => ADJ1 (S l) k * weight net l j k) * act_df (act l) (P l j) * nrm l.
Proof. intros Hl. rewrite ADJ1_step by auto. rewrite (sumn_scal_r (N (S l)) (act_df (act l) (P l j)) (fun k => ADJ1 (S l) k * weight net l j k)). reflexivity. Qed.

Lemma biasOffset_e i : biasOffset e i = (block_start N i + N i * N (S i))%nat.
Proof. rewrite biasOffset_block. now rewrite ev_N. Qed.
Lemma numConnections_e : numConnections e = block_start N LT.
Proof.
  assert (H1 : (1 <= numLayers e)%nat) by (rewrite ev_L; lia).
  rewrite (numConnections_block e H1). rewrite ev_N, ev_L. f_equal. lia.
Qed.

(** Array after zeroing and writing the output layer. *)
Lemma top_block (f : nat -> R) (d a0 : nat -> R) :
  (forall p, (p < block_start N LT)%nat -> a0 p = 0) ->
  let bo := biasOffset e (numLayers e - 2) in
  let a := for_up (numNeurons e (outputLayer e)) (fun i a =>
             let a := upd a (bo + i) (f i) in
             if normalizeNeurons e
             then upd a (bo + i) (a (bo + i)%nat / INR (prevNeurons e (outputLayer e))) else a) a0 in
  (forall k, (k < N LT)%nat -> a (bias_position N (LT - 1) k) = f k * nrm LT) /\
  (forall l k, (S l < LT)%nat -> (k < N (S l))%nat -> a (bias_position N l k) = 0).
Proof.
  intros H0. unfold outputLayer, prevNeurons. cbv zeta.
  assert (EL1 : (numLayers e - 1)%nat = LT) by (rewrite ev_L; lia).
  assert (EL2 : (numLayers e - 2)%nat = (LT - 1)%nat) by (rewrite ev_L; lia).
  rewrite EL1, EL2, ev_N, biasOffset_e.
  destruct (out_loop (N LT) (block_start N (LT - 1) + N (LT - 1)%nat * N (S (LT - 1)))%nat f (normalizeNeurons e) (INR (N (LT - 1)%nat)) a0) as [T1 T2].
  cbv zeta in T1, T2. split.
  - intros k Hk. unfold bias_position. rewrite T1 by auto.
    unfold nrm, net_nrm. destruct ev_shape as (_ & _ & _ & ->). reflexivity.
  - intros l k Hl Hk. rewrite T2.
    + apply H0. pose proof (bias_in_block net l k Hk) as Hb. pose proof (block_mono net (S l) LT ltac:(lia)). unfold N in *. lia.
    + left. pose proof (bias_in_block net l k Hk) as Hb. pose proof (block_mono net (S l) (LT - 1) ltac:(lia)). unfold N in *. lia.
Qed.

Lemma ev_DEdc a0 :
  (forall l k, (l < LT)%nat -> (k < N (S l))%nat -> calculateDEdc e a0 (bias_position N l k) = ADJ1 (S l) k) /\
  (forall l j k, (l < LT)%nat -> (j < N l)%nat -> (k < N (S l))%nat ->
     calculateDEdc e a0 (weight_position N l j k) = ADJ1 (S l) k * V l j).
Proof.
  set (z := for_up (numConnections e) (fun i a => upd a i 0) a0).
  assert (Hz : forall p, (p < block_start N LT)%nat -> z p = 0).
  { intros p Hp. unfold z. rewrite zero_loop, numConnections_e. destruct (Nat.ltb_spec p (block_start N LT)); [auto|lia]. }
  destruct (top_block (fun i => n_dfdx (neurons e (outputLayer e) i)) (fun _ => 0) z Hz) as [T1 T2].
  cbv zeta in T1, T2.
  match type of T1 with (forall k, _ -> ?X _ = _) => set (a := X) in * end.
  assert (Erev : calculateDEdc e a0 = rev_loop e
     (fun i j k r => r * n_value (neurons e i j))
     (fun i j k r => r * n_weights (neurons e (i + 1) k) j * n_dfdx (neurons e i j)) a) by reflexivity.
  rewrite Erev.
  destruct (rev_loop_spec e LT ev_L ltac:(lia)
     (fun i j k r => r * n_value (neurons e i j))
     (fun i j k r => r * n_weights (neurons e (i + 1) k) j * n_dfdx (neurons e i j)) ADJ1) with (a0 := a) as [R1 R2].
  - intros l j Hl Hj. rewrite ev_N in *. rewrite ev_nrmR. rewrite ADJ1_step by lia. f_equal. apply sumn_ext.
    intros k Hk. rewrite Nat.add_1_r. rewrite ev_df by (auto; lia).
    change (n_weights (neurons e (S l) k) j) with (weight e l j k). now rewrite ev_weight.
  - intros k Hk. rewrite ev_N in *. rewrite T1 by auto. rewrite ADJ1_top. unfold outputLayer. rewrite ev_L.
    replace (S LT - 1)%nat with LT by lia. rewrite ev_df by (auto; lia). reflexivity.
  - rewrite ev_N. exact T2.
  - rewrite ev_N in *. split; [exact R1|]. intros l j k Hl Hj Hk. rewrite R2 by auto. rewrite ev_value by (auto; lia). reflexivity.
Qed.

(** calculateDEdb. *)
Lemma ev_DEdb a0 : (forall p, a0 p = 0) ->
  forall l k, (l < LT)%nat -> (k < N (S l))%nat -> calculateDEdb e a0 (biasOnlyOffset e l + k) = ADJ1 (S l) k.
Proof.
  intros H0 l k Hl Hk.
  apply (calculateDEdb_spec e LT ev_L ltac:(lia) ADJ1); auto; rewrite ?ev_N; auto.
  - intros k' Hk'. rewrite ev_nrmR, ADJ1_top, ev_df by (auto; lia). reflexivity.
  - intros l' j Hl' Hj. rewrite ev_nrmR, ADJ1_step by lia. f_equal. apply sumn_ext. intros k' Hk'.
    rewrite ev_weight, ev_df by (auto; lia). reflexivity.
Qed.

(** Second derivatives; [m] is the evaluated network with arbitrary dxdG. *)
Section Second.
Variable m0 : network.
Hypothesis Hm0 : same_but_dxdG m0 e.
Variable index : nat.
Hypothesis Hindex : (index < N 0)%nat.
Let m := calculateDxdG index m0.
Let X := XX N act nrm (weight net) (bias net) G (delta index).
Let Y := YY N act nrm (weight net) (bias net) G (delta index).
Lemma m0_L : numLayers m0 = S LT.
Proof. rewrite <- ev_L. apply Hm0. Qed.
Lemma m_e : same_but_dxdG m e.
Proof. eapply sbd_trans; [|exact Hm0]. apply (calculateDxdG_spec m0 LT m0_L LT_pos index). Qed.
Lemma m_shape : numLayers m = S LT /\ numNeurons m = N /\ normalizeNeurons m = normalizeNeurons e.
Proof.
  destruct m_e as [(E1 & E2 & E3 & E4) _]. rewrite E1, E2, E4. rewrite ev_L, ev_N. auto.
Qed.
Lemma m_weight l j k : n_weights (neurons m (S l) k) j = weight net l j k.
Proof. destruct (sbd_fields m e (S l) k m_e) as (-> & _). apply ev_weight. Qed.
Lemma m_value l k : (l <= LT)%nat -> (k < N l)%nat -> n_value (neurons m l k) = V l k.
Proof. intros. destruct (sbd_fields m e l k m_e) as (_ & _ & -> & _). apply ev_value; auto. Qed.
Lemma m_df l k : (1 <= l <= LT)%nat -> (k < N l)%nat -> n_dfdx (neurons m l k) = act_df (act l) (P l k).
Proof. intros. destruct (sbd_fields m e l k m_e) as (_ & _ & _ & -> & _). apply ev_df; auto. Qed.
Lemma m_d2 l k : (1 <= l <= LT)%nat -> (k < N l)%nat -> n_d2fdx2 (neurons m l k) = act_d2 (act l) (P l k).
Proof. intros. destruct (sbd_fields m e l k m_e) as (_ & _ & _ & _ & -> & _). apply ev_d2; auto. Qed.
Lemma m0_nrmR l : nrmR m0 l = nrm l.
Proof. rewrite <- ev_nrmR. unfold nrmR. destruct Hm0 as [(E1 & E2 & E3 & E4) _]. now rewrite E2, E4. Qed.
Lemma m_dxdG l k : (1 <= l <= LT)%nat -> (k < N l)%nat -> n_dxdG (neurons m l k) = X l k.
Proof.
  intros Hl Hk. destruct l as [|l]; [lia|].
  destruct (calculateDxdG_spec m0 LT m0_L ltac:(lia) index) as [_ H].
  assert (EN : numNeurons m0 = N). { rewrite <- ev_N. apply Hm0. }
  unfold m. rewrite H by (rewrite ?EN; auto; lia). clear H.
  revert k Hk. induction l as [|l IH]; intros k Hk.
  - cbn [Xr]. rewrite m0_nrmR. unfold X. rewrite XX_S. simpl YY. rewrite sumn_delta by auto. f_equal.
    unfold weight at 1. destruct (sbd_fields m0 e 1 k Hm0) as (-> & _). apply ev_weight.
  - cbn [Xr]. rewrite m0_nrmR, EN. unfold X. rewrite XX_S. f_equal. apply sumn_ext. intros j Hj.
    rewrite IH by (auto; lia). rewrite YY_S. fold X P.
    unfold weight at 1. destruct (sbd_fields m0 e (S (S l)) k Hm0) as (-> & _).
    destruct (sbd_fields m0 e (S l) j Hm0) as (_ & _ & _ & -> & _).
    rewrite ev_df by (auto; lia). change (n_weights (neurons e (S (S l)) k) j) with (weight e (S l) j k). rewrite ev_weight. ring.
Qed.

Definition AA1 : nat -> nat -> R :=
  adj_of N nrm (fun l j k r => weight net l j k * (r * act_df (act l) (P l j)
                                 + ADJ1 (S l) k * act_d2 (act l) (P l j) * X l j))
    (fun k => act_d2 (act LT) (P LT k) * X LT k * nrm LT) LT.
Lemma AA1_top k : AA1 LT k = act_d2 (act LT) (P LT k) * X LT k * nrm LT.
Proof. unfold AA1. now rewrite adj_of_top. Qed.
Lemma AA1_step l j : (l < LT)%nat ->
  AA1 l j = sumn (N (S l)) (fun k => weight net l j k * (AA1 (S l) k * act_df (act l) (P l j)
                                    + ADJ1 (S l) k * act_d2 (act l) (P l j) * X l j)) * nrm l.
Proof. intros Hl. unfold AA1. now rewrite adj_of_step. Qed.

Variable dEdb : nat -> R.
Hypothesis HdEdb : forall l k, (l < LT)%nat -> (k < N (S l))%nat -> dEdb (biasOnlyOffset m l + k)%nat = ADJ1 (S l) k.

Lemma ev_D2 z : (forall p, (p < block_start N LT)%nat -> z p = 0) ->
  (forall l k, (l < LT)%nat -> (k < N (S l))%nat -> calculateD2EdGdc m index dEdb z (bias_position N l k) = AA1 (S l) k) /\
  (forall l j k, (l < LT)%nat -> (j < N l)%nat -> (k < N (S l))%nat ->
     calculateD2EdGdc m index dEdb z (weight_position N l j k) = AA1 (S l) k * V l j + ADJ1 (S l) k * Y l j).
Proof.
  intros Hz. destruct m_shape as (M1 & M2 & M3).
  assert (T : forall f : nat -> R, let a := for_up (numNeurons m (outputLayer m)) (fun i a =>
             let a := upd a (biasOffset m (numLayers m - 2) + i) (f i) in
             if normalizeNeurons m
             then upd a (biasOffset m (numLayers m - 2) + i) (a (biasOffset m (numLayers m - 2) + i)%nat / INR (prevNeurons m (outputLayer m))) else a) z in
      (forall k, (k < N LT)%nat -> a (bias_position N (LT - 1) k) = f k * nrm LT) /\
      (forall l k, (S l < LT)%nat -> (k < N (S l))%nat -> a (bias_position N l k) = 0)).
  { intros f. pose proof (top_block f (fun _ => 0) z Hz) as T. cbv zeta in T |- *.
    unfold outputLayer, prevNeurons in *. rewrite (biasOffset_block m). rewrite (biasOffset_block e) in T.
    rewrite M1, M2, M3. rewrite ev_L, ev_N in T. exact T. }
  destruct (T (fun i => n_d2fdx2 (neurons m (outputLayer m) i) * n_dxdG (neurons m (outputLayer m) i))) as [T1 T2]. clear T.
  cbv zeta in T1, T2.
  match type of T1 with (forall k, _ -> ?A _ = _) => set (a := A) in * end.
  set (wf := fun (i j k : nat) (r : R) =>
     if Nat.eqb i 0 then (if Nat.eqb j index then r * n_value (neurons m i j) + dEdb (biasOnlyOffset m i + k)%nat
                          else r * n_value (neurons m i j))
     else r * n_value (neurons m i j) + dEdb (biasOnlyOffset m i + k)%nat * n_dfdx (neurons m i j) * n_dxdG (neurons m i j)).
  set (bf := fun (i j k : nat) (r : R) => n_weights (neurons m (i + 1) k) j
                           * (r * n_dfdx (neurons m i j)
                              + dEdb (biasOnlyOffset m i + k)%nat * n_d2fdx2 (neurons m i j) * n_dxdG (neurons m i j))).
  assert (Erev : calculateD2EdGdc m index dEdb z = rev_loop m wf bf a).
  { unfold calculateD2EdGdc, rev_loop. cbv zeta. fold a. f_equal.
    extensionality i. extensionality b. f_equal. f_equal.
    extensionality j. extensionality st.
    match goal with |- (let (_, _) := ?A in _) = (let (_, _) := ?B in _) => assert (EE : A = B); [|rewrite EE; reflexivity] end.
    f_equal. extensionality k. extensionality s. destruct s as [cnt b']. unfold wf.
    destruct (Nat.eqb i 0); [|reflexivity]. destruct (Nat.eqb j index); [|reflexivity].
    assert (EU : forall (q : nat) (u v : R), upd (upd b' q u) q v = upd b' q v).
    { intros q u v. extensionality q'. unfold upd. destruct (Nat.eqb q' q); auto. }
    rewrite upd_same, EU. reflexivity. }
  rewrite Erev.
  destruct (rev_loop_spec m LT M1 ltac:(lia) wf bf AA1) with (a0 := a) as [R1 R2].
  - intros l j Hl Hj. rewrite M2 in *.
    replace (nrmR m l) with (nrm l) by (rewrite <- ev_nrmR; unfold nrmR; rewrite M2, M3, ev_N; reflexivity).
    rewrite AA1_step by lia. f_equal. apply sumn_ext. intros k Hk. unfold bf.
    rewrite Nat.add_1_r, m_weight, HdEdb, m_df, m_d2, m_dxdG by (auto; lia). reflexivity.
  - intros k Hk. rewrite M2 in *. rewrite T1 by auto. rewrite AA1_top. unfold outputLayer. rewrite M1.
    replace (S LT - 1)%nat with LT by lia. rewrite m_d2, m_dxdG by (auto; lia). reflexivity.
  - rewrite M2. exact T2.
  - rewrite M2 in *. split; [exact R1|]. intros l j k Hl Hj Hk. rewrite R2 by auto. unfold wf.
    rewrite m_value, HdEdb by (auto; lia). destruct l as [|l].
    + simpl Nat.eqb at 1. cbv iota. change (Y 0 j) with (delta index j). unfold delta.
      destruct (Nat.eqb j index); ring.
    + simpl Nat.eqb. cbv iota. rewrite m_df, m_dxdG by (auto; lia).
      unfold Y. rewrite YY_S. fold X P. ring.
Qed.
End Second.
End Eval.

(** ** Gradient with respect to the inputs. *)
Lemma dEdG_gradient net G k : well_formed net -> (k < numNeurons net 0)%nat ->
  every_neuron regular (evaluate net G) ->
  is_derive (fun t => getOutput (evaluate net (upd G k t)) 0) (G k) (calculateDEdG (evaluate net G) k).
Proof.
  intros Hwf Hk Hreg. pose proof (regular_set net Hwf _ (evaluate_shape net G) Hreg) as Hact.
  destruct Hwf as [H3 Hpos]. destruct (numLayers net) as [|LT] eqn:EL; [lia|].
  assert (H0 : (0 < numNeurons net LT)%nat) by (apply Hpos; lia).
  rewrite (ev_DEdG net G LT EL ltac:(lia) Hact k Hk H0).
  apply (is_derive_ext (fun t => VAL (numNeurons net) (actFun net) (net_nrm net) (weight net) (bias net) (upd G k t) LT 0)).
  { intros t. symmetry. apply (ev_output net (upd G k t) LT EL ltac:(lia) Hact); auto. }
  assert (EG : upd G k (G k) = G) by (extensionality q; apply upd_id).
  replace (YY (numNeurons net) (actFun net) (net_nrm net) (weight net) (bias net) G (delta k) LT 0)
    with (TAN (numNeurons net) (actFun net) (net_nrm net) (fun _ => weight net) (fun _ => bias net) (fun t => upd G k t) (G k)
      (fun _ _ _ => 0) (fun _ _ => 0) (delta k) LT 0) by (rewrite TAN_is_YY, EG; reflexivity).
  apply (VAL_derive (numNeurons net) (actFun net) (net_nrm net) LT (fun _ => weight net) (fun _ => bias net) (fun t => upd G k t)); auto.
  - intros l j k' _ _ _. apply (is_derive_const (weight net l j k') (G k)).
  - intros l k' _ _. apply (is_derive_const (bias net l k') (G k)).
  - intros q _. apply upd_derive.
  - intros l q Hl Hq. rewrite EG.
    rewrite <- (ev_x net G LT EL ltac:(lia) Hact) by auto.
    destruct (evaluate_shape net G) as (S1 & S2 & S3 & _). specialize (Hreg l q). rewrite S1, S2, S3, EL in Hreg.
    apply Hreg; auto. lia.
Qed.

(** ** Gradient with respect to the connections. *)
Section Conn.
Variable net : network.
Hypothesis Hwf : well_formed net.
Let N := numNeurons net.
Let act := actFun net.
Let nrm := net_nrm net.
Variable c G : nat -> R.
Variable p : nat.
Hypothesis Hp : (p < numConnections net)%nat.
Variable LT : nat.
Hypothesis HLT : numLayers net = S LT.
Let mk t := setConnections (upd c p t) net.
Let Wt t l j k := upd c p t (weight_position N l j k).
Let Bt t l k := upd c p t (bias_position N l k).
Let dW l j k := delta p (weight_position N l j k).
Let dB l k := delta p (bias_position N l k).
Hypothesis Hreg : every_neuron regular (evaluate (setConnections c net) G).

Lemma HLT2 : (2 <= LT)%nat.
Proof. destruct Hwf. lia. Qed.
Lemma mk_shape t : same_shape (mk t) net.
Proof. apply (setConnections_spec net (upd c p t)). destruct Hwf; lia. Qed.
Lemma mk_L t : numLayers (mk t) = S LT.
Proof. rewrite <- HLT. apply mk_shape. Qed.
Lemma mk_N t : numNeurons (mk t) = N.
Proof. apply mk_shape. Qed.
Lemma mk_act t : actFun (mk t) = act.
Proof. apply mk_shape. Qed.
Lemma mk_nrm t : net_nrm (mk t) = nrm.
Proof. unfold nrm, net_nrm. destruct (mk_shape t) as (_ & -> & _ & ->). reflexivity. Qed.
Lemma mk_weight t l j k : (l < LT)%nat -> (j < N l)%nat -> (k < N (S l))%nat -> weight (mk t) l j k = Wt t l j k.
Proof. intros. apply (setConnections_spec net (upd c p t)); auto; lia. Qed.
Lemma mk_bias t l k : (l < LT)%nat -> (k < N (S l))%nat -> bias (mk t) l k = Bt t l k.
Proof. intros. apply (setConnections_spec net (upd c p t)); auto; lia. Qed.
Lemma net_acts : acts_set net.
Proof.
  apply (regular_set net Hwf (evaluate (setConnections c net) G)); auto.
  eapply same_shape_trans; [apply evaluate_shape|].
  apply (setConnections_spec net c). destruct Hwf; lia.
Qed.
Lemma mk_acts t : acts_set (mk t).
Proof. intros l. rewrite mk_L, mk_act, <- HLT. apply net_acts. Qed.
Lemma mk_base : mk (c p) = setConnections c net.
Proof. unfold mk. f_equal. extensionality q. apply upd_id. Qed.
Lemma p_lt : (p < block_start N LT)%nat.
Proof.
  rewrite (numConnections_block net) in Hp by lia. rewrite HLT in Hp. replace (S LT - 1)%nat with LT in Hp by lia. exact Hp.
Qed.
Lemma N_pos : (0 < N LT)%nat.
Proof. destruct Hwf as [_ H]. apply H. lia. Qed.
Lemma VAL_mk t l k : (l <= LT)%nat -> (k < N l)%nat ->
  VAL (numNeurons (mk t)) (actFun (mk t)) (net_nrm (mk t)) (weight (mk t)) (bias (mk t)) G l k = VAL N act nrm (Wt t) (Bt t) G l k.
Proof.
  intros. rewrite mk_N, mk_act, mk_nrm. apply (VAL_ext N act nrm LT); auto.
  - intros; apply mk_weight; auto.
  - intros; apply mk_bias; auto.
Qed.
Lemma PRE_mk t l k : (1 <= l <= LT)%nat -> (k < N l)%nat ->
  PRE (numNeurons (mk t)) (actFun (mk t)) (net_nrm (mk t)) (weight (mk t)) (bias (mk t)) G l k = PRE N act nrm (Wt t) (Bt t) G l k.
Proof.
  intros. rewrite mk_N, mk_act, mk_nrm. apply (PRE_ext N act nrm LT); auto.
  - intros; apply mk_weight; auto.
  - intros; apply mk_bias; auto.
Qed.
Lemma YY_mk t s l k : (l <= LT)%nat -> (k < N l)%nat ->
  YY (numNeurons (mk t)) (actFun (mk t)) (net_nrm (mk t)) (weight (mk t)) (bias (mk t)) G s l k = YY N act nrm (Wt t) (Bt t) G s l k.
Proof.
  intros. rewrite mk_N, mk_act, mk_nrm. apply (YY_ext N act nrm LT); auto.
  - intros; apply mk_weight; auto.
  - intros; apply mk_bias; auto.
Qed.
Lemma reg_mk l k : (1 <= l <= LT)%nat -> (k < N l)%nat -> regular (act l) (PRE N act nrm (Wt (c p)) (Bt (c p)) G l k).
Proof.
  intros Hl Hk. rewrite <- PRE_mk by auto. rewrite mk_base.
  pose proof mk_base as E. rewrite <- E. rewrite <- (ev_x (mk (c p)) G LT (mk_L _) HLT2 (mk_acts _)) by (rewrite ?mk_N; auto).
  rewrite E. specialize (Hreg l k). destruct (evaluate_shape (setConnections c net) G) as (S1 & S2 & S3 & _).
  rewrite S1, S2, S3 in Hreg. rewrite <- E in *. rewrite mk_L, mk_N, mk_act in Hreg. apply Hreg; auto. lia.
Qed.
Lemma HWt l j k : is_derive (fun t => Wt t l j k) (c p) (dW l j k).
Proof. apply upd_derive. Qed.
Lemma HBt l k : is_derive (fun t => Bt t l k) (c p) (dB l k).
Proof. apply upd_derive. Qed.

Let V := VAL N act nrm (Wt (c p)) (Bt (c p)) G.
Let P := PRE N act nrm (Wt (c p)) (Bt (c p)) G.

(** Sums over all connections with a unit perturbation of connection [p]. *)
Lemma collapse_weight (F H Q : nat -> nat -> R) l j k :
  (l < LT)%nat -> (j < N l)%nat -> (k < N (S l))%nat -> p = weight_position N l j k ->
  sumn LT (fun l => sumn (N (S l)) (fun k =>
     F l k * (sumn (N l) (fun j => dW l j k * V l j) + dB l k) + H l k * sumn (N l) (fun j => dW l j k * Q l j)))
  = F l k * V l j + H l k * Q l j.
Proof.
  intros Hl Hj Hk E.
  assert (HdB : forall l' k', (k' < N (S l'))%nat -> dB l' k' = 0).
  { intros l' k' Hk'. apply delta_other. rewrite E. intros E2. symmetry in E2. revert E2. apply (weight_bias_disjoint net); auto. }
  assert (HdW : forall l' j' k', (j' < N l')%nat -> (k' < N (S l'))%nat -> (l' <> l \/ j' <> j \/ k' <> k) -> dW l' j' k' = 0).
  { intros l' j' k' Hj' Hk' Hne. apply delta_other. rewrite E. intros E2. apply (weight_position_inj net) in E2; auto. intuition. }
  assert (HdW1 : dW l j k = 1) by (unfold dW; rewrite <- E; apply delta_same).
  rewrite (sumn_single LT _ l Hl).
  - rewrite (sumn_single (N (S l)) _ k Hk).
    + rewrite HdB by auto. rewrite (sumn_single (N l) _ j Hj).
      * rewrite (sumn_single (N l) (fun j0 => dW l j0 k * Q l j0) j Hj).
        -- rewrite HdW1. ring.
        -- intros i Hi Hne. rewrite HdW by auto. ring.
      * intros i Hi Hne. rewrite HdW by auto. ring.
    + intros i Hi Hne. rewrite HdB by auto. rewrite !sumn_zero; [ring| |]; intros; rewrite HdW by auto; ring.
  - intros i Hi Hne. apply sumn_zero. intros q Hq. rewrite HdB by auto.
    rewrite !sumn_zero; [ring| |]; intros; rewrite HdW by auto; ring.
Qed.
Lemma collapse_bias (F H Q : nat -> nat -> R) l k :
  (l < LT)%nat -> (k < N (S l))%nat -> p = bias_position N l k ->
  sumn LT (fun l => sumn (N (S l)) (fun k =>
     F l k * (sumn (N l) (fun j => dW l j k * V l j) + dB l k) + H l k * sumn (N l) (fun j => dW l j k * Q l j)))
  = F l k.
Proof.
  intros Hl Hk E.
  assert (HdB : forall l' k', (k' < N (S l'))%nat -> (l' <> l \/ k' <> k) -> dB l' k' = 0).
  { intros l' k' Hk' Hne. apply delta_other. rewrite E. intros E2. apply (bias_position_inj net) in E2; auto. intuition. }
  assert (HdW : forall l' j' k', (j' < N l')%nat -> (k' < N (S l'))%nat -> dW l' j' k' = 0).
  { intros l' j' k' Hj' Hk'. apply delta_other. rewrite E. apply (weight_bias_disjoint net); auto. }
  assert (HdB1 : dB l k = 1) by (unfold dB; rewrite <- E; apply delta_same).
  rewrite (sumn_single LT _ l Hl).
  - rewrite (sumn_single (N (S l)) _ k Hk).
    + rewrite !sumn_zero; [rewrite HdB1; ring| |]; intros; rewrite HdW by auto; ring.
    + intros i Hi Hne. rewrite HdB by auto. rewrite !sumn_zero; [ring| |]; intros; rewrite HdW by auto; ring.
  - intros i Hi Hne. apply sumn_zero. intros q Hq. rewrite HdB by auto.
    rewrite !sumn_zero; [ring| |]; intros; rewrite HdW by auto; ring.
Qed.

Let net0 := mk (c p).
Lemma ADJ1_facts :
  (forall k, ADJ1 net0 G LT LT k = act_df (act LT) (PRE N act nrm (weight net0) (bias net0) G LT k) * nrm LT) .
Proof. intros k. unfold net0. rewrite ADJ1_top. rewrite mk_N, mk_act, mk_nrm. reflexivity. Qed.
Lemma VAL_net0 l k : (l <= LT)%nat -> (k < N l)%nat ->
  VAL N (actFun net0) (net_nrm net0) (weight net0) (bias net0) G l k = V l k.
Proof. intros. rewrite <- (VAL_mk (c p)) by auto. rewrite mk_N. reflexivity. Qed.
Lemma YY_net0 s l k : (l <= LT)%nat -> (k < N l)%nat ->
  YY N (actFun net0) (net_nrm net0) (weight net0) (bias net0) G s l k = YY N act nrm (Wt (c p)) (Bt (c p)) G s l k.
Proof. intros. rewrite <- (YY_mk (c p)) by auto. rewrite mk_N. reflexivity. Qed.
Lemma net0_L : numLayers net0 = S LT. Proof. apply mk_L. Qed.
Lemma net0_N : numNeurons net0 = N. Proof. apply mk_N. Qed.
Lemma net0_acts : acts_set net0. Proof. apply mk_acts. Qed.

Lemma ADJ_top' k : (k < N LT)%nat -> ADJ1 net0 G LT LT k = act_df (act LT) (P LT k) * nrm LT.
Proof.
  intros Hk. rewrite ADJ1_top. pose proof HLT2. rewrite (PRE_mk (c p)) by (auto; lia). unfold net0. rewrite mk_act, mk_nrm. reflexivity.
Qed.
Lemma ADJ_step' l j : (1 <= l < LT)%nat -> (j < N l)%nat ->
  ADJ1 net0 G LT l j = sumn (N (S l)) (fun k => ADJ1 net0 G LT (S l) k * Wt (c p) l j k) * act_df (act l) (P l j) * nrm l.
Proof.
  intros Hl Hj. rewrite ADJ1_step' by lia. rewrite (PRE_mk (c p)) by (auto; lia).
  unfold net0 at 1 3 4 5. rewrite mk_N, mk_act, mk_nrm. fold P. f_equal. f_equal.
  apply sumn_ext. intros k Hk. rewrite (mk_weight (c p)) by (auto; lia). reflexivity.
Qed.

Lemma dEdc_gradient a0 :
  is_derive (fun t => output_sum (evaluate (setConnections (upd c p t) net) G)) (c p)
            (calculateDEdc (evaluate (setConnections c net) G) a0 p).
Proof.
  pose proof HLT2 as H2. rewrite <- mk_base. fold net0.
  apply (is_derive_ext (fun t => sumn (N LT) (fun k => VAL N act nrm (Wt t) (Bt t) G LT k))).
  { intros t. change (setConnections (upd c p t) net) with (mk t).
    rewrite (ev_output_sum (mk t) G LT (mk_L t) HLT2 (mk_acts t)). replace (numNeurons (mk t) LT) with (N LT) by (now rewrite mk_N).
    apply sumn_ext. intros k Hk. symmetry. apply VAL_mk; auto. }
  assert (HD : is_derive (fun t => sumn (N LT) (fun k => VAL N act nrm (Wt t) (Bt t) G LT k)) (c p)
     (sumn (N LT) (TAN N act nrm Wt Bt (fun _ => G) (c p) dW dB (fun _ => 0) LT))).
  { apply (is_derive_sumn (N LT) (fun k t => VAL N act nrm (Wt t) (Bt t) G LT k)).
    intros k Hk. apply (VAL_derive N act nrm LT Wt Bt (fun _ => G)); auto.
    - intros; apply HWt.
    - intros; apply HBt.
    - intros q Hq. apply (is_derive_const (G q) (c p)).
    - intros; apply reg_mk; auto. }
  refine (is_derive_eq _ _ _ _ HD _). clear HD.
  rewrite (sum_TAN N act nrm LT Wt Bt (fun _ => G) (c p) dW dB (fun _ => 0) (ADJ1 net0 G LT) ADJ_top' ADJ_step' ltac:(lia)) by auto.
  destruct (ev_DEdc net0 G LT net0_L HLT2 net0_acts a0) as [D1 D2]. rewrite net0_N in D1, D2.
  assert (Eq : sumn LT (fun l => sumn (N (S l)) (fun k => ADJ1 net0 G LT (S l) k * SRC N act nrm Wt Bt (fun _ => G) (c p) dW dB l k))
    = sumn LT (fun l => sumn (N (S l)) (fun k => ADJ1 net0 G LT (S l) k * (sumn (N l) (fun j => dW l j k * V l j) + dB l k) + 0 * sumn (N l) (fun j => dW l j k * 0)))).
  { apply sumn_ext. intros l Hl. apply sumn_ext. intros k Hk. unfold SRC. fold V. ring. }
  rewrite Eq. clear Eq.
  pose proof (position_cover net LT p p_lt) as PC. fold N in PC.
  destruct PC as [(l & j & k & Hl & Hj & Hk & E)|(l & k & Hl & Hk & E)].
  - rewrite (collapse_weight (fun l k => ADJ1 net0 G LT (S l) k) (fun _ _ => 0) (fun _ _ => 0) l j k Hl Hj Hk E).
    transitivity (calculateDEdc (evaluate net0 G) a0 (weight_position N l j k)); [|now rewrite <- E].
    rewrite D2 by auto. rewrite VAL_net0 by (auto; lia). ring.
  - rewrite (collapse_bias (fun l k => ADJ1 net0 G LT (S l) k) (fun _ _ => 0) (fun _ _ => 0) l k Hl Hk E).
    transitivity (calculateDEdc (evaluate net0 G) a0 (bias_position N l k)); [|now rewrite <- E].
    rewrite D1 by auto. reflexivity.
Qed.

(** Mixed second derivative. *)
Hypothesis Hone : N LT = 1%nat.
Lemma d2_correct m0 index dEdb z : same_but_dxdG m0 (evaluate net0 G) -> (index < N 0)%nat ->
  (forall l k, (l < LT)%nat -> (k < N (S l))%nat -> dEdb (biasOnlyOffset (evaluate net0 G) l + k)%nat = ADJ1 net0 G LT (S l) k) ->
  (forall q, (q < block_start N LT)%nat -> z q = 0) ->
  calculateD2EdGdc (calculateDxdG index m0) index dEdb z p
  = sumn (N LT) (TY N act nrm Wt Bt (fun _ => G) (c p) dW dB (fun _ => 0) (delta index) LT).
Proof.
  intros Hm0 Hi Hb Hz. pose proof HLT2 as H2.
  assert (Hbo : forall l, biasOnlyOffset (calculateDxdG index m0) l = biasOnlyOffset (evaluate net0 G) l).
  { intros l. pose proof (m_shape net0 G LT net0_L HLT2 m0 Hm0 index) as (_ & EN & _).
    induction l as [|l IHl]; [reflexivity|]. cbn [biasOnlyOffset]. rewrite IHl, EN, (ev_N net0 G). reflexivity. }
  destruct (ev_D2 net0 G LT net0_L HLT2 net0_acts m0 Hm0 index) with (dEdb := dEdb) (z := z) as [D1 D2]; rewrite ?net0_N; auto.
  { intros l k Hl Hk. rewrite Hbo. auto. }
  rewrite net0_N in D1, D2.
  assert (EX : forall l k, (1 <= l <= LT)%nat -> (k < N l)%nat ->
     XX (numNeurons net0) (actFun net0) (net_nrm net0) (weight net0) (bias net0) G (delta index) l k
     = XX N act nrm (Wt (c p)) (Bt (c p)) G (delta index) l k).
  { intros l k Hl Hk. destruct l as [|l]; [lia|]. rewrite XX_S, XX_S. rewrite net0_N.
    replace (net_nrm net0) with nrm by (symmetry; apply mk_nrm). f_equal.
    apply sumn_ext. intros j Hj. replace nrm with (net_nrm net0) by apply mk_nrm. rewrite YY_net0 by (auto; lia).
    replace (net_nrm net0) with nrm by (symmetry; apply mk_nrm).
    f_equal. apply (mk_weight (c p)); auto; lia. }
  rewrite (sum_TY N act nrm LT Wt Bt (fun _ => G) (c p) dW dB (fun _ => 0) (delta index)
     (ADJ1 net0 G LT) ADJ_top' ADJ_step' (AA1 net0 G LT index)); try lia; auto.
  - set (Y := YY N act nrm (Wt (c p)) (Bt (c p)) G (delta index)) in *.
    assert (Eq : sumn LT (fun l => sumn (N (S l)) (fun k => AA1 net0 G LT index (S l) k * SRC N act nrm Wt Bt (fun _ => G) (c p) dW dB l k
         + ADJ1 net0 G LT (S l) k * SRC2 N act nrm Wt Bt (fun _ => G) (c p) dW (delta index) l k))
      = sumn LT (fun l => sumn (N (S l)) (fun k => AA1 net0 G LT index (S l) k * (sumn (N l) (fun j => dW l j k * V l j) + dB l k)
         + ADJ1 net0 G LT (S l) k * sumn (N l) (fun j => dW l j k * Y l j)))).
    { reflexivity. }
    rewrite Eq. clear Eq.
    pose proof (position_cover net LT p p_lt) as PC. fold N in PC.
  destruct PC as [(l & j & k & Hl & Hj & Hk & E)|(l & k & Hl & Hk & E)].
    + rewrite (collapse_weight (fun l k => AA1 net0 G LT index (S l) k) (fun l k => ADJ1 net0 G LT (S l) k) Y l j k Hl Hj Hk E).
      transitivity (calculateD2EdGdc (calculateDxdG index m0) index dEdb z (weight_position N l j k)); [now rewrite <- E|].
      rewrite D2 by auto. rewrite VAL_net0 by (auto; lia). rewrite YY_net0 by (auto; lia). reflexivity.
    + rewrite (collapse_bias (fun l k => AA1 net0 G LT index (S l) k) (fun l k => ADJ1 net0 G LT (S l) k) Y l k Hl Hk E).
      transitivity (calculateD2EdGdc (calculateDxdG index m0) index dEdb z (bias_position N l k)); [now rewrite <- E|].
      rewrite D1 by auto. reflexivity.
  - intros k Hk. rewrite AA1_top. rewrite EX by (auto; lia). rewrite (PRE_mk (c p)) by (auto; lia).
    unfold net0. rewrite mk_act, mk_nrm. reflexivity.
  - intros l j Hl Hj. rewrite AA1_step by lia. rewrite EX by (auto; lia). rewrite (PRE_mk (c p)) by (auto; lia).
    unfold net0 at 1 3 4 6 7. rewrite mk_N, mk_act, mk_nrm. f_equal.
    apply sumn_ext. intros k Hk. rewrite (mk_weight (c p)) by (auto; lia). reflexivity.
Qed.

Lemma dFdc_gradient dGdxyz a0 :
  is_derive (fun t => - sumn (N 0) (fun i => calculateDEdG (evaluate (setConnections (upd c p t) net) G) i * dGdxyz i)) (c p)
            (calculateDFdc (evaluate (setConnections c net) G) dGdxyz a0 p).
Proof.
  pose proof HLT2 as H2. rewrite <- mk_base. fold net0.
  apply (is_derive_ext (fun t => - sumn (N 0) (fun i => YY N act nrm (Wt t) (Bt t) G (delta i) LT 0 * dGdxyz i))).
  { intros t. change (setConnections (upd c p t) net) with (mk t). f_equal. apply sumn_ext. intros i Hi.
    rewrite (ev_DEdG (mk t) G LT (mk_L t) HLT2 (mk_acts t)); rewrite ?mk_N; auto; try lia.
    assert (EY : YY (numNeurons (mk t)) (actFun (mk t)) (net_nrm (mk t)) (weight (mk t)) (bias (mk t)) G (delta i) LT 0
       = YY N act nrm (Wt t) (Bt t) G (delta i) LT 0) by (apply YY_mk; lia).
    rewrite mk_N in EY. rewrite EY. reflexivity. }
  set (T := fun i => TY N act nrm Wt Bt (fun _ => G) (c p) dW dB (fun _ => 0) (delta i) LT 0).
  assert (HD : is_derive (fun t => - sumn (N 0) (fun i => YY N act nrm (Wt t) (Bt t) G (delta i) LT 0 * dGdxyz i)) (c p)
     (- sumn (N 0) (fun i => T i * dGdxyz i))).
  { apply (is_derive_opp (fun t => sumn (N 0) (fun i => YY N act nrm (Wt t) (Bt t) G (delta i) LT 0 * dGdxyz i))).
    apply (is_derive_sumn (N 0) (fun i t => YY N act nrm (Wt t) (Bt t) G (delta i) LT 0 * dGdxyz i) (fun i => T i * dGdxyz i)).
    intros i Hi. apply is_derive_scalR.
    apply (YY_derive N act nrm LT Wt Bt (fun _ => G)); auto; try lia.
    - intros; apply HWt.
    - intros; apply HBt.
    - intros q Hq. apply (is_derive_const (G q) (c p)).
    - intros; apply reg_mk; auto. }
  refine (is_derive_eq _ _ _ _ HD _). clear HD.
  (* the loop *)
  unfold calculateDFdc. cbv zeta.
  set (e := evaluate net0 G).
  set (zb := for_up (numBiases e) (fun i a => upd a i 0) (fun _ => 0)).
  set (dEdb := calculateDEdb e zb).
  assert (Hdb : forall l k, (l < LT)%nat -> (k < N (S l))%nat -> dEdb (biasOnlyOffset e l + k)%nat = ADJ1 net0 G LT (S l) k).
  { intros l k Hl Hk. apply (ev_DEdb net0 G LT net0_L HLT2 net0_acts zb); rewrite ?net0_N; auto.
    intros q. unfold zb. rewrite zero_loop. destruct (Nat.ltb q (numBiases e)); auto. }
  assert (Hnc : numConnections e = block_start N LT).
  { unfold e. rewrite (numConnections_e net0 G LT net0_L HLT2). rewrite net0_N. reflexivity. }
  set (st0 := for_up (numConnections e) (fun i st => (upd (fst st) i 0, upd (snd st) i 0)) (a0, fun _ : nat => 0)).
  assert (Hst0 : forall q, (q < block_start N LT)%nat -> fst st0 q = 0).
  { intros q Hq. unfold st0. rewrite Hnc.
    assert (H : forall n, (forall q, (q < n)%nat -> fst (for_up n (fun i (st : (nat -> R) * (nat -> R)) => (upd (fst st) i 0, upd (snd st) i 0)) (a0, fun _ : nat => 0)) q = 0)).
    { induction n; intros r Hr; [lia|]. cbn [for_up fst]. destruct (Nat.eq_dec r n) as [->|]; [apply upd_same|].
      rewrite upd_other by auto. apply IHn. lia. }
    apply H. auto. }
  assert (EN0 : numNeurons e 0 = N 0) by (unfold e; rewrite (ev_N net0 G), net0_N; auto).
  rewrite EN0. symmetry.
  match goal with |- fst (snd ?X) p = _ => cut ((fun (i : nat) (st : network * ((nat -> R) * (nat -> R))) =>
     same_but_dxdG (fst st) e /\ fst (snd st) p = - sumn i (fun i => T i * dGdxyz i)) (N 0) X) end.
  { intros [_ H]. exact H. }
  apply for_up_inv.
  { split; [apply sbd_refl|]. cbn [fst snd]. rewrite Hst0 by apply p_lt. rewrite sumn_0. ring. }
  intros i [m0 [dF d2]] Hi [Hm0 IH]. cbn [fst snd] in *.
  pose proof (m_e net0 G LT net0_L HLT2 m0 Hm0 i) as Hme.
  split; [exact Hme|].
  assert (Ecm : numConnections (calculateDxdG i m0) = block_start N LT).
  { pose proof (m_shape net0 G LT net0_L HLT2 m0 Hm0 i) as (E1 & E2 & _).
    rewrite numConnections_block by lia. rewrite E1, E2, net0_N. f_equal. lia. }
  assert (Ecm0 : numConnections m0 = block_start N LT).
  { destruct Hm0 as [(E1 & E2 & _) _]. rewrite numConnections_block by (rewrite E1; unfold e; rewrite (ev_L net0 G LT net0_L); lia).
    rewrite E1, E2. unfold e. rewrite (ev_L net0 G LT net0_L), (ev_N net0 G), net0_N. f_equal. lia. }
  rewrite (d2_correct m0 i dEdb _ Hm0 Hi Hdb) || idtac.
  rewrite Ecm.
  assert (Hloop : forall n (f : nat -> R) a, (p < n)%nat -> for_up n (fun j b => upd b j (b j - f j)) a p = a p - f p).
  { intros n f a. induction n; intros Hn; [lia|]. cbn [for_up]. destruct (Nat.eq_dec p n) as [<-|Hne].
    - rewrite upd_same. f_equal.
      assert (H : forall r, (r <= p)%nat -> for_up r (fun j b => upd b j (b j - f j)) a p = a p).
      { induction r; intros Hr; [reflexivity|]. cbn [for_up]. rewrite upd_other by lia. apply IHr. lia. }
      apply H. lia.
    - rewrite upd_other by auto. apply IHn. lia. }
  match goal with |- for_up _ (fun j a => upd a j (a j - ?D j * _)) _ _ = _ => set (dd := D) end.
  rewrite (Hloop _ (fun j => dd j * dGdxyz i)) by apply p_lt.
  rewrite IH, sumn_S. replace (dd p) with (T i); [ring|].
  unfold dd. rewrite (d2_correct m0 i dEdb _ Hm0 Hi Hdb).
  - rewrite Hone, sumn_S, sumn_0. unfold T. ring.
  - intros q Hq. rewrite zero_loop, Ecm0. destruct (Nat.ltb_spec q (block_start N LT)); [auto|lia].
Qed.
End Conn.
