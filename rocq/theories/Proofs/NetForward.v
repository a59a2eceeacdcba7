(** Forward propagation of NeuralNetwork. *)
From Coq Require Import Reals Lra List Arith Lia Bool.
From Coquelicot Require Import Coquelicot.
From Coq Require Import List.
From Verif Require Import Base.RealBase Base.SumR Base.Loop Model.NeuralNetwork Spec.NetworkSpec Proofs.NetLayout.
Import ListNotations.
Local Open Scope R_scope.

Definition act_f (a : activation) (x : R) : R := match activate a x with Some (v, _, _) => v | None => 0 end.
Definition act_df (a : activation) (x : R) : R := match activate a x with Some (_, d, _) => d | None => 0 end.
Definition act_d2 (a : activation) (x : R) : R := match activate a x with Some (_, _, d) => d | None => 0 end.

Lemma for_up_sum n (f : nat -> R) s : for_up n (fun j d => d + f j) s = s + sumn n f.
Proof. induction n; simpl; [rewrite sumn_0; lra|]. rewrite IHn, sumn_S. lra. Qed.

(** Derivatives of the activation functions. *)
Lemma open_ext_derive (f g : R -> R) x d (P : R -> Prop) : open P -> P x -> (forall y, P y -> f y = g y) ->
  is_derive g x d -> is_derive f x d.
Proof.
  intros HO Hx He Hg. apply (is_derive_ext_loc g); auto.
  destruct (HO x Hx) as [e He']. exists e. intros y Hy. symmetry. apply He. apply He'. exact Hy.
Qed.
Lemma open_gt' a : open (fun y : R => a < y).
Proof. apply open_gt. Qed.
Lemma open_lt' a : open (fun y : R => y < a).
Proof. apply open_lt. Qed.
Lemma open_between a b : open (fun y : R => a < y /\ y < b).
Proof. apply open_and; [apply open_gt|apply open_lt]. Qed.

Lemma logistic_derive x : is_derive (fun y => 1 / (1 + exp (- y))) x
   (1 / (1 + exp (- x)) * (1 - 1 / (1 + exp (- x)))).
Proof.
  assert (He : 0 < exp (- x)) by apply exp_pos.
  auto_derive; [lra|]. field. lra.
Qed.
Lemma logistic_derive2 x : is_derive (fun y => 1 / (1 + exp (- y)) * (1 - 1 / (1 + exp (- y)))) x
   (1 / (1 + exp (- x)) * (1 - 1 / (1 + exp (- x))) * (1 - 2 * (1 / (1 + exp (- x))))).
Proof.
  assert (He : 0 < exp (- x)) by apply exp_pos.
  auto_derive; [lra|]. field. lra.
Qed.

Lemma act_derive a x : regular a x -> is_derive (act_f a) x (act_df a x).
Proof.
  destruct a; unfold regular, act_f, act_df, activate, EXP_LIMIT; cbv zeta; intros H; try contradiction.
  - apply (is_derive_id x).
  - exact (is_derive_tanh x).
  - destruct H as [H1 H2].
    destruct (Rlt_dec 35 x) as [Hg|Hg].
    { apply (open_ext_derive _ (fun _ => 1) x 0 (fun y => 35 < y)); auto using open_gt'.
      - intros y Hy. destruct (Rlt_dec 35 y); [auto|contradiction].
      - apply (is_derive_const 1 x). }
    destruct (Rlt_dec x (-(35))) as [Hl|Hl].
    { apply (open_ext_derive _ (fun _ => 0) x 0 (fun y => y < -(35))); auto using open_lt'.
      - intros y Hy. destruct (Rlt_dec 35 y); [lra|]. destruct (Rlt_dec y (-(35))); [auto|contradiction].
      - apply (is_derive_const 0 x). }
    apply (open_ext_derive _ (fun y => 1 / (1 + exp (- y))) x _ (fun y => -(35) < y /\ y < 35)); [apply open_between|lra| |].
    + intros y Hy. destruct (Rlt_dec 35 y); [lra|]. destruct (Rlt_dec y (-(35))); [lra|auto].
    + apply logistic_derive.
  - destruct H as [H1 H2].
    destruct (Rlt_dec 35 x) as [Hg|Hg].
    { apply (open_ext_derive _ (fun y => y) x 1 (fun y => 35 < y)); auto using open_gt'.
      - intros y Hy. destruct (Rlt_dec 35 y); [auto|contradiction].
      - apply (is_derive_id x). }
    destruct (Rlt_dec x (-(35))) as [Hl|Hl].
    { apply (open_ext_derive _ (fun _ => 0) x 0 (fun y => y < -(35))); auto using open_lt'.
      - intros y Hy. destruct (Rlt_dec 35 y); [lra|]. destruct (Rlt_dec y (-(35))); [auto|contradiction].
      - apply (is_derive_const 0 x). }
    apply (open_ext_derive _ (fun y => ln (1 + exp y)) x _ (fun y => -(35) < y /\ y < 35)); [apply open_between|lra| |].
    + intros y Hy. destruct (Rlt_dec 35 y); [lra|]. destruct (Rlt_dec y (-(35))); [lra|auto].
    + assert (He : 0 < exp x) by apply exp_pos. auto_derive; [lra|]. field. lra.
  - destruct (Rlt_dec 0 x) as [Hg|Hg].
    { apply (open_ext_derive _ (fun y => y) x 1 (fun y => 0 < y)); auto using open_gt'.
      - intros y Hy. destruct (Rlt_dec 0 y); [auto|contradiction].
      - apply (is_derive_id x). }
    apply (open_ext_derive _ (fun y => 0) x 0 (fun y => y < 0)); [apply open_lt'|lra| |].
    + intros y Hy. destruct (Rlt_dec 0 y); [lra|auto].
    + apply (is_derive_const 0 x).
  - auto_derive; [auto|]. ring_simplify. field.
  - auto_derive; [auto|]. ring.
  - assert (He : 0 < exp (- x)) by apply exp_pos. auto_derive; [lra|]. field. lra.
  - auto_derive; [auto|]. ring.
  - auto_derive; [auto|]. ring.
Qed.
Lemma act_derive2 a x : regular a x -> is_derive (act_df a) x (act_d2 a x).
Proof.
  destruct a; unfold regular, act_df, act_d2, activate, EXP_LIMIT; cbv zeta; intros H; try contradiction.
  - apply (is_derive_const 1 x).
  - assert (HD : is_derive (fun y => 1 - tanh y * tanh y) x
                  (0 - ((1 - tanh x * tanh x) * tanh x + tanh x * (1 - tanh x * tanh x)))).
    { apply (is_derive_minus (fun _ => 1) (fun y => tanh y * tanh y)); [apply (is_derive_const 1 x)|].
      apply (is_derive_mult tanh tanh x); try apply is_derive_tanh. intros; apply Rmult_comm. }
    refine (is_derive_eq _ _ _ _ HD _).
    ring.
  - destruct H as [H1 H2].
    destruct (Rlt_dec 35 x) as [Hg|Hg].
    { apply (open_ext_derive _ (fun _ => 0) x 0 (fun y => 35 < y)); auto using open_gt'.
      - intros y Hy. destruct (Rlt_dec 35 y); [auto|contradiction].
      - apply (is_derive_const 0 x). }
    destruct (Rlt_dec x (-(35))) as [Hl|Hl].
    { apply (open_ext_derive _ (fun _ => 0) x 0 (fun y => y < -(35))); auto using open_lt'.
      - intros y Hy. destruct (Rlt_dec 35 y); [lra|]. destruct (Rlt_dec y (-(35))); [auto|contradiction].
      - apply (is_derive_const 0 x). }
    apply (open_ext_derive _ (fun y => 1 / (1 + exp (- y)) * (1 - 1 / (1 + exp (- y)))) x _ (fun y => -(35) < y /\ y < 35)); [apply open_between|lra| |].
    + intros y Hy. destruct (Rlt_dec 35 y); [lra|]. destruct (Rlt_dec y (-(35))); [lra|auto].
    + apply logistic_derive2.
  - destruct H as [H1 H2].
    destruct (Rlt_dec 35 x) as [Hg|Hg].
    { apply (open_ext_derive _ (fun _ => 1) x 0 (fun y => 35 < y)); auto using open_gt'.
      - intros y Hy. destruct (Rlt_dec 35 y); [auto|contradiction].
      - apply (is_derive_const 1 x). }
    destruct (Rlt_dec x (-(35))) as [Hl|Hl].
    { apply (open_ext_derive _ (fun _ => 0) x 0 (fun y => y < -(35))); auto using open_lt'.
      - intros y Hy. destruct (Rlt_dec 35 y); [lra|]. destruct (Rlt_dec y (-(35))); [auto|contradiction].
      - apply (is_derive_const 0 x). }
    apply (open_ext_derive _ (fun y => 1 / (1 + 1 / exp y)) x _ (fun y => -(35) < y /\ y < 35)); [apply open_between|lra| |].
    + intros y Hy. destruct (Rlt_dec 35 y); [lra|]. destruct (Rlt_dec y (-(35))); [lra|auto].
    + assert (He : 0 < exp x) by apply exp_pos. assert (0 < / exp x) by (apply Rinv_0_lt_compat; auto).
      auto_derive.
      * unfold Rdiv. split; [lra|]. split; [lra|auto].
      * field. lra.
  - destruct (Rlt_dec 0 x) as [Hg|Hg].
    { apply (open_ext_derive _ (fun y => 1) x 0 (fun y => 0 < y)); auto using open_gt'.
      - intros y Hy. destruct (Rlt_dec 0 y); [auto|contradiction].
      - apply (is_derive_const 1 x). }
    apply (open_ext_derive _ (fun y => 0) x 0 (fun y => y < 0)); [apply open_lt'|lra| |].
    + intros y Hy. destruct (Rlt_dec 0 y); [lra|auto].
    + apply (is_derive_const 0 x).
  - auto_derive; [auto|]. ring_simplify. field.
  - auto_derive; [auto|]. ring.
  - assert (He : 0 < exp (- x)) by apply exp_pos. auto_derive; [lra|]. field. lra.
  - auto_derive; [auto|]. ring.
  - auto_derive; [auto|]. ring.
Qed.

(** Outside the clamped region the code computes the documented functions. *)
Lemma act_documented a x : unclamped a x -> act_f a x = documented_activation a x.
Proof.
  destruct a; unfold unclamped, act_f, activate, documented_activation, EXP_LIMIT; cbv zeta; intros H; try contradiction; auto.
  - destruct (Rlt_dec 35 x); [lra|]. destruct (Rlt_dec x (-(35))); [lra|auto].
  - destruct (Rlt_dec 35 x); [lra|]. destruct (Rlt_dec x (-(35))); [lra|auto].
  - unfold Rmax. destruct (Rlt_dec 0 x), (Rle_dec 0 x); lra.
  - f_equal. field.
Qed.
Lemma activate_some a x : a <> AF_UNSET -> activate a x = Some (act_f a x, act_df a x, act_d2 a x).
Proof.
  intros H. destruct a; try contradiction; unfold act_f, act_df, act_d2, activate; cbv zeta; auto;
    repeat match goal with |- context [Rlt_dec ?u ?v] => destruct (Rlt_dec u v) end; auto.
Qed.

(** One layer. *)
Definition preact (net : network) (i k : nat) : R :=
  let d := sumn (prevNeurons net i) (fun j => n_weights (neurons net i k) j * n_value (neurons net (i - 1) j))
           + n_bias (neurons net i k) in
  if normalizeNeurons net then d / INR (prevNeurons net i) else d.
Definition new_neuron (net : network) (i k : nat) : neuron :=
  let x := preact net i k in
  let n := with_x x (neurons net i k) in
  let n := match activate (actFun net i) x with Some (v, d, d2) => with_act v d d2 n | None => n end in
  with_stats (n_x n) n.

Lemma propagateLayer_spec i net : (1 <= i)%nat ->
  same_shape (propagateLayer i net) net /\
  (forall l, l <> i -> neurons (propagateLayer i net) l = neurons net l) /\
  (forall k, (k < numNeurons net i)%nat -> neurons (propagateLayer i net) i k = new_neuron net i k) /\
  (forall k, (numNeurons net i <= k)%nat -> neurons (propagateLayer i net) i k = neurons net i k).
Proof.
  intros Hi. unfold propagateLayer.
  match goal with |- context [for_up _ ?F _] => set (body := F) end.
  apply (for_up_inv (fun k' s => same_shape s net /\
    (forall l, l <> i -> neurons s l = neurons net l) /\
    (forall k, (k < k')%nat -> neurons s i k = new_neuron net i k) /\
    (forall k, (k' <= k)%nat -> neurons s i k = neurons net i k))).
  - split; [apply same_shape_refl|]. repeat split; auto; intros; lia.
  - intros k s Hk (S1 & S2 & S3 & S4). unfold body.
    destruct S1 as (E1 & E2 & E3 & E4).
    split; [apply same_shape_set; repeat split; auto|].
    split. { intros l Hl. rewrite <- S2 by auto. simpl. now rewrite upd_other. }
    split.
    + intros k' Hk'. destruct (Nat.eq_dec k' k) as [->|Hne].
      * rewrite set_neuron_same. rewrite for_up_sum, Rplus_0_l. rewrite (S4 k) by lia.
        rewrite (S2 (i - 1)%nat) by lia. unfold new_neuron, preact, prevNeurons. rewrite E2, E3, E4. reflexivity.
      * rewrite set_neuron_other by auto. apply S3. lia.
    + intros k' Hk'. rewrite set_neuron_other by lia. apply S4. lia.
Qed.

Lemma setInput_spec G net :
  same_shape (setInput G net) net /\
  (forall l, l <> O -> neurons (setInput G net) l = neurons net l) /\
  (forall k, (k < numNeurons net 0)%nat ->
     neurons (setInput G net) O k = with_stats (G k) (with_value (G k) (neurons net O k))) /\
  (forall k, (numNeurons net 0 <= k)%nat -> neurons (setInput G net) O k = neurons net O k).
Proof.
  unfold setInput.
  apply (for_up_inv (fun k' s => same_shape s net /\
    (forall l, l <> O -> neurons s l = neurons net l) /\
    (forall k, (k < k')%nat -> neurons s O k = with_stats (G k) (with_value (G k) (neurons net O k))) /\
    (forall k, (k' <= k)%nat -> neurons s O k = neurons net O k))).
  - split; [apply same_shape_refl|]. repeat split; auto; intros; lia.
  - intros k s Hk (S1 & S2 & S3 & S4). unfold setInput1.
    split; [apply same_shape_set; auto|].
    split. { intros l Hl. rewrite <- S2 by auto. simpl. now rewrite upd_other. }
    split.
    + intros k' Hk'. destruct (Nat.eq_dec k' k) as [->|Hne].
      * rewrite set_neuron_same. now rewrite (S4 k) by lia.
      * rewrite set_neuron_other by auto. apply S3. lia.
    + intros k' Hk'. rewrite set_neuron_other by lia. apply S4. lia.
Qed.

(** The ideal network described by weights W (layer, source, target) etc. *)
Section Ideal.
Variable N : nat -> nat.
Variable act : nat -> activation.
Variable nrm : nat -> R.   (* 1 or 1/N(l-1) *)
Variable W : nat -> nat -> nat -> R.
Variable B : nat -> nat -> R.
Variable G : nat -> R.
Fixpoint VAL (l k : nat) : R :=
  match l with O => G k | S m => act_f (act (S m)) ((sumn (N m) (fun j => W m j k * VAL m j) + B m k) * nrm (S m)) end.
Definition PRE (l k : nat) : R :=
  (sumn (N (l - 1)) (fun j => W (l - 1) j k * VAL (l - 1) j) + B (l - 1)%nat k) * nrm l.
Lemma VAL_S m k : VAL (S m) k = act_f (act (S m)) (PRE (S m) k).
Proof. simpl. unfold PRE. rewrite Nat.sub_1_r. reflexivity. Qed.
Lemma PRE_S m k : PRE (S m) k = (sumn (N m) (fun j => W m j k * VAL m j) + B m k) * nrm (S m).
Proof. unfold PRE. rewrite Nat.sub_1_r. reflexivity. Qed.
End Ideal.

Definition net_nrm (net : network) (l : nat) : R :=
  if normalizeNeurons net then / INR (numNeurons net (l - 1)) else 1.
Definition acts_set (net : network) : Prop :=
  forall l, (1 <= l < numLayers net)%nat -> actFun net l <> AF_UNSET.

Lemma evaluate_spec net G : (1 <= numLayers net)%nat -> acts_set net ->
  let e := evaluate net G in
  let V := VAL (numNeurons net) (actFun net) (net_nrm net) (weight net) (bias net) G in
  let P := PRE (numNeurons net) (actFun net) (net_nrm net) (weight net) (bias net) G in
  same_shape e net /\
  (forall l j k, weight e l j k = weight net l j k) /\ (forall l k, bias e l k = bias net l k) /\
  (forall l k, (l < numLayers net)%nat -> (k < numNeurons net l)%nat -> n_value (neurons e l k) = V l k) /\
  (forall l k, (1 <= l < numLayers net)%nat -> (k < numNeurons net l)%nat ->
     n_x (neurons e l k) = P l k /\ n_dfdx (neurons e l k) = act_df (actFun net l) (P l k) /\
     n_d2fdx2 (neurons e l k) = act_d2 (actFun net l) (P l k)).
Proof.
  intros HL Hact e V P. unfold e, evaluate, propagate.
  destruct (setInput_spec G net) as (I1 & I2 & I3 & I4).
  set (s0 := setInput G net) in *.
  destruct I1 as (E1 & E2 & E3 & E4). rewrite E1.
  cut (let s := for_range 1 (numLayers net) propagateLayer s0 in
    same_shape s net /\ (forall l j k, weight s l j k = weight net l j k) /\ (forall l k, bias s l k = bias net l k) /\
    (forall l k, (l < numLayers net)%nat -> (k < numNeurons net l)%nat -> n_value (neurons s l k) = V l k) /\
    (forall l k, (1 <= l < numLayers net)%nat -> (k < numNeurons net l)%nat ->
     n_x (neurons s l k) = P l k /\ n_dfdx (neurons s l k) = act_df (actFun net l) (P l k) /\
     n_d2fdx2 (neurons s l k) = act_d2 (actFun net l) (P l k))).
  { intros (?&?&?&?&?). auto 10. }
  apply (for_range_inv (fun i s => same_shape s net /\
    (forall l j k, weight s l j k = weight net l j k) /\ (forall l k, bias s l k = bias net l k) /\
    (forall l k, (l < i)%nat -> (k < numNeurons net l)%nat -> n_value (neurons s l k) = V l k) /\
    (forall l k, (1 <= l < i)%nat -> (k < numNeurons net l)%nat ->
     n_x (neurons s l k) = P l k /\ n_dfdx (neurons s l k) = act_df (actFun net l) (P l k) /\
     n_d2fdx2 (neurons s l k) = act_d2 (actFun net l) (P l k)))).
  - auto.
  - split; [repeat split; auto|]. split; [intros; unfold weight; now rewrite I2 by auto|].
    split; [intros; unfold bias; now rewrite I2 by auto|]. split; [|intros; lia].
    intros l k Hl Hk. assert (l = O) by lia. subst l. rewrite I3 by auto. reflexivity.
  - intros i s Hi (S1 & S2 & S3 & S4 & S5).
    destruct (propagateLayer_spec i s ltac:(lia)) as (Q1 & Q2 & Q3 & Q4).
    destruct S1 as (F1 & F2 & F3 & F4).
    destruct i as [|i]; [lia|].
    assert (Hnew : forall k, (k < numNeurons net (S i))%nat -> preact s (S i) k = P (S i) k).
    { intros k Hk. unfold preact, P. rewrite PRE_S. unfold prevNeurons. rewrite F2, F4.
      replace (S i - 1)%nat with i by lia.
      replace (sumn (numNeurons net i) (fun j => n_weights (neurons s (S i) k) j * n_value (neurons s i j)))
        with (sumn (numNeurons net i) (fun j => weight net i j k *
            VAL (numNeurons net) (actFun net) (net_nrm net) (weight net) (bias net) G i j)).
      2:{ apply sumn_ext. intros j Hj. rewrite S4 by (auto; lia). rewrite <- S2. reflexivity. }
      change (n_bias (neurons s (S i) k)) with (bias s i k). rewrite S3. unfold net_nrm.
      replace (S i - 1)%nat with i by lia.
      destruct (normalizeNeurons net); unfold Rdiv; ring. }
    assert (Hnn : forall k, (k < numNeurons net (S i))%nat ->
       n_x (new_neuron s (S i) k) = P (S i) k /\ n_value (new_neuron s (S i) k) = V (S i) k /\
       n_dfdx (new_neuron s (S i) k) = act_df (actFun net (S i)) (P (S i) k) /\
       n_d2fdx2 (new_neuron s (S i) k) = act_d2 (actFun net (S i)) (P (S i) k)).
    { intros k Hk. unfold new_neuron. rewrite F3, Hnew by auto. rewrite activate_some by (apply Hact; lia).
      simpl. unfold V, P. rewrite <- VAL_S. auto. }
    assert (Hkeep : forall l k, n_weights (neurons (propagateLayer (S i) s) l k) = n_weights (neurons s l k) /\
       n_bias (neurons (propagateLayer (S i) s) l k) = n_bias (neurons s l k)).
    { intros l k. destruct (Nat.eq_dec l (S i)) as [->|Hl]; [|now rewrite Q2 by auto].
      destruct (Nat.lt_ge_cases k (numNeurons s (S i))) as [Hk|Hk]; [|now rewrite Q4 by auto].
      rewrite Q3 by auto. unfold new_neuron.
      destruct (activate (actFun s (S i)) (preact s (S i) k)) as [[[? ?] ?]|]; auto. }
    split; [eapply same_shape_trans; [exact Q1|repeat split; auto]|].
    split; [intros; unfold weight; rewrite (proj1 (Hkeep _ _)); apply S2|].
    split; [intros; unfold bias; rewrite (proj2 (Hkeep _ _)); apply S3|].
    split.
    + intros l k Hl Hk. destruct (Nat.eq_dec l (S i)) as [->|Hne].
      * rewrite Q3 by (rewrite F2; auto). apply Hnn; auto.
      * rewrite Q2 by auto. apply S4; auto; lia.
    + intros l k Hl Hk. destruct (Nat.eq_dec l (S i)) as [->|Hne].
      * rewrite Q3 by (rewrite F2; auto). destruct (Hnn k Hk) as (?&?&?&?). auto.
      * rewrite Q2 by auto. apply S5; auto; lia.
Qed.
