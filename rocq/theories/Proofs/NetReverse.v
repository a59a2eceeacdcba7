(** The reverse sweeps of NeuralNetwork: which number ends up at which position
    of the output arrays. *)
From Coq Require Import Reals Lra List Arith Lia Bool FunctionalExtensionality.
From Verif Require Import Base.SumR Base.Loop Model.NeuralNetwork Spec.NetworkSpec
  Proofs.NetLayout.
Import ListNotations.
Local Open Scope R_scope.

(** Common shape of calculateDEdc and calculateD2EdGdc. *)
Definition rev_loop (net : network) (wf bf : nat -> nat -> nat -> R -> R) (a : nat -> R) : nat -> R :=
  for_down (numLayers net - 1) (fun i a =>
    snd (for_up (numNeurons net i) (fun j st =>
      let st := for_up (numNeurons net (i + 1)) (fun k st =>
        let (count, a) := (st : nat * (nat -> R)) in
        let a := upd a (weightOffset net i + count) (wf i j k (a (biasOffset net i + k)%nat)) in
        let count := S count in
        let a := if Nat.leb 1 i
                 then upd a (biasOffset net (i - 1) + j)
                        (a (biasOffset net (i - 1) + j)%nat + bf i j k (a (biasOffset net i + k)%nat))
                 else a in
        (count, a)) st in
      let (count, a) := st in
      (count, if (normalizeNeurons net && Nat.leb 1 i)%bool
              then upd a (biasOffset net (i - 1) + j)
                     (a (biasOffset net (i - 1) + j)%nat / INR (prevNeurons net i))
              else a)) (0%nat, a))) a.

Section Rev.
Variable net : network.
Let N := numNeurons net.
Variable LT : nat.
Hypothesis HLT : numLayers net = S LT.
Hypothesis HLT1 : (1 <= LT)%nat.
Variable wf bf : nat -> nat -> nat -> R -> R.
Variable ADJ : nat -> nat -> R.
Definition nrmR (l : nat) : R := if normalizeNeurons net then / INR (N (l - 1)) else 1.
Hypothesis ADJ_step : forall l j, (1 <= l < LT)%nat -> (j < N l)%nat ->
  ADJ l j = sumn (N (S l)) (fun k => bf l j k (ADJ (S l) k)) * nrmR l.

Definition untouched (i q : nat) : Prop :=
  ~ (block_start N i <= q < block_start N i + N i * N (S i))%nat /\
  ((1 <= i)%nat -> ~ (exists j, (j < N i)%nat /\ q = bias_position N (i - 1) j)).

Definition outer_inv (i : nat) (a0 : nat -> R) (j : nat) (st : nat * (nat -> R)) : Prop :=
  fst st = (j * N (S i))%nat /\
  (forall q, untouched i q -> snd st q = a0 q) /\
  (forall j' k, (j' < j)%nat -> (k < N (S i))%nat -> snd st (weight_position N i j' k) = wf i j' k (ADJ (S i) k)) /\
  ((1 <= i)%nat -> (forall j', (j' < j)%nat -> snd st (bias_position N (i - 1) j') = ADJ i j') /\
                   (forall j', (j <= j' < N i)%nat -> snd st (bias_position N (i - 1) j') = 0)).

Lemma bias_untouched i k : (k < N (S i))%nat -> untouched i (bias_position N i k).
Proof.
  intros Hk. pose proof (bias_bounds net i k Hk) as Hb. fold N in Hb. split; [lia|].
  intros Hi (j & Hj & E). replace (N i) with (N (S (i - 1))) in Hj by (f_equal; lia).
  apply (bias_position_inj net) in E; auto. lia.
Qed.
Lemma bias_prev_not_weight i j k j' : (1 <= i)%nat -> (j < N i)%nat -> (k < N (S i))%nat -> (j' < N i)%nat ->
  weight_position N i j k <> bias_position N (i - 1) j'.
Proof.
  intros Hi Hj Hk Hj'. apply (weight_bias_disjoint net); auto.
  fold N. replace (S (i - 1)) with i by lia. auto.
Qed.
Lemma bias_prev_not_bias i k j' : (1 <= i)%nat -> (k < N (S i))%nat -> (j' < N i)%nat ->
  bias_position N i k <> bias_position N (i - 1) j'.
Proof.
  intros Hi Hk Hj' E. apply (bias_position_inj net) in E; auto; [lia|].
  fold N. replace (S (i - 1)) with i by lia. auto.
Qed.

Lemma layer_step i a0 : (i < LT)%nat ->
  (forall k, (k < N (S i))%nat -> a0 (bias_position N i k) = ADJ (S i) k) ->
  ((1 <= i)%nat -> forall j, (j < N i)%nat -> a0 (bias_position N (i - 1) j) = 0) ->
  let res := snd (for_up (numNeurons net i) (fun j st =>
      let st := for_up (numNeurons net (i + 1)) (fun k st =>
        let (count, a) := (st : nat * (nat -> R)) in
        let a := upd a (weightOffset net i + count) (wf i j k (a (biasOffset net i + k)%nat)) in
        let count := S count in
        let a := if Nat.leb 1 i
                 then upd a (biasOffset net (i - 1) + j)
                        (a (biasOffset net (i - 1) + j)%nat + bf i j k (a (biasOffset net i + k)%nat))
                 else a in
        (count, a)) st in
      let (count, a) := st in
      (count, if (normalizeNeurons net && Nat.leb 1 i)%bool
              then upd a (biasOffset net (i - 1) + j)
                     (a (biasOffset net (i - 1) + j)%nat / INR (prevNeurons net i))
              else a)) (0%nat, a0)) in
  (forall q, untouched i q -> res q = a0 q) /\
  (forall j k, (j < N i)%nat -> (k < N (S i))%nat -> res (weight_position N i j k) = wf i j k (ADJ (S i) k)) /\
  ((1 <= i)%nat -> forall j, (j < N i)%nat -> res (bias_position N (i - 1) j) = ADJ i j).
Proof.
  intros Hi Ha Hz.
  match goal with |- let res := snd ?X in _ => cut (outer_inv i a0 (N i) X) end.
  { intros (_ & A & B & C) res. split; [exact A|]. split; [intros; apply B; auto|]. intros H1 j Hj. apply C; auto. }
  apply (for_up_inv (outer_inv i a0)).
  { split; [reflexivity|]. split; [auto|]. split; [intros; lia|]. intros H1; split; intros; [lia|apply Hz; auto; lia]. }
  intros j st Hj (O1 & O2 & O3 & O4). fold N in Hj.
  rewrite Nat.add_1_r. fold N. rewrite weightOffset_block. fold N.
  rewrite (biasOffset_block net i). fold N.
  set (inner := fun (k : nat) (s : nat * (nat -> R)) =>
    fst s = (j * N (S i) + k)%nat /\
    (forall q, untouched i q -> snd s q = a0 q) /\
    (forall j' k', (j' < j)%nat -> (k' < N (S i))%nat -> snd s (weight_position N i j' k') = wf i j' k' (ADJ (S i) k')) /\
    (forall k', (k' < k)%nat -> snd s (weight_position N i j k') = wf i j k' (ADJ (S i) k')) /\
    ((1 <= i)%nat -> (forall j', (j' < j)%nat -> snd s (bias_position N (i - 1) j') = ADJ i j') /\
       snd s (bias_position N (i - 1) j) = sumn k (fun k => bf i j k (ADJ (S i) k)) /\
       (forall j', (j < j' < N i)%nat -> snd s (bias_position N (i - 1) j') = 0))).
  cbv zeta.
  match goal with |- outer_inv _ _ _ (let (_, _) := ?X in _) => assert (HI : inner (N (S i)) X) end.
  { apply (for_up_inv inner).
    { unfold inner. split; [lia|]. split; [auto|]. split; [auto|]. split; [intros; lia|].
      intros H1. destruct (O4 H1) as [P1 P2]. split; [auto|]. split; [rewrite sumn_0; apply P2; lia|].
      intros; apply P2; lia. }
    intros k [cnt a] Hk (I1 & I2 & I3 & I4 & I5). cbn [fst snd] in *. subst cnt.
    (* positions *)
    assert (Ew : (block_start N i + (j * N (S i) + k))%nat = weight_position N i j k) by (unfold weight_position; lia).
    rewrite Ew. change (block_start N i + N i * N (S i) + k)%nat with (bias_position N i k).
    assert (Hrd : a (bias_position N i k) = ADJ (S i) k).
    { rewrite I2 by (apply bias_untouched; auto). apply Ha; auto. }
    assert (Hne : bias_position N i k <> weight_position N i j k).
    { intros E. symmetry in E. revert E. apply (weight_bias_disjoint net); auto. }
    rewrite (upd_other _ _ _ _ Hne), Hrd.
    set (a1 := upd a (weight_position N i j k) (wf i j k (ADJ (S i) k))).
    assert (Hwu : forall q, untouched i q -> q <> weight_position N i j k).
    { intros q [Hq _] E. subst q. pose proof (weight_bounds net i j k Hj Hk) as Hb. fold N in Hb. lia. }
    unfold inner; cbn [fst snd].
    destruct (Nat.leb_spec 1 i) as [H1|H1].
    - rewrite (biasOffset_block net (i - 1)). fold N. replace (S (i - 1)) with i by lia.
      assert (Eb : (block_start N (i - 1) + N (i - 1) * N i + j)%nat = bias_position N (i - 1) j)
        by (unfold bias_position; replace (S (i - 1)) with i by lia; lia).
      rewrite Eb.
      assert (Hbw : forall j' k' j'', (j' < N i)%nat -> (k' < N (S i))%nat -> (j'' < N i)%nat -> weight_position N i j' k' <> bias_position N (i - 1) j'')
        by (intros; apply bias_prev_not_weight; auto).
      assert (Hbinj : forall j', (j' < N i)%nat -> bias_position N (i - 1) j' = bias_position N (i - 1) j -> j' = j)
        by (intros j' Hj' E; unfold bias_position in E; lia).
      assert (Hbu : forall q, untouched i q -> q <> bias_position N (i - 1) j).
      { intros q [_ Hq] E. apply (Hq H1). exists j. auto. }
      destruct (I5 H1) as (P1 & P2 & P3).
      assert (Ha1b : forall j', (j' < N i)%nat -> a1 (bias_position N (i - 1) j') = a (bias_position N (i - 1) j')).
      { intros j' Hj'. unfold a1. apply upd_other. intros E. symmetry in E. revert E. apply Hbw; auto. }
      split; [lia|].
      split. { intros q Hq. rewrite upd_other by auto. unfold a1. rewrite upd_other by auto. auto. }
      split. { intros j' k' Hj' Hk'. rewrite upd_other by (apply Hbw; auto; lia).
        unfold a1. rewrite upd_other; [auto|]. intros E. apply (weight_position_inj net) in E; auto; [lia|]. unfold N in *; lia. }
      split. { intros k' Hk'. rewrite upd_other by (apply Hbw; auto; lia).
        unfold a1. destruct (Nat.eq_dec k' k) as [->|Hne']; [now rewrite upd_same|].
        rewrite upd_other; [apply I4; lia|]. intros E. unfold weight_position in E. lia. }
      intros _. split. { intros j' Hj'. rewrite upd_other by (intros E; apply Hbinj in E; lia).
        rewrite Ha1b by lia. auto. }
      split. { rewrite upd_same, Ha1b by auto. rewrite P2, sumn_S. reflexivity. }
      intros j' Hj'. rewrite upd_other by (intros E; apply Hbinj in E; lia). rewrite Ha1b by lia. auto.
    - split; [lia|].
      split. { intros q Hq. unfold a1. rewrite upd_other by auto. auto. }
      split. { intros j' k' Hj' Hk'. unfold a1. rewrite upd_other; [auto|].
        intros E. apply (weight_position_inj net) in E; auto; [lia|]. unfold N in *; lia. }
      split. { intros k' Hk'. unfold a1. destruct (Nat.eq_dec k' k) as [->|Hne']; [now rewrite upd_same|].
        rewrite upd_other; [apply I4; lia|]. intros E. unfold weight_position in E. lia. }
      intros; lia. }
  revert HI. match goal with |- inner _ ?X -> _ => destruct X as [cnt a] end.
  intros (I1 & I2 & I3 & I4 & I5). cbn [fst snd] in *.
  unfold outer_inv; cbn [fst snd]. split; [rewrite I1; simpl; lia|].
  destruct (Nat.leb_spec 1 i) as [H1|H1]; [|rewrite andb_false_r].
  2:{ split; [auto|]. split.
      - intros j' k Hj' Hk. destruct (Nat.eq_dec j' j) as [->|]; [apply I4; auto|apply I3; auto; lia].
      - intros; lia. }
  rewrite andb_true_r.
  destruct (I5 H1) as (P1 & P2 & P3).
  assert (Hfin : ADJ i j = a (bias_position N (i - 1) j) * nrmR i).
  { rewrite ADJ_step by (auto; lia). now rewrite P2. }
  rewrite (biasOffset_block net (i - 1)). fold N. replace (S (i - 1)) with i by lia.
  assert (Eb : (block_start N (i - 1) + N (i - 1) * N i + j)%nat = bias_position N (i - 1) j)
    by (unfold bias_position; replace (S (i - 1)) with i by lia; lia).
  rewrite Eb.
  destruct (normalizeNeurons net) eqn:En.
  - split. { intros q [Hq1 Hq2]. rewrite upd_other; [apply I2; split; auto|].
      intros E. apply (Hq2 H1). exists j; auto. }
    split. { intros j' k Hj' Hk. rewrite upd_other by (apply bias_prev_not_weight; auto; lia).
      destruct (Nat.eq_dec j' j) as [->|]; [apply I4; auto|apply I3; auto; lia]. }
    intros _. split.
    + intros j' Hj'. destruct (Nat.eq_dec j' j) as [->|Hne].
      * rewrite upd_same, Hfin. unfold nrmR. rewrite En. reflexivity.
      * rewrite upd_other by (unfold bias_position; lia). apply P1; lia.
    + intros j' Hj'. rewrite upd_other by (unfold bias_position; lia). apply P3; lia.
  - split; [auto|]. split.
    { intros j' k Hj' Hk. destruct (Nat.eq_dec j' j) as [->|]; [apply I4; auto|apply I3; auto; lia]. }
    intros _. split.
    + intros j' Hj'. destruct (Nat.eq_dec j' j) as [->|Hne]; [|apply P1; lia].
      rewrite Hfin. unfold nrmR. rewrite En. ring.
    + intros j' Hj'. apply P3; lia.
Qed.

Lemma rev_loop_spec a0 :
  (forall k, (k < N LT)%nat -> a0 (bias_position N (LT - 1) k) = ADJ LT k) ->
  (forall l k, (S l < LT)%nat -> (k < N (S l))%nat -> a0 (bias_position N l k) = 0) ->
  let res := rev_loop net wf bf a0 in
  (forall l k, (l < LT)%nat -> (k < N (S l))%nat -> res (bias_position N l k) = ADJ (S l) k) /\
  (forall l j k, (l < LT)%nat -> (j < N l)%nat -> (k < N (S l))%nat ->
     res (weight_position N l j k) = wf l j k (ADJ (S l) k)).
Proof.
  intros Htop Hz.
  assert (EL : (numLayers net - 1)%nat = LT) by lia.
  match goal with |- let res := ?X in _ => cut ((fun (i : nat) (a : nat -> R) =>
     (forall l k, (i <= S l)%nat -> (l < LT)%nat -> (k < N (S l))%nat -> a (bias_position N l k) = ADJ (S l) k) /\
     (forall l k, (S l < i)%nat -> (l < LT)%nat -> (k < N (S l))%nat -> a (bias_position N l k) = 0) /\
     (forall l j k, (i <= l < LT)%nat -> (j < N l)%nat -> (k < N (S l))%nat ->
        a (weight_position N l j k) = wf l j k (ADJ (S l) k))) 0%nat X) end.
  { intros (A & _ & C). split; intros; [apply A|apply C]; auto; lia. }
  unfold rev_loop. rewrite EL. apply for_down_inv.
  { split; [|split].
    - intros l k Hl1 Hl2 Hk. assert (l = LT - 1)%nat by lia. subst l.
      replace (S (LT - 1)) with LT in * by lia. apply Htop; auto.
    - intros; apply Hz; auto.
    - intros; lia. }
  intros i a Hi (A1 & A2 & A3).
  destruct (layer_step i a Hi) as (R1 & R2 & R3).
  { intros k Hk. apply A1; auto. }
  { intros H1 j Hj. apply A2; [lia|lia|]. replace (S (i - 1)) with i by lia. auto. }
  cbv beta zeta in R1, R2, R3 |- *. revert R1 R2 R3.
  match goal with |- (forall q, _ -> ?X q = _) -> _ => generalize X end. intros r R1 R2 R3.
  assert (Hub : forall l k, (l < LT)%nat -> (k < N (S l))%nat -> S l <> i -> untouched i (bias_position N l k)).
  { intros l k Hl Hk Hne. split.
    - destruct (Nat.eq_dec l i) as [->|Hli].
      + pose proof (bias_bounds net i k Hk) as Hb. fold N in Hb. lia.
      + pose proof (bias_in_block net l k Hk) as Hb. fold N in Hb. intros Hq.
        assert (Hq' : (block_start N i <= bias_position N l k < block_start N (S i))%nat) by (simpl; lia).
        exact (block_sep net l i _ _ Hb Hq' Hli eq_refl).
    - intros H1 (j & Hj & E). replace (N i) with (N (S (i - 1))) in Hj by (f_equal; lia).
      apply (bias_position_inj net) in E; auto. lia. }
  split; [|split].
  - intros l k Hl1 Hl2 Hk. destruct (Nat.eq_dec (S l) i) as [E|Hne].
    + subst i. specialize (R3 ltac:(lia) k Hk). replace (S l - 1)%nat with l in R3 by lia. exact R3.
    + rewrite R1 by (apply Hub; auto). apply A1; auto; lia.
  - intros l k Hl1 Hl2 Hk. rewrite R1 by (apply Hub; auto; lia). apply A2; auto; lia.
  - intros l j k Hl Hj Hk. destruct (Nat.eq_dec l i) as [->|Hne]; [apply R2; auto|].
    rewrite R1; [apply A3; auto; lia|]. split.
    + pose proof (weight_in_block net l j k Hj Hk) as Hb. fold N in Hb. intros Hq.
      assert (Hq' : (block_start N i <= weight_position N l j k < block_start N (S i))%nat) by (simpl; lia).
      exact (block_sep net l i _ _ Hb Hq' Hne eq_refl).
    + intros H1 (j' & Hj' & E). revert E. apply (weight_bias_disjoint net); auto.
      fold N. replace (S (i - 1)) with i by lia. auto.
Qed.
End Rev.

(** The adjoint numbers exist. *)
Fixpoint adj_from (N : nat -> nat) (nrm : nat -> R) (bf : nat -> nat -> nat -> R -> R) (top : nat -> R) (LT d : nat) : nat -> R :=
  match d with
  | O => top
  | S d' => fun j => sumn (N (LT - d')%nat) (fun k => bf (LT - d)%nat j k (adj_from N nrm bf top LT d' k)) * nrm (LT - d)%nat
  end.
Definition adj_of N nrm bf top LT (l : nat) : nat -> R := adj_from N nrm bf top LT (LT - l).
Lemma adj_of_top N nrm bf top LT : adj_of N nrm bf top LT LT = top.
Proof. unfold adj_of. now rewrite Nat.sub_diag. Qed.
Lemma adj_of_step N nrm bf top LT l j : (l < LT)%nat ->
  adj_of N nrm bf top LT l j = sumn (N (S l)) (fun k => bf l j k (adj_of N nrm bf top LT (S l) k)) * nrm l.
Proof.
  intros Hl. unfold adj_of. replace (LT - l)%nat with (S (LT - S l)) by lia. cbn [adj_from].
  replace (LT - (LT - S l))%nat with (S l) by lia. replace (LT - S (LT - S l))%nat with l by lia. reflexivity.
Qed.

(** Initialisation loops. *)
Lemma zero_loop n (a : nat -> R) p : for_up n (fun i a => upd a i 0) a p = if Nat.ltb p n then 0 else a p.
Proof.
  induction n; [reflexivity|]. cbn [for_up]. unfold upd at 1. rewrite IHn.
  destruct (Nat.eqb_spec p n) as [->|Hne].
  - destruct (Nat.ltb_spec n (S n)); [auto|lia].
  - destruct (Nat.ltb_spec p n), (Nat.ltb_spec p (S n)); auto; lia.
Qed.
Lemma out_loop n (b : nat) (f : nat -> R) (norm : bool) d (a : nat -> R) :
  let res := for_up n (fun i a => let a := upd a (b + i) (f i) in
     if norm then upd a (b + i) (a (b + i)%nat / d) else a) a in
  (forall k, (k < n)%nat -> res (b + k)%nat = f k * (if norm then / d else 1)) /\
  (forall q, (q < b \/ b + n <= q)%nat -> res q = a q).
Proof.
  apply (for_up_inv (fun n res => (forall k, (k < n)%nat -> res (b + k)%nat = f k * (if norm then / d else 1)) /\
     (forall q, (q < b \/ b + n <= q)%nat -> res q = a q))).
  { split; [intros; lia|auto]. }
  intros i s Hi [A B]. cbv zeta. split.
  - intros k Hk. destruct (Nat.eq_dec k i) as [->|Hne].
    + destruct norm; rewrite ?upd_same; [reflexivity|ring].
    + destruct norm; rewrite ?upd_other by lia; apply A; lia.
  - intros q Hq. destruct norm; rewrite ?upd_other by lia; apply B; lia.
Qed.
