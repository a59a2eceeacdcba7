(** calculateDEdb and calculateDxdG. *)
From Coq Require Import Reals Lra List Arith Lia Bool FunctionalExtensionality.
From Verif Require Import Base.SumR Base.Loop Model.NeuralNetwork Spec.NetworkSpec
  Proofs.NetLayout Proofs.NetReverse.
Import ListNotations.
Local Open Scope R_scope.

Section Db.
Variable net : network.
Let N := numNeurons net.
Let bo := biasOnlyOffset net.
Variable LT : nat.
Hypothesis HLT : numLayers net = S LT.
Hypothesis HLT1 : (1 <= LT)%nat.

Lemma bo_S l : bo (S l) = (bo l + N (S l))%nat.
Proof. reflexivity. Qed.
Lemma bo_mono l l' : (l <= l')%nat -> (bo l <= bo l')%nat.
Proof. induction 1; [lia|]. rewrite bo_S. lia. Qed.
Lemma bo_inj l k l' k' : (k < N (S l))%nat -> (k' < N (S l'))%nat -> (bo l + k = bo l' + k')%nat -> l = l' /\ k = k'.
Proof.
  intros Hk Hk' E. destruct (Nat.lt_trichotomy l l') as [H|[->|H]].
  - pose proof (bo_mono (S l) l' ltac:(lia)). rewrite bo_S in *. lia.
  - lia.
  - pose proof (bo_mono (S l') l ltac:(lia)). rewrite bo_S in *. lia.
Qed.

Variable ADJ : nat -> nat -> R.
Hypothesis ADJ_top : forall k, (k < N LT)%nat -> ADJ LT k = n_dfdx (neurons net LT k) * nrmR net LT.
Hypothesis ADJ_step : forall l j, (1 <= l < LT)%nat -> (j < N l)%nat ->
  ADJ l j = sumn (N (S l)) (fun k => ADJ (S l) k * weight net l j k * n_dfdx (neurons net l j)) * nrmR net l.

Lemma calculateDEdb_spec a0 : (forall p, a0 p = 0) ->
  forall l k, (l < LT)%nat -> (k < N (S l))%nat -> calculateDEdb net a0 (bo l + k)%nat = ADJ (S l) k.
Proof.
  intros H0. unfold calculateDEdb. cbv zeta.
  assert (EL : (numLayers net - 1)%nat = LT) by lia. assert (EL2 : (numLayers net - 2)%nat = (LT - 1)%nat) by lia.
  unfold outputLayer, prevNeurons. rewrite EL, EL2. fold bo. fold N.
  destruct (out_loop (N LT) (bo (LT - 1)%nat) (fun i => n_dfdx (neurons net LT i)) (normalizeNeurons net) (INR (N (LT - 1)%nat)) a0) as [T1 T2].
  cbv zeta in T1, T2. revert T1 T2.
  match goal with |- (forall k, _ -> ?X _ = _) -> _ => generalize X end. intros a T1 T2.
  match goal with |- forall l k, _ -> _ -> ?X _ = _ => cut ((fun (i : nat) (a : nat -> R) =>
     (forall l k, (i <= S l)%nat -> (l < LT)%nat -> (k < N (S l))%nat -> a (bo l + k)%nat = ADJ (S l) k) /\
     (forall l k, (S l < i)%nat -> (l < LT)%nat -> (k < N (S l))%nat -> a (bo l + k)%nat = 0)) 0%nat X) end.
  { intros (A & _) l k Hl Hk. apply A; auto; lia. }
  apply for_down_inv.
  { split.
    - intros l k Hl1 Hl2 Hk. assert (l = LT - 1)%nat by lia. subst l.
      replace (S (LT - 1)) with LT in * by lia. rewrite T1 by auto. rewrite ADJ_top by auto. unfold nrmR. reflexivity.
    - intros l k Hl1 Hl2 Hk. rewrite T2; [apply H0|]. left.
      pose proof (bo_mono (S l) (LT - 1) ltac:(lia)). rewrite bo_S in *. lia. }
  intros i s Hi (A1 & A2).
  set (outer := fun (j : nat) (r : nat -> R) =>
    (forall l k, (l < LT)%nat -> (k < N (S l))%nat -> S l <> i -> r (bo l + k)%nat = s (bo l + k)%nat) /\
    ((1 <= i)%nat -> (forall j', (j' < j)%nat -> r (bo (i - 1)%nat + j')%nat = ADJ i j') /\
      (forall j', (j <= j' < N i)%nat -> r (bo (i - 1)%nat + j')%nat = 0))).
  match goal with |- (_ /\ _) => idtac end.
  match goal with |- context [for_up (N i) ?F s] => assert (HO : outer (N i) (for_up (N i) F s)) end.
  { apply (for_up_inv outer).
    { split; [auto|]. intros H1. split; [intros; lia|]. intros j' Hj'. apply A2; [lia|lia|].
      replace (S (i - 1)) with i by lia. lia. }
    intros j r Hj [O1 O2]. fold N in Hj.
    destruct (Nat.leb_spec 1 i) as [H1|H1].
    2:{ rewrite andb_false_r. split; [|intros; lia].
        assert (E : for_up (N (i + 1)%nat) (fun _ (a1 : nat -> R) => a1) r = r).
        { generalize (N (i + 1)%nat). intros n. induction n; simpl; auto. }
        rewrite E. auto. }
    rewrite andb_true_r. destruct (O2 H1) as [P1 P2].
    set (inner := fun (k : nat) (r' : nat -> R) =>
      (forall l k, (l < LT)%nat -> (k < N (S l))%nat -> S l <> i -> r' (bo l + k)%nat = s (bo l + k)%nat) /\
      (forall j', (j' < j)%nat -> r' (bo (i - 1)%nat + j')%nat = ADJ i j') /\
      r' (bo (i - 1)%nat + j)%nat = sumn k (fun k => ADJ (S i) k * weight net i j k * n_dfdx (neurons net i j)) /\
      (forall j', (j < j' < N i)%nat -> r' (bo (i - 1)%nat + j')%nat = 0)).
    match goal with |- context [for_up (N (i + 1)%nat) ?F r] => assert (HI : inner (N (i + 1)%nat) (for_up (N (i + 1)%nat) F r)) end.
    { apply (for_up_inv inner).
      { split; [auto|]. split; [auto|]. split; [rewrite sumn_0; apply P2; lia|]. intros; apply P2; lia. }
      rewrite Nat.add_1_r. intros k r' Hk (I1 & I2 & I3 & I4).
      assert (Erd : r' (bo i + k)%nat = ADJ (S i) k) by (rewrite I1 by (auto; lia); apply A1; auto).
      unfold inner. split.
      { intros l k' Hl Hk' Hne. rewrite upd_other; [auto|]. intros E. apply bo_inj in E; auto; [lia|].
        replace (S (i - 1)) with i by lia. auto. }
      split. { intros j' Hj'. rewrite upd_other by lia. auto. }
      split. { rewrite upd_same, I3, Erd, sumn_S. reflexivity. }
      intros j' Hj'. rewrite upd_other by lia. auto. }
    revert HI. match goal with |- inner _ ?X -> _ => generalize X end. intros r' (I1 & I2 & I3 & I4).
    assert (Hfin : ADJ i j = r' (bo (i - 1) + j)%nat * nrmR net i).
    { rewrite ADJ_step by (auto; lia). rewrite I3, Nat.add_1_r. reflexivity. }
    destruct (normalizeNeurons net) eqn:En.
    - split. { intros l k Hl Hk Hne. rewrite upd_other; [auto|]. intros E. apply bo_inj in E; auto; [lia|].
        replace (S (i - 1)) with i by lia. auto. }
      intros _. split.
      + intros j' Hj'. destruct (Nat.eq_dec j' j) as [->|Hne].
        * rewrite upd_same, Hfin. unfold nrmR. rewrite En. reflexivity.
        * rewrite upd_other by lia. apply I2; lia.
      + intros j' Hj'. rewrite upd_other by lia. apply I4; lia.
    - split; [auto|]. intros _. split.
      + intros j' Hj'. destruct (Nat.eq_dec j' j) as [->|Hne]; [|apply I2; lia].
        rewrite Hfin. unfold nrmR. rewrite En. ring.
      + intros j' Hj'. apply I4; lia. }
  revert HO. match goal with |- outer _ ?X -> _ => generalize X end. intros r [O1 O2].
  split.
  - intros l k Hl1 Hl2 Hk. destruct (Nat.eq_dec (S l) i) as [<-|Hne].
    + destruct (O2 ltac:(lia)) as [P _]. specialize (P k Hk). replace (S l - 1)%nat with l in P by lia. exact P.
    + rewrite O1 by auto. apply A1; auto; lia.
  - intros l k Hl1 Hl2 Hk. rewrite O1 by (auto; lia). apply A2; auto; lia.
Qed.
End Db.

(** Equality of networks up to the dxdG members. *)
Definition same_but_dxdG (a b : network) : Prop :=
  same_shape a b /\ forall l k, with_dxdG 0 (neurons a l k) = with_dxdG 0 (neurons b l k).
Lemma sbd_refl a : same_but_dxdG a a.
Proof. split; [apply same_shape_refl|auto]. Qed.
Lemma sbd_trans a b c : same_but_dxdG a b -> same_but_dxdG b c -> same_but_dxdG a c.
Proof. intros [S1 H1] [S2 H2]. split; [eapply same_shape_trans; eauto|]. intros. now rewrite H1, H2. Qed.
Lemma sbd_sym a b : same_but_dxdG a b -> same_but_dxdG b a.
Proof. intros [S1 H1]. split; [apply same_shape_sym; auto|]. intros. now rewrite H1. Qed.
Lemma sbd_set a i k v : same_but_dxdG (set_neuron a i k (fun n => with_dxdG (v n) n)) a.
Proof.
  split; [repeat split|]. intros l m. destruct (Nat.eq_dec l i) as [->|Hl].
  - destruct (Nat.eq_dec m k) as [->|Hm]; [now rewrite set_neuron_same|now rewrite set_neuron_other by auto].
  - now rewrite set_neuron_layer by auto.
Qed.
Lemma sbd_fields a b l k : same_but_dxdG a b ->
  n_weights (neurons a l k) = n_weights (neurons b l k) /\ n_bias (neurons a l k) = n_bias (neurons b l k) /\
  n_value (neurons a l k) = n_value (neurons b l k) /\ n_dfdx (neurons a l k) = n_dfdx (neurons b l k) /\
  n_d2fdx2 (neurons a l k) = n_d2fdx2 (neurons b l k) /\ n_x (neurons a l k) = n_x (neurons b l k).
Proof.
  intros [_ H]. specialize (H l k). unfold with_dxdG in H. injection H. intros. repeat split; auto.
Qed.

Section Dx.
Variable net : network.
Let N := numNeurons net.
Variable LT : nat.
Hypothesis HLT : numLayers net = S LT.
Hypothesis HLT1 : (1 <= LT)%nat.
Variable index : nat.

(** dxdG of layer m+1. *)
Fixpoint Xr (m k : nat) : R :=
  match m with
  | O => weight net 0 index k * nrmR net 1
  | S m' => sumn (N m) (fun j => weight net m j k * n_dfdx (neurons net m j) * Xr m' j) * nrmR net (S m)
  end.

Lemma finish_norm s i j v : same_but_dxdG s net -> n_dxdG (neurons s i j) = v ->
  let r := if normalizeNeurons s
     then set_neuron s i j (fun n => with_dxdG (n_dxdG n / INR (prevNeurons s i)) n) else s in
  same_but_dxdG r net /\ n_dxdG (neurons r i j) = v * nrmR net i /\
  (forall l k, (l <> i \/ k <> j) -> neurons r l k = neurons s l k).
Proof.
  intros Hs Hv. pose proof Hs as [(E1 & E2 & E3 & E4) _]. rewrite E4. unfold nrmR.
  destruct (normalizeNeurons net) eqn:En.
  - split; [eapply sbd_trans; [apply sbd_set|auto]|]. split.
    + rewrite set_neuron_same. simpl. rewrite Hv. unfold prevNeurons. rewrite E2. reflexivity.
    + intros l k H. destruct (Nat.eq_dec l i) as [->|Hl]; [|now rewrite set_neuron_layer].
      rewrite set_neuron_other; auto. destruct H; auto; congruence.
  - split; [auto|]. split; [rewrite Hv; ring|auto].
Qed.

Lemma calculateDxdG_spec :
  same_but_dxdG (calculateDxdG index net) net /\
  forall l k, (l < LT)%nat -> (k < N (S l))%nat -> n_dxdG (neurons (calculateDxdG index net) (S l) k) = Xr l k.
Proof.
  unfold calculateDxdG. cbv zeta.
  match goal with |- context [for_range 2 _ _ (for_up ?n ?F net)] => set (s1 := for_up n F net) end.
  assert (H1 : same_but_dxdG s1 net /\ forall k, (k < N 1)%nat -> n_dxdG (neurons s1 1 k) = Xr 0 k).
  { unfold s1. apply (for_up_inv (fun k' s => same_but_dxdG s net /\ forall k, (k < k')%nat -> n_dxdG (neurons s 1 k) = Xr 0 k)).
    { split; [apply sbd_refl|intros; lia]. }
    intros k s Hk [S1 S2].
    set (s' := set_neuron s 1 k (fun n => with_dxdG (n_weights n index) n)).
    assert (Hs' : same_but_dxdG s' net) by (eapply sbd_trans; [apply sbd_set|auto]).
    destruct (finish_norm s' 1 k (weight net 0 index k) Hs') as (F1 & F2 & F3).
    { unfold s'. rewrite set_neuron_same. simpl. unfold weight. destruct (sbd_fields s net 1 k S1) as [-> _]. reflexivity. }
    split; [exact F1|]. intros k' Hk'. destruct (Nat.eq_dec k' k) as [->|Hne]; [exact F2|].
    rewrite F3 by auto. unfold s'. rewrite set_neuron_other by auto. apply S2; lia. }
  clearbody s1. destruct H1 as [H1 H1x]. pose proof H1 as [(E1 & E2 & _) _].
  assert (EL : numLayers s1 = S LT) by lia. rewrite EL.
  match goal with |- context [for_range 2 _ ?F _] => set (body := F) end.
  cut (same_but_dxdG (for_range 2 (S LT) body s1) net /\
       forall l k, (S l < S LT)%nat -> (k < N (S l))%nat -> n_dxdG (neurons (for_range 2 (S LT) body s1) (S l) k) = Xr l k).
  { intros [A B]. split; auto. intros; apply B; auto; lia. }
  apply (for_range_inv (fun i s => same_but_dxdG s net /\
     forall l k, (S l < i)%nat -> (k < N (S l))%nat -> n_dxdG (neurons s (S l) k) = Xr l k)); [lia| |].
  { split; auto. intros l k Hl Hk. assert (l = O) by lia. subst. auto. }
  intros i s Hi [S1 S2]. unfold body. pose proof S1 as [(D1 & D2 & D3 & D4) _].
  rewrite D2. fold N.
  destruct i as [|i]; [lia|].
  cut ((fun j (s' : network) => same_but_dxdG s' net /\
    (forall l, l <> S i -> neurons s' l = neurons s l) /\
    (forall k, (k < j)%nat -> n_dxdG (neurons s' (S i) k) = Xr i k)) (N (S i))
    (for_up (N (S i)) (fun (j : nat) (s0 : network) =>
        let s2 := set_neuron s0 (S i) j (with_dxdG 0) in
        let s3 := for_up (numNeurons s2 (S i - 1)) (fun (k : nat) (s3 : network) =>
              set_neuron s3 (S i) j (fun n => with_dxdG (n_dxdG n + n_weights n k * n_dfdx (neurons s3 (S i - 1) k) * n_dxdG (neurons s3 (S i - 1) k)) n)) s2 in
        if normalizeNeurons s3 then set_neuron s3 (S i) j (fun n => with_dxdG (n_dxdG n / INR (prevNeurons s3 (S i))) n) else s3) s)).
  { intros (A & B & C). split; [exact A|]. intros l k Hl Hk. destruct (Nat.eq_dec l i) as [->|Hne]; [apply C; auto|].
    rewrite B by lia. apply S2; auto; lia. }
  apply for_up_inv.
  { split; auto. split; auto. intros; lia. }
  intros j s0 Hj (A & B & C). cbv zeta.
  set (s2 := set_neuron s0 (S i) j (with_dxdG 0)).
  assert (Hs2 : same_but_dxdG s2 net) by (eapply sbd_trans; [apply (sbd_set s0 (S i) j (fun _ => 0))|auto]).
  assert (En2 : numNeurons s2 = N) by (destruct Hs2 as [(?&?&?) _]; auto).
  rewrite En2. replace (S i - 1)%nat with i by lia.
  set (inner := fun (k : nat) (s' : network) => same_but_dxdG s' net /\
     (forall l m, (l <> S i \/ m <> j) -> neurons s' l m = neurons s0 l m) /\
     n_dxdG (neurons s' (S i) j) = sumn k (fun k => weight net i k j * n_dfdx (neurons net i k) * Xr (i - 1) k)).
  assert (HI : inner (N i) (for_up (N i) (fun (k : nat) (s3 : network) =>
              set_neuron s3 (S i) j (fun n => with_dxdG (n_dxdG n + n_weights n k * n_dfdx (neurons s3 i k) * n_dxdG (neurons s3 i k)) n)) s2)).
  { apply (for_up_inv inner).
    { split; [auto|]. split.
      - intros l m H. unfold s2. destruct (Nat.eq_dec l (S i)) as [->|Hl]; [|now rewrite set_neuron_layer].
        rewrite set_neuron_other; auto. destruct H; auto; congruence.
      - unfold s2. rewrite set_neuron_same. reflexivity. }
    intros k s' Hk (I1 & I2 & I3). split; [eapply sbd_trans; [apply sbd_set|auto]|]. split.
    - intros l m H. rewrite <- I2 by auto. destruct (Nat.eq_dec l (S i)) as [->|Hl]; [|now rewrite set_neuron_layer].
      rewrite set_neuron_other; auto. destruct H; auto; congruence.
    - rewrite set_neuron_same. simpl. rewrite I3, sumn_S. f_equal.
      destruct (sbd_fields s' net (S i) j I1) as (-> & _). destruct (sbd_fields s' net i k I1) as (_ & _ & _ & -> & _).
      rewrite I2 by (left; lia). rewrite B by lia.
      specialize (S2 (i - 1)%nat k). replace (S (i - 1)) with i in S2 by lia. rewrite S2 by (auto; lia). reflexivity. }
  revert HI. match goal with |- inner _ ?X -> _ => generalize X end. intros s3 (I1 & I2 & I3).
  destruct (finish_norm s3 (S i) j _ I1 I3) as (F1 & F2 & F3).
  split; [exact F1|]. split.
  - intros l Hl. extensionality m. rewrite F3 by auto. rewrite I2 by auto. now rewrite B.
  - intros k Hk. destruct (Nat.eq_dec k j) as [->|Hne].
    + refine (eq_trans F2 _). destruct i as [|i']; [lia|]. cbn [Xr]. rewrite Nat.sub_1_r. reflexivity.
    + rewrite F3 by auto. rewrite I2 by auto. apply C; lia.
Qed.
End Dx.
