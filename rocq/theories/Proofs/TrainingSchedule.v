(** Selection modes: from the words of the settings to the mode of each epoch
    (C81). *)
From Coq Require Import Reals ZArith Lia Ascii String Bool Arith.
From Coq Require Import List.
From Verif Require Import Base.AssocMap Model.Strings Model.Printf Model.Settings Model.SymLines Model.NetworkSetup Model.DataFiles
  Model.Updaters Model.Selection Model.UpdatePlan Model.TrainingSetup Spec.TrainingSpec
  Proofs.SymLineProofs Proofs.NetworkSetupProofs Proofs.NetworkSetupMain.
Import ListNotations.
Local Open Scope nat_scope.

(** ** Reading *)
Definition build (l : list (Z * Z)) : list (Z * Z) := fold_left (fun m e => mset Z.eqb (to_size (fst e)) (snd e) m) l [].
Definition indices (n : nat) : list nat := map (fun j => 2 * j + 1) (seq 0 (Nat.div2 n)).
Definition put (args : list str) (i : nat) (m : list (Z * Z)) : outcome (list (Z * Z)) :=
  e <- int_at args i; v <- int_at args (i + 1); Done (mset Z.eqb (to_size e) v m).

Lemma zeqb_spec a b : Z.eqb a b = true <-> a = b.
Proof. apply Z.eqb_eq. Qed.
Lemma build_snoc l e : build (l ++ [e]) = mset Z.eqb (to_size (fst e)) (snd e) (build l).
Proof. unfold build. now rewrite fold_left_app. Qed.
Lemma build_nodup l : NoDup (map fst (build l)).
Proof.
  induction l as [|e l IH] using rev_ind; [constructor|]. rewrite build_snoc. apply mset_nodup; [apply zeqb_spec | exact IH].
Qed.

Lemma entries_odd ws l : entries_of ws l -> exists n, List.length ws = 2 * n + 1 /\ List.length l = S n.
Proof.
  induction 1 as [w m E|ws l we wm e m H IH E1 E2].
  - exists 0. split; reflexivity.
  - destruct IH as (n & L1 & L2). exists (S n). rewrite !app_length. cbn. lia.
Qed.
Lemma div2_odd n : Nat.div2 (2 * n + 1) = n.
Proof. replace (2 * n + 1) with (S (2 * n)) by lia. apply Nat.div2_succ_double. Qed.
Lemma indices_snoc n : indices (2 * S n + 1) = indices (2 * n + 1) ++ [2 * n + 1].
Proof. unfold indices. rewrite !div2_odd. rewrite seq_S, map_app. reflexivity. Qed.
Lemma int_at_app l r i : i < List.length l -> int_at (l ++ r) i = int_at l i.
Proof. intro H. unfold int_at, at_. now rewrite nth_error_app1. Qed.
Lemma foldo_app {A S} (f : A -> S -> outcome S) l1 l2 s : foldo f (l1 ++ l2) s = (s <- foldo f l1 s; foldo f l2 s).
Proof. revert s. induction l1 as [|x l1 IH]; intro s; cbn; [reflexivity|]. destruct (f x s) as [s'| |]; cbn; [apply IH | reflexivity | reflexivity]. Qed.
Lemma foldo_same {A S} (f g : A -> S -> outcome S) l : (forall x s, In x l -> f x s = g x s) -> forall s, foldo f l s = foldo g l s.
Proof.
  induction l as [|x l IH]; intros H s; cbn; [reflexivity|]. rewrite (H x s (or_introl eq_refl)).
  destruct (g x s) as [s'| |]; cbn; [apply IH; intros y z Hy; apply H; now right | reflexivity | reflexivity].
Qed.
Lemma put_app ws r n : List.length ws = 2 * n + 1 -> forall i m, In i (indices (2 * n + 1)) -> put (ws ++ r) i m = put ws i m.
Proof.
  intros L i m H. unfold indices in H. rewrite div2_odd in H. apply in_map_iff in H. destruct H as (j & <- & Hj). apply in_seq in Hj.
  unfold put. rewrite !int_at_app by lia. reflexivity.
Qed.
Lemma read_entries ws l : entries_of ws l ->
  exists m0, int_at ws 0 = Done m0 /\ foldo (put ws) (indices (List.length ws)) [(0%Z, m0)] = Done (build l).
Proof.
  induction 1 as [w m E|ws l we wm e m H IH E1 E2].
  - exists m. split; [exact E|]. reflexivity.
  - destruct IH as (m0 & F & B). destruct (entries_odd _ _ H) as (n & L1 & L2). exists m0.
    split; [rewrite int_at_app by lia; exact F|].
    replace (List.length (ws ++ [we; wm])) with (2 * S n + 1) by (rewrite app_length; cbn [List.length]; lia).
    rewrite indices_snoc, foldo_app. rewrite (foldo_same _ (put ws)) by (intros; now apply (put_app ws _ n)).
    rewrite <- L1 at 1. rewrite B. cbn [bindo foldo]. rewrite build_snoc. unfold put.
    assert (G : forall k, int_at (ws ++ [we; wm]) (List.length ws + k) = int_at [we; wm] k).
    { intros k. unfold int_at, at_. rewrite nth_error_app2 by lia. now replace (List.length ws + k - List.length ws) with k by lia. }
    replace (2 * n + 1) with (List.length ws + 0) by lia. rewrite (G 0). replace (List.length ws + 0 + 1) with (List.length ws + 1) by lia.
    rewrite (G 1). unfold int_at. cbn [at_ nth_error throwing bindo]. rewrite E1, E2. reflexivity.
Qed.

Lemma entries_exist n : forall ws, List.length ws = 2 * n + 1 -> (forall i, i < List.length ws -> exists z, int_at ws i = Done z) -> exists l, entries_of ws l.
Proof.
  induction n as [|n IH]; intros ws L H.
  - destruct ws as [|w [|? ?]]; try discriminate. destruct (H 0) as (z & E); [cbn; lia|]. exists [(0%Z, z)]. constructor. exact E.
  - destruct (rev ws) as [|wm r] eqn:R1.
    { apply (f_equal (@List.length _)) in R1. rewrite rev_length in R1. cbn in R1. lia. }
    destruct r as [|we r].
    { apply (f_equal (@List.length _)) in R1. rewrite rev_length in R1. cbn in R1. lia. }
    apply (f_equal (@rev _)) in R1. rewrite rev_involutive in R1. cbn in R1. rewrite <- app_assoc in R1. cbn in R1.
    set (a := rev r) in *. clearbody a. subst ws. rewrite app_length in *. cbn [List.length] in *.
    destruct (IH a) as (l & E); [lia| |].
    { intros i Hi. destruct (H i) as (z & Ez); [lia|]. exists z. now rewrite <- (int_at_app a [we; wm]). }
    destruct (H (List.length a)) as (e & Ee); [lia|]. destruct (H (List.length a + 1)) as (m & Em); [lia|].
    unfold int_at, at_ in Ee, Em. rewrite nth_error_app2 in Ee, Em by lia. rewrite Nat.sub_diag in Ee.
    replace (List.length a + 1 - List.length a) with 1 in Em by lia.
    exists (l ++ [(e, m)]). constructor; [exact E | exact Ee | exact Em].
Qed.
Lemma foldo_done_each {A S} (f : A -> S -> outcome S) l : forall s s', foldo f l s = Done s' -> forall x, In x l -> exists a b, f x a = Done b.
Proof.
  induction l as [|y l IH]; intros s s' H x Hx; [destruct Hx|]. cbn in H. apply bindo_done in H. destruct H as (s1 & E & H).
  destruct Hx as [<- | Hx]; [now exists s, s1 | now apply (IH s1 s')].
Qed.

Lemma readSchedule_unfold value : readSchedule value =
  (if negb (Nat.odd (List.length (split value ch_space))) then Thrown else
   first <- int_at (split value ch_space) 0;
   m <- foldo (put (split value ch_space)) (indices (List.length (split value ch_space))) [(0%Z, first)];
   mapo (fun e => v <- selection_of (snd e); Done (fst e, v)) m).
Proof. reflexivity. Qed.
Lemma odd_of n : Nat.odd (2 * n + 1) = true.
Proof. apply Nat.odd_spec. exists n. reflexivity. Qed.
Lemma readSchedule_entries value m : readSchedule value = Done m ->
  exists l, entries_of (split value ch_space) l /\ mapo (fun e => v <- selection_of (snd e); Done (fst e, v)) (build l) = Done m.
Proof.
  rewrite readSchedule_unfold. set (args := split value ch_space). intro H.
  destruct (Nat.odd (List.length args)) eqn:O; [|discriminate]. cbn [negb] in H. apply Nat.odd_spec in O. destruct O as (n & L).
  apply bindo_done in H. destruct H as (m0 & E0 & H). apply bindo_done in H. destruct H as (r & Er & H).
  destruct (entries_exist n args L) as (l & El).
  { intros i Hi. destruct i as [|i]; [now exists m0|].
    assert (K : exists j, j < n /\ (S i = 2 * j + 1 \/ S i = 2 * j + 1 + 1)).
    { destruct (Nat.Even_or_Odd (S i)) as [(q & Q)|(q & Q)].
      - destruct q as [|q]; [lia|]. exists q. lia.
      - exists q. lia. }
    destruct K as (j & Hj & K).
    destruct (foldo_done_each _ _ _ _ Er (2 * j + 1)) as (a & b & P).
    { rewrite L. unfold indices. rewrite div2_odd. apply in_map_iff. exists j. split; [reflexivity | apply in_seq; lia]. }
    unfold put in P. apply bindo_done in P. destruct P as (x & P1 & P). apply bindo_done in P. destruct P as (y & P2 & _).
    destruct K as [-> | ->]; eauto. }
  exists l. split; [exact El|]. destruct (read_entries _ _ El) as (m1 & F1 & B). rewrite E0 in F1. apply done_inj in F1. subst m1.
  rewrite B in Er. apply done_inj in Er. now subst r.
Qed.
Lemma readSchedule_complete value l m : entries_of (split value ch_space) l ->
  mapo (fun e => v <- selection_of (snd e); Done (fst e, v)) (build l) = Done m -> readSchedule value = Done m.
Proof.
  intros E M. rewrite readSchedule_unfold. destruct (entries_odd _ _ E) as (n & L & _). rewrite L, odd_of. cbn [negb].
  destruct (read_entries _ _ E) as (m0 & F & B). rewrite L in B. rewrite F. cbn [bindo]. rewrite B. cbn [bindo]. exact M.
Qed.

(** ** Look-up *)
Lemma selection_code z m : selection_of z = Done m <-> mode_code z m.
Proof.
  unfold selection_of, mode_code. destruct (Z.eqb_spec z 0) as [->|N0].
  - split; [intro H; apply done_inj in H; left; auto | intros [[_ ->]|[[X _]|[X _]]]; [reflexivity | discriminate | discriminate]].
  - destruct (Z.eqb_spec z 1) as [->|N1].
    + split; [intro H; apply done_inj in H; auto | intros [[X _]|[[_ ->]|[X _]]]; [lia | reflexivity | discriminate]].
    + destruct (Z.eqb_spec z 2) as [->|N2].
      * split; [intro H; apply done_inj in H; auto | intros [[X _]|[[X _]|[_ ->]]]; [lia | lia | reflexivity]].
      * split; [discriminate | intros [[X _]|[[X _]|[X _]]]; lia].
Qed.
Lemma mget_modes r m : mapo (fun e => v <- selection_of (snd e); Done (fst e, v)) r = Done m ->
  forall k v, mget Z.eqb k m = Some v <-> exists z, mget Z.eqb k r = Some z /\ mode_code z v.
Proof.
  revert m. induction r as [|[k0 z0] r IH]; intros m H k v; cbn [mapo] in H.
  - apply done_inj in H. subst m. cbn. split; [discriminate | intros (z & E & _); discriminate].
  - apply bindo_done in H. destruct H as (y & Y & H). apply bindo_done in H. destruct H as (ys & Ys & H). apply done_inj in H. subst m.
    apply bindo_done in Y. destruct Y as (v0 & S0 & Y). apply done_inj in Y. subst y. cbn [fst snd] in *. apply selection_code in S0.
    cbn [mget]. destruct (Z.eqb k k0); [|apply IH; exact Ys]. split.
    + intro E. injection E as <-. eauto.
    + intros (z & E & C). injection E as <-. f_equal.
      destruct S0 as [[A ->]|[[A ->]|[A ->]]], C as [[B ->]|[[B ->]|[B ->]]]; first [reflexivity | exfalso; lia].
Qed.
Lemma mget_build l k z : mget Z.eqb k (build l) = Some z <->
  exists j b, nth_error l j = Some (b, z) /\ to_size b = k /\ forall j' b' z', j < j' -> nth_error l j' = Some (b', z') -> to_size b' <> k.
Proof.
  induction l as [|[b0 z0] l IH] using rev_ind.
  - cbn. split; [discriminate | intros (j & b & E & _); destruct j; discriminate].
  - rewrite build_snoc. cbn [fst snd]. destruct (Z.eq_dec k (to_size b0)) as [->|N].
    + rewrite mget_mset_same by apply zeqb_spec. split.
      * intro E. injection E as <-. exists (List.length l), b0. rewrite nth_error_app2, Nat.sub_diag by lia. split; [reflexivity|]. split; [reflexivity|].
        intros j' b' z' Hj E. assert (j' < List.length (l ++ [(b0, z0)])) by (apply nth_error_Some; congruence). rewrite app_length in *. cbn in *. lia.
      * intros (j & b & E & T & L). destruct (Nat.lt_ge_cases j (List.length l)) as [Hj|Hj].
        -- exfalso. apply (L (List.length l) b0 z0); [exact Hj | rewrite nth_error_app2, Nat.sub_diag by lia; reflexivity | reflexivity].
        -- rewrite nth_error_app2 in E by lia. destruct (j - List.length l) as [|d]; [cbn in E; now injection E as <- <- | destruct d; discriminate].
    + rewrite mget_mset_other by (try apply zeqb_spec; exact N). rewrite IH. split; intros (j & b & E & T & L).
      * assert (j < List.length l) by (apply nth_error_Some; congruence). exists j, b. split; [now rewrite nth_error_app1|]. split; [exact T|].
        intros j' b' z' Hj E'. destruct (Nat.lt_ge_cases j' (List.length l)) as [Hj'|Hj'].
        -- rewrite nth_error_app1 in E' by lia. now apply (L j' b' z').
        -- rewrite nth_error_app2 in E' by lia. destruct (j' - List.length l) as [|d]; [|destruct d; discriminate]. cbn in E'. injection E' as E1 E2. congruence.
      * assert (Hj : j < List.length l).
        { destruct (Nat.lt_ge_cases j (List.length l)) as [Hj|Hj]; [exact Hj|]. rewrite nth_error_app2 in E by lia.
          destruct (j - List.length l) as [|d]; [|destruct d; discriminate]. cbn in E. injection E as E1 E2. congruence. }
        exists j, b. rewrite nth_error_app1 in E by exact Hj. split; [exact E|]. split; [exact T|].
        intros j' b' z' Hj' E'. apply (L j' b' z' Hj'). assert (j' < List.length l) by (apply nth_error_Some; congruence). now rewrite nth_error_app1.
Qed.

Lemma mget_modes_none r m : mapo (fun e => v <- selection_of (snd e); Done (fst e, v)) r = Done m ->
  forall k, mget Z.eqb k m = None -> mget Z.eqb k r = None.
Proof.
  revert m. induction r as [|[k0 z0] r IH]; intros m H k G; cbn [mapo] in H; [reflexivity|].
  apply bindo_done in H. destruct H as (y & Y & H). apply bindo_done in H. destruct H as (ys & Ys & H). apply done_inj in H. subst m.
  apply bindo_done in Y. destruct Y as (v0 & S0 & Y). apply done_inj in Y. subst y. cbn [fst snd mget] in *.
  destruct (Z.eqb k k0); [discriminate | now apply (IH ys)].
Qed.
Lemma mget_build_none l k : mget Z.eqb k (build l) = None -> forall j b z, nth_error l j = Some (b, z) -> to_size b <> k.
Proof.
  induction l as [|[b0 z0] l IH] using rev_ind; intros G j b z E T; [destruct j; discriminate|].
  rewrite build_snoc in G. cbn [fst snd] in G. destruct (Z.eq_dec k (to_size b0)) as [Q|N].
  - subst k. rewrite Q in G. rewrite mget_mset_same in G by apply zeqb_spec. discriminate.
  - rewrite mget_mset_other in G by (try apply zeqb_spec; exact N). destruct (Nat.lt_ge_cases j (List.length l)) as [Hj|Hj].
    + rewrite nth_error_app1 in E by exact Hj. now apply (IH G j b z E).
    + rewrite nth_error_app2 in E by exact Hj. destruct (j - List.length l) as [|d]; [|destruct d; discriminate]. cbn in E. injection E as E1 E2. congruence.
Qed.
Lemma mget_In {A B} (eqb : A -> A -> bool) (spec : forall a b, eqb a b = true <-> a = b) (m : list (A * B)) k v :
  NoDup (map fst m) -> In (k, v) m -> mget eqb k m = Some v.
Proof.
  induction m as [|[k' v'] m IH]; intros N H; [destruct H|]. cbn in *. inversion N as [|? ? N1 N2]; subst. destruct H as [E|H].
  - injection E as -> ->. now rewrite (proj2 (spec k k) eq_refl).
  - destruct (eqb k k') eqn:Q; [|now apply IH]. apply spec in Q. subst k'. exfalso. apply N1. apply in_map_iff. now exists (k, v).
Qed.
Lemma mapo_total {A B} (f : A -> outcome B) l : (forall x, In x l -> exists y, f x = Done y) -> exists l', mapo f l = Done l'.
Proof.
  induction l as [|x l IH]; intro H; [now exists []|]. destruct (H x (or_introl eq_refl)) as (y & E).
  destruct IH as (l' & E'); [intros; apply H; now right|]. exists (y :: l'). cbn. rewrite E. cbn. now rewrite E'.
Qed.

(** ** Mode of an epoch *)
Fixpoint mode_after (m : list (Z * selectionMode)) (m0 : selectionMode) (n : nat) : selectionMode :=
  match n with
  | O => m0
  | S k => match mget Z.eqb (Z.of_nat (S k)) m with Some v => v | None => mode_after m m0 k end
  end.
Lemma mode_after_latest m m0 n : mget Z.eqb 0%Z m = Some m0 ->
  exists b, b <= n /\ mget Z.eqb (Z.of_nat b) m = Some (mode_after m m0 n) /\ forall b', b < b' <= n -> mget Z.eqb (Z.of_nat b') m = None.
Proof.
  intro H. induction n as [|n IH].
  - exists 0. split; [lia|]. split; [exact H | intros; lia].
  - cbn [mode_after]. destruct (mget Z.eqb (Z.of_nat (S n)) m) as [v|] eqn:E.
    + exists (S n). split; [lia|]. split; [exact E | intros; lia].
    + destruct IH as (b & L & G & N). exists b. split; [lia|]. split; [exact G|]. intros b' Hb.
      destruct (Nat.eq_dec b' (S n)) as [->|]; [exact E | apply N; lia].
Qed.
Lemma entries_range ws l : entries_of ws l -> forall j b z, nth_error l j = Some (b, z) -> (- 2 ^ 31 <= b < 2 ^ 31)%Z.
Proof.
  induction 1 as [w m E|ws l we wm e m H IH E1 E2]; intros j b z N.
  - destruct j as [|[|]]; [|discriminate|discriminate]. cbn in N. injection N as <- <-. lia.
  - destruct (Nat.lt_ge_cases j (List.length l)) as [Hj|Hj].
    + rewrite nth_error_app1 in N by exact Hj. now apply (IH j b z).
    + rewrite nth_error_app2 in N by exact Hj. destruct (j - List.length l) as [|d]; [|destruct d; discriminate]. cbn in N. injection N as <- <-.
      now apply atoi_bound in E1.
Qed.
Lemma to_size_neg z : (- 2 ^ 31 <= z < 0)%Z -> to_size z = (z + 2 ^ 64)%Z.
Proof. intro H. unfold to_size. symmetry. apply (Z.mod_unique_pos _ _ (-1)); lia. Qed.
Lemma to_size_small b : (- 2 ^ 31 <= b < 2 ^ 31)%Z -> (0 <= b)%Z /\ to_size b = b \/ (b < 0)%Z /\ (2 ^ 31 <= to_size b)%Z.
Proof.
  intro H. destruct (Z.lt_ge_cases b 0) as [N|N].
  - right. split; [exact N|]. rewrite to_size_neg by lia. lia.
  - left. split; [exact N|]. apply to_size_id. lia.
Qed.
Lemma size_injective a b : (- 2 ^ 31 <= a < 2 ^ 31)%Z -> (- 2 ^ 31 <= b < 2 ^ 31)%Z -> to_size a = to_size b -> a = b.
Proof.
  intros Ha Hb E. destruct (Z.lt_ge_cases a 0) as [A|A], (Z.lt_ge_cases b 0) as [B|B].
  - rewrite !to_size_neg in E by lia. lia.
  - rewrite to_size_neg, to_size_id in E by lia. lia.
  - rewrite to_size_id, to_size_neg in E by lia. lia.
  - rewrite !to_size_id in E by lia. exact E.
Qed.

Theorem schedule_mode value m n m0 : readSchedule value = Done m -> mget Z.eqb 0%Z m = Some m0 -> (Z.of_nat n < 2 ^ 31)%Z ->
  scheduled value n (mode_after m m0 n).
Proof.
  intros H H0 Hn. destruct (readSchedule_entries _ _ H) as (l & El & M).
  destruct (mode_after_latest m m0 n H0) as (b & Lb & G & N).
  apply (mget_modes _ _ M) in G. destruct G as (z & G & C). apply mget_build in G. destruct G as (j & b0 & E & T & Last).
  pose proof (entries_range _ _ El _ _ _ E) as R0.
  assert (b0 = Z.of_nat b) by (destruct (to_size_small b0 R0) as [[P Q]|[P Q]]; lia). subst b0.
  exists l, j, (Z.of_nat b), z. split; [exact El|]. split; [|split; [exact E | exact C]].
  exists (Z.of_nat b), z. split; [exact E|]. split; [lia|]. intros j' b' z' E' B'.
  destruct (Z.lt_trichotomy b' (Z.of_nat b)) as [Q|[Q|Q]]; [now left | | exfalso].
  - right. split; [exact Q|]. destruct (Nat.le_gt_cases j' j) as [K|K]; [exact K|]. exfalso. apply (Last j' b' z' K E'). subst b'. apply to_size_id. lia.
  - specialize (N (Z.to_nat b')). rewrite Z2Nat.id in N by lia. assert (K : mget Z.eqb b' m = None) by (apply N; lia).
    apply (mget_modes_none _ _ M) in K. apply (mget_build_none _ _ K _ _ _ E'). apply to_size_id. lia.
Qed.
Lemma entries_first ws l : entries_of ws l -> exists z, nth_error l 0 = Some (0%Z, z).
Proof.
  induction 1 as [w m E|ws l we wm e m H IH E1 E2]; [now exists m|]. destruct IH as (z & IH). exists z.
  rewrite nth_error_app1; [exact IH|]. apply nth_error_Some. congruence.
Qed.
Lemma schedule_first value m : readSchedule value = Done m -> exists m0, mget Z.eqb 0%Z m = Some m0.
Proof.
  intro H. destruct (readSchedule_entries _ _ H) as (l & El & M). destruct (entries_first _ _ El) as (z & E0).
  destruct (mget Z.eqb 0%Z m) as [m0|] eqn:G; [now exists m0|]. exfalso. apply (mget_modes_none _ _ M) in G.
  now apply (mget_build_none _ _ G _ _ _ E0).
Qed.

Theorem schedule_accepted value : (exists m, readSchedule value = Done m) <-> acceptable_schedule value.
Proof.
  split.
  - intros (m & H). destruct (readSchedule_entries _ _ H) as (l & El & M). exists l. split; [exact El|]. intros j b z E L.
    assert (G : mget Z.eqb (to_size b) (build l) = Some z).
    { apply mget_build. exists j, b. split; [exact E|]. split; [reflexivity|]. intros j' b' z' Hj E' T. apply (L j' z' Hj).
      rewrite E'. do 2 f_equal. apply size_injective; [| |exact T]; eapply entries_range; eauto. }
    destruct (mget Z.eqb (to_size b) m) as [v|] eqn:V.
    + apply (mget_modes _ _ M) in V. destruct V as (z' & G' & C). rewrite G in G'. injection G' as <-. now exists v.
    + apply (mget_modes_none _ _ M) in V. congruence.
  - intros (l & El & H).
    destruct (mapo_total (fun e => v <- selection_of (snd e); Done (fst e, v)) (build l)) as (m & M).
    + intros [k z] IN. cbn [fst snd]. assert (G : mget Z.eqb k (build l) = Some z).
      { apply mget_In; [apply zeqb_spec | apply build_nodup | exact IN]. }
      apply mget_build in G. destruct G as (j & b & E & T & L). destruct (H j b z E) as (v & C).
      { intros j' z' Hj E'. now apply (L j' b z' Hj E'). }
      apply selection_code in C. exists (k, v). rewrite C. reflexivity.
    + exists m. eapply readSchedule_complete; eauto.
Qed.
