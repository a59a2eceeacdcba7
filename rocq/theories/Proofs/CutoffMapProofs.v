(** Correctness of the neighbor cutoff map (C24). *)
From Coq Require Import Reals Lra ZArith List Lia Bool Arith Permutation Sorted.
From Verif Require Import Base.Vec3 Model.Geometry Model.NeighborList Spec.GeometrySpec Spec.NeighborSpec
  Proofs.GeometryProofs Proofs.NeighborProofs Proofs.NeighborMore.
Import ListNotations.
Local Open Scope R_scope.

(** ** C24 *)
Lemma rinsert_perm x l : Permutation (rinsert x l) (x :: l).
Proof. induction l as [|y l IH]; simpl; auto. destruct (Rle_dec x y); auto. rewrite IH. apply perm_swap. Qed.
Lemma rinsert_sorted x l : Sorted Rle l -> Sorted Rle (rinsert x l).
Proof.
  induction l as [|y t IH]; intros Hs; simpl; [constructor; auto|]. destruct (Rle_dec x y) as [Hle|Hle]; [constructor; auto|].
  inversion Hs as [|? ? Hs' Hhd]; subst. constructor; [auto|]. destruct t as [|z t]; simpl; [constructor; lra|].
  destruct (Rle_dec x z); constructor; [lra|]. inversion Hhd; auto.
Qed.
Lemma rsort_perm l : Permutation (rsort l) l.
Proof. induction l; simpl; auto. rewrite rinsert_perm. auto. Qed.
Lemma rsort_sorted l : Sorted Rle (rsort l).
Proof. induction l; simpl; auto. now apply rinsert_sorted. Qed.
Lemma rmem_in x l : rmem x l = true <-> In x l.
Proof.
  unfold rmem. rewrite existsb_exists. split.
  - intros (y & Hy & E). destruct (Req_EM_T x y); [subst; auto|discriminate].
  - intros H. exists x. split; auto. destruct (Req_EM_T x x); [auto|contradiction].
Qed.
Lemma prepare_spec maxrc l c : In c (prepare_cutoffs maxrc l) <-> In c l \/ (0 < maxrc /\ c = maxrc).
Proof.
  unfold prepare_cutoffs. rewrite (Permutation_in' eq_refl (rsort_perm _)).
  destruct (Rlt_dec 0 maxrc) as [H|H]; [|intuition lra].
  destruct (rmem maxrc l) eqn:E.
  - apply rmem_in in E. intuition. subst; auto.
  - rewrite in_app_iff. simpl. intuition.
Qed.
Lemma sorted_nth {A} (R' : A -> A -> Prop) (l : list A) : (forall x y z, R' x y -> R' y z -> R' x z) -> Sorted R' l ->
  forall i j x y, (i < j)%nat -> nth_error l i = Some x -> nth_error l j = Some y -> R' x y.
Proof.
  intros Ht Hs. apply Sorted_StronglySorted in Hs; [|exact Ht].
  induction Hs as [|a l Hs IH Hall]; intros i j x y Hij Hi Hj; [destruct i; discriminate|].
  destruct j as [|j]; [lia|]. destruct i as [|i]; simpl in *.
  - injection Hi as <-. rewrite List.Forall_forall in Hall. apply Hall. eapply nth_error_In; eauto.
  - apply (IH i j x y); auto; lia.
Qed.
Definition below (c : R) (n : neighbor) : bool := if Rle_dec (nb_d n) c then true else false.
Lemma count_split c : forall nbs k, (forall i n, (i < k)%nat -> nth_error nbs i = Some n -> nb_d n <= c) ->
  (forall i n, (k <= i)%nat -> nth_error nbs i = Some n -> c < nb_d n) -> (k <= length nbs)%nat ->
  count_below c nbs = k /\ filter (below c) nbs = firstn k nbs.
Proof.
  unfold count_below. fold (below c).
  induction nbs as [|n nbs IH]; intros k H1 H2 Hk; [simpl in *; assert (k = 0)%nat by lia; subst; auto|].
  destruct k as [|k].
  - assert (E : below c n = false). { unfold below. destruct (Rle_dec (nb_d n) c); auto. pose proof (H2 0%nat n (le_n _) eq_refl). lra. }
    cbn [filter]. rewrite E. destruct (IH 0%nat) as [A B]; [intros; lia| |simpl; lia|auto].
    intros i m _ Hm. apply (H2 (S i) m); [lia|auto].
  - assert (E : below c n = true). { unfold below. destruct (Rle_dec (nb_d n) c); auto. pose proof (H1 0%nat n ltac:(lia) eq_refl). lra. }
    cbn [filter]. rewrite E. simpl in Hk. destruct (IH k) as [A B]; [| |lia|].
    + intros i m Hi Hm. apply (H1 (S i) m); [lia|auto].
    + intros i m Hi Hm. apply (H2 (S i) m); [lia|auto].
    + simpl. rewrite A, B. auto.
Qed.
Lemma cfind_emplace m k v k' : cfind (emplace m k v) k' =
  match cfind m k' with Some w => Some w | None => if Req_EM_T k k' then Some v else None end.
Proof.
  unfold emplace. destruct (cfind m k) eqn:E.
  - destruct (Req_EM_T k k') as [->|]; [rewrite E; auto|]. destruct (cfind m k'); auto.
  - simpl. destruct (Req_EM_T k k') as [->|]; [rewrite E; auto|]. destruct (cfind m k'); auto.
Qed.
Lemma sorted_prefix nbs c : Sorted (fun x y => nb_d x <= nb_d y) nbs -> filter (below c) nbs = firstn (count_below c nbs) nbs.
Proof.
  intros H. apply Sorted_StronglySorted in H; [|intros x y z; lra]. induction H as [|n l Hs IH Hall]; auto.
  unfold count_below in *. fold (below c) in *. cbn [filter].
  destruct (Rle_dec (nb_d n) c) as [Hc|Hc]; [assert (Eb : below c n = true) by (unfold below; destruct (Rle_dec _ _); [auto|lra])|assert (Eb : below c n = false) by (unfold below; destruct (Rle_dec _ _); [lra|auto])]; rewrite Eb.
  - cbn [length firstn]. f_equal. exact IH.
  - assert (E : filter (below c) l = []).
    { rewrite List.Forall_forall in Hall. clear IH Hs. induction l as [|y l IHl]; auto. cbn [filter]. unfold below at 1.
      destruct (Rle_dec (nb_d y) c) as [Hy|Hy]; [pose proof (Hall y (or_introl eq_refl)); lra|]. apply IHl. intros; apply Hall; simpl; auto. }
    rewrite E. reflexivity.
Qed.
Section CutoffLoop.
Variable nbs : list neighbor. Variable cs : list R.
Hypothesis Hnbs : Sorted (fun x y => nb_d x <= nb_d y) nbs.
Hypothesis Hcs : Sorted Rle cs.
Lemma cutoff_loop_spec fuel : forall i_n ic m, (ic <= length cs)%nat -> (i_n < length nbs)%nat ->
  (forall i n c, (i < i_n)%nat -> nth_error nbs i = Some n -> nth_error cs ic = Some c -> nb_d n <= c) ->
  (forall k v, cfind m k = Some v -> v = count_below k nbs /\ In k cs) ->
  (forall k, In k (firstn ic cs) -> cfind m k = Some (count_below k nbs)) ->
  (length nbs - i_n + (length cs - ic) < fuel)%nat ->
  exists m', cutoff_loop fuel nbs (length nbs) cs i_n ic m = Some m' /\
    (forall k v, cfind m' k = Some v -> v = count_below k nbs /\ In k cs) /\
    (forall k, In k cs -> cfind m' k = Some (count_below k nbs)).
Proof.
  induction fuel; intros i_n ic m Hic Hin Hb Hm1 Hm2 Hf; [lia|]. cbn [cutoff_loop].
  destruct (Nat.ltb_spec i_n (length nbs)) as [_|]; [|lia]. destruct (Nat.ltb_spec ic (length cs)) as [Hlt|Hge]; cbn [andb].
  2:{ exists m. split; auto. split; auto. intros k Hk. apply Hm2. rewrite firstn_all2 by lia. auto. }
  destruct (nth_error nbs i_n) as [n|] eqn:En; [|apply nth_error_None in En; lia].
  destruct (nth_error cs ic) as [c|] eqn:Ec; [|apply nth_error_None in Ec; lia].
  assert (Hnext : forall c', nth_error cs (S ic) = Some c' -> c <= c').
  { intros c' Ec'. exact (sorted_nth Rle cs Rle_trans Hcs ic (S ic) c c' ltac:(lia) Ec Ec'). }
  assert (HIn : In c cs) by (eapply nth_error_In; eauto).
  assert (Hfirst : forall k, In k (firstn (S ic) cs) -> In k (firstn ic cs) \/ k = c).
  { intros k Hk. rewrite <- (firstn_skipn ic (firstn (S ic) cs)) in Hk. rewrite firstn_firstn in Hk.
    replace (Nat.min ic (S ic)) with ic in Hk by lia. apply in_app_iff in Hk as [Hk|Hk]; auto. right.
    apply nth_error_split in Ec as (l1 & l2 & -> & Hl1). subst ic.
    rewrite firstn_app in Hk. rewrite firstn_all2 in Hk by lia. replace (S (length l1) - length l1)%nat with 1%nat in Hk by lia.
    simpl in Hk. rewrite skipn_app in Hk. rewrite skipn_all, Nat.sub_diag in Hk. simpl in Hk. destruct Hk as [->|[]]; auto. }
  assert (Hstep : forall v, v = count_below c nbs ->
     (forall k w, cfind (emplace m c v) k = Some w -> w = count_below k nbs /\ In k cs) /\
     (forall k, In k (firstn (S ic) cs) -> cfind (emplace m c v) k = Some (count_below k nbs))).
  { intros v ->. split.
    - intros k w. rewrite cfind_emplace. destruct (cfind m k) eqn:E; [intros Q; injection Q as <-; auto|].
      destruct (Req_EM_T c k); [subst; intros Q; injection Q as <-; auto|discriminate].
    - intros k Hk. rewrite cfind_emplace. destruct (Hfirst k Hk) as [Hk'| ->]; [rewrite Hm2 by auto; auto|].
      destruct (cfind m c) eqn:E; [destruct (Hm1 _ _ E) as [-> _]; auto|]. destruct (Req_EM_T c c); [auto|contradiction]. }
  destruct (Rlt_dec c (nb_d n)) as [Hd|Hd].
  - destruct (count_split c nbs i_n) as [A _]; [| |lia|].
    + intros i n' Hi Hn'. eapply Hb; eauto.
    + intros i n' Hi Hn'. destruct (Nat.eq_dec i i_n) as [->|Hne]; [congruence|].
      pose proof (sorted_nth (fun x y => nb_d x <= nb_d y) nbs (fun x y z => Rle_trans _ _ _) Hnbs i_n i n n' ltac:(lia) En Hn'). cbn in *. lra.
    + destruct (Hstep i_n (eq_sym A)) as [B1 B2]. apply IHfuel; auto; try lia.
      intros i n' c' Hi Hn' Hc'. apply Rle_trans with c; [eapply Hb; eauto|auto].
  - destruct (Nat.eqb_spec i_n (length nbs - 1)) as [El|El].
    + destruct (count_split c nbs (length nbs)) as [A _]; [| |lia|].
      * intros i n' Hi Hn'. destruct (Nat.eq_dec i i_n) as [->|Hne]; [assert (n' = n) by congruence; subst; lra|].
        eapply Hb; eauto. lia.
      * intros i n' Hi Hn'. assert (nth_error nbs i <> None) by congruence. apply nth_error_Some in H. lia.
      * destruct (Hstep (length nbs) (eq_sym A)) as [B1 B2]. apply IHfuel; auto; try lia.
        intros i n' c' Hi Hn' Hc'. apply Rle_trans with c; [eapply Hb; eauto|auto].
    + apply IHfuel; auto; try lia. intros i n' c' Hi Hn' Hc'. assert (c' = c) by congruence. subst c'.
      destruct (Nat.eq_dec i i_n) as [->|Hne]; [assert (n' = n) by congruence; subst; lra|]. eapply Hb; eauto. lia.
Qed.
End CutoffLoop.

Lemma setup_atom_spec cutoffs a cs : a_cutoffs a = [] -> a_numN a = length (a_nbs a) ->
  Sorted (fun x y => nb_d x <= nb_d y) (a_nbs a) -> nth_error cutoffs (a_element a) = Some cs -> Sorted Rle cs ->
  exists m, setup_atom_cutoffs cutoffs a = Some (set_cutoffs m a) /\
    (forall k v, cfind m k = Some v -> v = count_below k (a_nbs a) /\ In k cs) /\
    (forall k, In k cs -> (exists n, In n (a_nbs a)) -> cfind m k = Some (count_below k (a_nbs a))).
Proof.
  intros Hm HN Hs Hc Hcs. unfold setup_atom_cutoffs. rewrite Hc, Hm, HN.
  destruct (a_nbs a) as [|n0 l] eqn:E.
  - replace (length [] + length cs + 1)%nat with (S (length cs)) by (simpl; lia). cbn. exists []. split; auto. split; [discriminate|].
    intros k _ [n []].
  - destruct (cutoff_loop_spec (n0 :: l) cs Hs Hcs (length (n0 :: l) + length cs + 1) 0 0 []) as (m & E1 & E2 & E3).
    + lia.
    + simpl; lia.
    + intros; lia.
    + discriminate.
    + intros k [].
    + simpl. lia.
    + exists m. rewrite E1. auto.
Qed.
Lemma setup_unsorted cutoffs s : s_sorted s = false -> setupNeighborCutoffMap cutoffs s = None.
Proof. intros H. unfold setupNeighborCutoffMap. now rewrite H. Qed.

Lemma cutoff_map_full nsort fuel rc cutoffs s s1 : is_sort nsort -> no_list s -> no_cutoff_map s ->
  (forall a, In a (s_atoms s) -> (a_element a < length cutoffs)%nat) ->
  calculateNeighborList nsort fuel rc true s = Some s1 ->
  exists s2, setupNeighborCutoffMap cutoffs s1 = Some s2 /\ length (s_atoms s2) = length (s_atoms s1) /\
  forall i a1, nth_error (s_atoms s1) i = Some a1 -> exists a2, nth_error (s_atoms s2) i = Some a2 /\
    a_nbs a2 = a_nbs a1 /\ a_element a2 = a_element a1 /\ a_r a2 = a_r a1 /\
    (forall c cs, nth_error cutoffs (a_element a2) = Some cs -> In c cs -> (exists n, In n (a_nbs a2)) ->
       cfind (a_cutoffs a2) c = Some (count_below c (a_nbs a2))) /\
    (forall c, calculateNumNeighbors a2 c = count_below c (a_nbs a2)) /\
    (forall c, filter (fun n => if Rle_dec (nb_d n) c then true else false) (a_nbs a2) = firstn (calculateNumNeighbors a2 c) (a_nbs a2)) /\
    (forall c, (count_below c (a_nbs a2) <= getStoredMinNumNeighbors a2 c <= length (a_nbs a2))%nat) /\
    (forall c cs, nth_error cutoffs (a_element a2) = Some cs -> In c cs \/ (0 < s_maxrc s /\ c = s_maxrc s) ->
       getStoredMinNumNeighbors a2 c = count_below c (a_nbs a2)).
Proof.
  intros Hs Hn Hm Hc H. destruct (calculate_spec nsort fuel rc true s s1 Hs Hn H) as (pbc & Hp & _ & _ & _ & _ & Q3 & Q2 & HL & HA).
  unfold setupNeighborCutoffMap. rewrite (Q2 eq_refl). rewrite Q3.
  set (f := setup_atom_cutoffs (map (prepare_cutoffs (s_maxrc s)) cutoffs)).
  assert (HX : forall i a1, nth_error (s_atoms s1) i = Some a1 -> exists m cs, nth_error cutoffs (a_element a1) = Some cs /\
     f a1 = Some (set_cutoffs m a1) /\ a_numN a1 = length (a_nbs a1) /\ Sorted (fun x y => nb_d x <= nb_d y) (a_nbs a1) /\
    (forall k v, cfind m k = Some v -> v = count_below k (a_nbs a1) /\ In k (prepare_cutoffs (s_maxrc s) cs)) /\
    (forall k, In k (prepare_cutoffs (s_maxrc s) cs) -> (exists n, In n (a_nbs a1)) -> cfind m k = Some (count_below k (a_nbs a1)))).
  { intros i a1 Hi. assert (Hil : (i < length (s_atoms s))%nat) by (rewrite <- HL; apply nth_error_Some; congruence).
    pose proof (nth_error_at s i Hil) as Ha. destruct (HA i _ Ha) as (a1' & E1 & (_ & _ & B3 & B4 & _ & B6 & _) & BS).
    assert (a1' = a1) by congruence. subst a1'. pose proof (nth_error_In _ _ Ha) as HI.
    destruct (nth_error cutoffs (a_element a1)) as [cs|] eqn:Ecs.
    2:{ apply nth_error_None in Ecs. rewrite B3 in Ecs. pose proof (Hc _ HI). lia. }
    destruct (setup_atom_spec (map (prepare_cutoffs (s_maxrc s)) cutoffs) a1 (prepare_cutoffs (s_maxrc s) cs)) as (m & M1 & M2 & M3); auto.
    - rewrite B4. apply Hm; auto.
    - rewrite nth_error_map, Ecs. reflexivity.
    - unfold prepare_cutoffs. apply rsort_sorted.
    - exists m, cs. auto 10. }
  assert (HS : exists l, sequence (map f (s_atoms s1)) = Some l /\ length l = length (s_atoms s1) /\
      forall i a1, nth_error (s_atoms s1) i = Some a1 -> exists a2, nth_error l i = Some a2 /\ f a1 = Some a2).
  { assert (HX' : forall a, In a (s_atoms s1) -> exists a2, f a = Some a2).
    { intros a Ha. apply In_nth_error in Ha as [i Hi]. destruct (HX i a Hi) as (m & cs & _ & E & _). eauto. }
    clear -HX'. induction (s_atoms s1) as [|a l IH]; [exists []; simpl; repeat split; auto; intros [|i] a; discriminate|].
    destruct (HX' a (or_introl eq_refl)) as (a2 & E). destruct IH as (l' & E1 & E2 & E3); [intros; apply HX'; simpl; auto|].
    exists (a2 :: l'). simpl. rewrite E, E1. repeat split; auto. intros [|i] a1 Hi; simpl in *; [injection Hi as <-; eauto|auto]. }
  destruct HS as (l & E1 & E2 & E3). rewrite E1. eexists. split; [reflexivity|]. split; [exact E2|].
  intros i a1 Hi. destruct (E3 i a1 Hi) as (a2 & F1 & F2). destruct (HX i a1 Hi) as (m & cs & X1 & X2 & X3 & X4 & X5 & X6).
  rewrite X2 in F2. injection F2 as <-. exists (set_cutoffs m a1). split; [exact F1|]. cbn [a_nbs set_cutoffs a_element].
  assert (HC : forall c, calculateNumNeighbors (set_cutoffs m a1) c = count_below c (a_nbs a1)).
  { intros c. unfold calculateNumNeighbors; cbn. destruct (cfind m c) eqn:E; [apply X5 in E; tauto|reflexivity]. }
  split; auto. split; [reflexivity|]. split; [reflexivity|]. split.
  { intros c cs' Hcs' Hc' Hne. cbn in Hcs'. rewrite X1 in Hcs'. injection Hcs' as <-. apply X6; auto. apply prepare_spec; auto. }
  split; auto. split.
  { intros c. rewrite HC. apply sorted_prefix. auto. }
  assert (HLen : forall c, (count_below c (a_nbs a1) <= length (a_nbs a1))%nat).
  { intros c. unfold count_below. clear. induction (a_nbs a1); simpl; auto. destruct (Rle_dec _ _); simpl; lia. }
  split.
  { intros c. pose proof (HLen c). unfold getStoredMinNumNeighbors; cbn. destruct (cfind m c) eqn:E; [destruct (X5 _ _ E) as [-> _]|]; lia. }
  intros c cs' Hcs' Hc'. rewrite X1 in Hcs'. injection Hcs' as <-. unfold getStoredMinNumNeighbors; cbn.
  destruct (a_nbs a1) as [|n0 l0] eqn:En.
  - destruct (cfind m c) eqn:E; [apply X5 in E; tauto|]. rewrite X3. reflexivity.
  - rewrite X6; auto; [apply prepare_spec; auto|exists n0; simpl; auto].
Qed.

(** Existing entries of the map are never replaced. *)
Lemma cutoff_loop_keeps fuel : forall nbs numN cs i_n ic m m' k v, cutoff_loop fuel nbs numN cs i_n ic m = Some m' ->
  cfind m k = Some v -> cfind m' k = Some v.
Proof.
  induction fuel; intros nbs numN cs i_n ic m m' k v H Hk; [discriminate|]. cbn [cutoff_loop] in H.
  destruct (_ && _)%bool; [|injection H as <-; auto].
  destruct (nth_error nbs i_n), (nth_error cs ic); try discriminate.
  destruct (Rlt_dec _ _); [|destruct (Nat.eqb _ _)]; eapply IHfuel; eauto; rewrite cfind_emplace, Hk; auto.
Qed.

Lemma cutoff_map_correct nsort fuel rc cutoffs s s1 : is_sort nsort -> no_list s -> no_cutoff_map s ->
  (forall a, In a (s_atoms s) -> (a_element a < length cutoffs)%nat) ->
  calculateNeighborList nsort fuel rc true s = Some s1 ->
  exists s2, setupNeighborCutoffMap cutoffs s1 = Some s2 /\ length (s_atoms s2) = length (s_atoms s1) /\
  forall i a1, nth_error (s_atoms s1) i = Some a1 -> exists a2, nth_error (s_atoms s2) i = Some a2 /\
    a_nbs a2 = a_nbs a1 /\
    (forall c, calculateNumNeighbors a2 c = count_below c (a_nbs a2)) /\
    (forall c, filter (fun n => if Rle_dec (nb_d n) c then true else false) (a_nbs a2) = firstn (calculateNumNeighbors a2 c) (a_nbs a2)) /\
    (forall c, (count_below c (a_nbs a2) <= getStoredMinNumNeighbors a2 c <= length (a_nbs a2))%nat) /\
    (forall c cs, nth_error cutoffs (a_element a2) = Some cs -> In c cs \/ (0 < s_maxrc s /\ c = s_maxrc s) ->
       getStoredMinNumNeighbors a2 c = count_below c (a_nbs a2)).
Proof.
  intros. destruct (cutoff_map_full nsort fuel rc cutoffs s s1) as (s2 & A & B & C); auto. exists s2. split; auto. split; auto.
  intros i a1 Hi. destruct (C i a1 Hi) as (a2 & D & E & _ & _ & _ & F). exists a2. auto.
Qed.

Lemma cutoff_loop_total fuel : forall nbs cs i_n ic m, (length nbs - i_n + (length cs - ic) < fuel)%nat ->
  exists m', cutoff_loop fuel nbs (length nbs) cs i_n ic m = Some m'.
Proof.
  induction fuel; intros nbs cs i_n ic m H; [lia|]. cbn [cutoff_loop].
  destruct (Nat.ltb_spec i_n (length nbs)), (Nat.ltb_spec ic (length cs)); cbn [andb]; eauto.
  destruct (nth_error nbs i_n) eqn:En; [|apply nth_error_None in En; lia].
  destruct (nth_error cs ic) eqn:Ec; [|apply nth_error_None in Ec; lia].
  destruct (Rlt_dec _ _); [|destruct (Nat.eqb _ _)]; apply IHfuel; lia.
Qed.
Lemma sequence_all {A B} (f : A -> option B) l : (forall a, In a l -> exists b, f a = Some b) ->
  exists l', sequence (map f l) = Some l' /\ length l' = length l /\
   forall i a, nth_error l i = Some a -> exists b, nth_error l' i = Some b /\ f a = Some b.
Proof.
  induction l as [|a l IH]; intros HX; [exists []; simpl; repeat split; auto; intros [|i] a; discriminate|].
  destruct (HX a (or_introl eq_refl)) as (a2 & E). destruct IH as (l' & E1 & E2 & E3); [intros; apply HX; simpl; auto|].
  exists (a2 :: l'). simpl. rewrite E, E1. repeat split; auto. intros [|i] a1 Hi; simpl in *; [injection Hi as <-; eauto|auto].
Qed.
Lemma setup_keeps cutoffs s : s_sorted s = true ->
  (forall a, In a (s_atoms s) -> (a_element a < length cutoffs)%nat /\ a_numN a = length (a_nbs a)) ->
  exists s', setupNeighborCutoffMap cutoffs s = Some s' /\
  forall i a, nth_error (s_atoms s) i = Some a -> exists a', nth_error (s_atoms s') i = Some a' /\ a_nbs a' = a_nbs a /\
    forall k v, cfind (a_cutoffs a) k = Some v -> cfind (a_cutoffs a') k = Some v.
Proof.
  intros Hs H. unfold setupNeighborCutoffMap. rewrite Hs.
  assert (HX : forall a, In a (s_atoms s) -> exists m, setup_atom_cutoffs (map (prepare_cutoffs (s_maxrc s)) cutoffs) a = Some (set_cutoffs m a) /\
     forall k v, cfind (a_cutoffs a) k = Some v -> cfind m k = Some v).
  { intros a Ha. destruct (H a Ha) as [H1 H2]. unfold setup_atom_cutoffs.
    destruct (nth_error (map (prepare_cutoffs (s_maxrc s)) cutoffs) (a_element a)) as [cs|] eqn:E.
    2:{ apply nth_error_None in E. rewrite map_length in E. lia. }
    rewrite H2. destruct (cutoff_loop_total (length (a_nbs a) + length cs + 1) (a_nbs a) cs 0 0 (a_cutoffs a)) as (m & Em); [lia|].
    rewrite Em. exists m. split; auto. intros k v. eapply cutoff_loop_keeps; eauto. }
  destruct (sequence_all (setup_atom_cutoffs (map (prepare_cutoffs (s_maxrc s)) cutoffs)) (s_atoms s)) as (l & E1 & E2 & E3).
  { intros a Ha. destruct (HX a Ha) as (m & E & _). eauto. }
  rewrite E1. eexists. split; [reflexivity|]. cbn. intros i a Hi. destruct (E3 i a Hi) as (b & F1 & F2).
  destruct (HX a (nth_error_In _ _ Hi)) as (m & G1 & G2). rewrite G1 in F2. injection F2 as <-. exists (set_cutoffs m a). auto.
Qed.

(** Moving an atom between two neighbor list computations. *)
Definition move (k : nat) (r : vec) (s : structure) : structure :=
  set_atoms s (mapi (fun i a => if Nat.eqb i k then
    mkAtom (a_element a) r (a_hasNL a) (a_sorted a) (a_numN a) (a_numU a) (a_perEl a) (a_unique a) (a_nbs a) (a_cutoffs a) else a) (s_atoms s)).
Lemma far_apart s a0 a1 x rc j m : s_periodic s = false -> length (s_atoms s) = 2%nat ->
  nth_error (s_atoms s) 0 = Some a0 -> nth_error (s_atoms s) 1 = Some a1 -> a_r a0 = vzero -> a_r a1 = mkVec x 0 0 ->
  rc < Rabs x -> in_range s rc 0 j m -> False.
Proof.
  intros Hp HL E0 E1 R0 R1 H (ai & aj & Ei & Ej & Hm & Hne & Hn). specialize (Hm Hp). subst m.
  assert (ai = a0) by congruence. subst ai.
  destruct j as [|[|j]]; [congruence| |].
  2:{ assert (nth_error (s_atoms s) (S (S j)) <> None) by congruence. apply nth_error_Some in H0. lia. }
  assert (aj = a1) by congruence. subst aj.
  revert Hn. unfold displacement, position_of_image, lattice, combine, norm, norm2, vsub, vadd, smul; cbn. rewrite R0, R1. cbn.
  match goal with |- sqrt ?X <= _ -> _ => replace X with (Rsqr x) by (unfold Rsqr; ring) end. rewrite sqrt_Rsqr_abs. lra.
Qed.
Lemma nonper_fuel nsort f g rc b s : s_periodic s = false -> calculateNeighborList nsort f rc b s = calculateNeighborList nsort g rc b s.
Proof. intros E. unfold calculateNeighborList. rewrite E. reflexivity. Qed.
Lemma nonper_total nsort rc b s : s_periodic s = false -> no_list s -> exists s', calculateNeighborList nsort 0 rc b s = Some s'.
Proof.
  intros E Hn. destruct (list_terminates nsort rc b s Hn) as (f & F); [rewrite E; discriminate|].
  destruct (F f (le_n _)) as (s' & E'). exists s'. rewrite (nonper_fuel nsort 0 f); auto.
Qed.

Lemma stale_map : exists nsort fuel rc cutoffs s s1 s2 s3 s4 r a,
  is_sort nsort /\ no_list s /\ no_cutoff_map s /\
  calculateNeighborList nsort fuel rc true s = Some s1 /\ setupNeighborCutoffMap cutoffs s1 = Some s2 /\
  calculateNeighborList nsort fuel rc true (clearNeighborList (move 1 r s2)) = Some s3 /\
  setupNeighborCutoffMap cutoffs s3 = Some s4 /\
  nth_error (s_atoms s4) 0 = Some a /\ calculateNumNeighbors a rc <> count_below rc (a_nbs a).
Proof.
  destruct id_sort_exists as [nsort Hs]. exists nsort, 0%nat, 2, [[2]], (two 1).
  destruct (nonper_total nsort 2 true (two 1) eq_refl (two_no_list 1)) as (s1 & E1).
  assert (Hm : no_cutoff_map (two 1)) by (intros a [<-|[<-|[]]]; reflexivity).
  pose proof (calculate_spec nsort 0 2 true (two 1) s1 Hs (two_no_list 1) E1) as (pbc & Hp & _ & P1 & _ & P2 & P3 & _ & P4 & P5).
  destruct (cutoff_map_full nsort 0 2 [[2]] (two 1) s1 Hs (two_no_list 1) Hm ltac:(intros a [<-|[<-|[]]]; cbn; lia) E1) as (s2 & E2 & L2 & A2).
  pose proof E2 as E2s. unfold setupNeighborCutoffMap in E2s. destruct (s_sorted s1); [|discriminate].
  destruct (sequence _) as [l2|] eqn:El2; [|discriminate]. injection E2s as Es2.
  destruct (P5 0%nat _ eq_refl) as (b0 & B0 & (_ & R0 & K0 & _ & Q0 & _) & _). destruct (P5 1%nat _ eq_refl) as (b1 & B1 & (_ & R1 & K1 & _) & _).
  destruct (A2 0%nat _ B0) as (c0 & C0 & N0 & T0 & U0 & V0 & _). destruct (A2 1%nat _ B1) as (c1 & C1 & N1 & T1 & U1 & _).
  assert (S2 : s_atoms s2 = [c0; c1]).
  { cbn in P4. rewrite P4 in L2. destruct (s_atoms s2) as [|x [|y [|z t]]]; try discriminate L2. cbn in C0, C1. congruence. }
  assert (M0 : cfind (a_cutoffs c0) 2 = Some (count_below 2 (a_nbs c0)) /\ (0 < count_below 2 (a_nbs c0))%nat).
  { destruct (stored_list 0 (two 1) (Rmax 2 0) pbc 0 _ (two_wrapped 1) ltac:(rewrite Rmax_left; lra) Hp eq_refl) as (L & _ & L2' & L3).
    assert (HIn : In (1%nat, (0, 0, 0)%Z) L). { apply L2'. apply two_range. rewrite Rmax_left, Rabs_right; lra. }
    destruct (Forall2_in_l _ _ _ _ L3 HIn) as (n & Hn & aj & Ej & _ & _ & _ & _ & Hd).
    assert (Hn0 : In n (a_nbs c0)) by (rewrite N0; eapply Permutation_in; [symmetry; exact Q0|exact Hn]).
    split; [apply (V0 2 [2]); [rewrite T0, K0; reflexivity|simpl; auto|eauto]|].
    assert (Hd2 : nb_d n <= 2).
    { rewrite Hd. cbn in Ej. injection Ej as <-. cbn [snd]. destruct (two_range 1 2) as (x & y & X & Y & _ & _ & Z); [rewrite Rabs_right; lra|].
      cbn in X, Y. injection X as <-. injection Y as <-. exact Z. }
    assert (HF2 : In n (filter (below 2) (a_nbs c0))).
    { apply filter_In. split; auto. unfold below. destruct (Rle_dec _ _); auto. }
    unfold count_below. fold (below 2). destruct (filter (below 2) (a_nbs c0)); [contradiction|simpl; lia]. }
  destruct M0 as [M0 M1].
  set (s2' := clearNeighborList (move 1 (mkVec 10 0 0) s2)).
  assert (Hp2 : s_periodic s2' = false) by (subst s2'; cbn; rewrite <- Es2; cbn; rewrite P1; reflexivity).
  assert (He2 : s_numElements s2' = 1%nat) by (subst s2'; cbn; rewrite <- Es2; cbn; rewrite P2; reflexivity).
  assert (Hmx : s_maxrc s2' = 0) by (subst s2'; cbn; rewrite <- Es2; cbn; rewrite P3; reflexivity).
  assert (Hn2 : no_list s2').
  { subst s2'. apply clear_no_list. unfold move, set_atoms; cbn. rewrite S2. cbn. rewrite <- Es2; cbn. rewrite P2. cbn.
    intros a [<-|[<-|[]]]; cbn; [rewrite T0, K0|rewrite T1, K1]; cbn; lia. }
  destruct (nonper_total nsort 2 true s2' Hp2 Hn2) as (s3 & E3).
  pose proof (calculate_spec nsort 0 2 true s2' s3 Hs Hn2 E3) as (pbc3 & Hp3 & _ & _ & _ & _ & _ & Y2 & Y4 & Y5). rewrite Hmx in *.
  assert (S2' : exists d0 d1, s_atoms s2' = [d0; d1] /\ a_r d0 = vzero /\ a_r d1 = mkVec 10 0 0 /\ a_cutoffs d0 = a_cutoffs c0 /\
      a_element d0 = 0%nat /\ a_element d1 = 0%nat).
  { subst s2'. unfold move, set_atoms; cbn. rewrite S2. cbn. do 2 eexists. split; [reflexivity|]. cbn. rewrite U0, R0, T0, K0, T1, K1. auto. }
  destruct S2' as (d0 & d1 & S2' & D0 & D1 & D2 & D3 & D4).
  destruct (Y5 0%nat d0) as (f0 & F0 & (_ & _ & G1 & G2 & G3 & G4 & _) & _); [rewrite S2'; reflexivity|].
  destruct (setup_keeps [[2]] s3) as (s4 & E4 & K4); [auto| |].
  { intros a Ha. apply In_nth_error in Ha as [i Hi]. assert (Hil : (i < length (s_atoms s2'))%nat) by (rewrite <- Y4; apply nth_error_Some; congruence).
    destruct (Y5 i _ (nth_error_at s2' i Hil)) as (a' & Ea & (_ & _ & X1 & _ & _ & X2 & _) & _). assert (a' = a) by congruence. subst a'.
    split; auto. rewrite X1. unfold at_. rewrite S2' in *. destruct i as [|[|i]]; cbn in *; [rewrite D3|rewrite D4|]; lia. }
  destruct (K4 0%nat f0 F0) as (g0 & H1 & H2 & H3).
  exists s1, s2, s3, s4, (mkVec 10 0 0), g0.
  split; [auto|]. split; [apply two_no_list|]. split; [auto|]. split; [auto|]. split; [auto|]. split; [auto|]. split; [auto|]. split; [auto|].
  unfold calculateNumNeighbors. rewrite (H3 2 (count_below 2 (a_nbs c0))) by (rewrite G2, D2; auto).
  assert (EN : a_nbs g0 = []).
  { rewrite H2. apply Permutation_nil. symmetry. rewrite G3.
    destruct (stored_list 0 s2' (Rmax 2 0) pbc3 0 d0 ltac:(intros E; rewrite Hp2 in E; discriminate) ltac:(rewrite Rmax_left; lra) Hp3 ltac:(rewrite S2'; reflexivity)) as (L & _ & L2' & L3).
    destruct (nbs_of s2' (Rmax 2 0) pbc3 0 (a_r d0) (length (s_atoms s2'))) as [|n l]; auto. exfalso.
    inversion L3 as [|[j m] y L' l' Hst _ EL]; subst. assert (HI : In (j, m) ((j, m) :: L')) by (simpl; auto). apply L2' in HI.
    refine (far_apart s2' d0 d1 10 (Rmax 2 0) j m Hp2 _ _ _ D0 D1 _ HI); [rewrite S2'; auto| | |]; try (rewrite S2'; reflexivity).
    rewrite Rmax_left, Rabs_right; lra. }
  rewrite EN. cbn. lia.
Qed.

(** A periodic structure whose atom lies far outside the cell: the neighbor
    pairs are no longer found. *)
Definition unit_box : mat := mkMat (mkVec 1 0 0) (mkVec 0 1 0) (mkVec 0 0 1).
Lemma unit_det : det unit_box = 1.
Proof. unfold det, unit_box, dot, cross; cbn. ring. Qed.
Lemma unit_projections : projections unit_box = (1, 1, 1).
Proof.
  rewrite projections_eq by (rewrite unit_det; lra). rewrite unit_det, Rabs_R1.
  assert (H : forall v, norm2 v = 1 -> 1 / norm v = 1) by (intros v E; unfold norm; rewrite E, sqrt_1; field).
  rewrite !H; [reflexivity| | |]; unfold norm2, cross, unit_box; cbn; ring.
Qed.
Definition outside : structure :=
  mkStruct true unit_box [fresh_atom 0 vzero 1; fresh_atom 0 (mkVec (103/10) 0 0) 1] 1 false false 0.
Lemma outside_no_list : no_list outside.
Proof. intros a [<-|[<-|[]]]; cbn; auto 10. Qed.
Lemma unwrapped : exists nsort fuel rc s s' j m a, is_sort nsort /\ no_list s /\ s_maxrc s <= rc /\ 0 < det (s_box s) /\
  calculateNeighborList nsort fuel rc false s = Some s' /\
  in_range s rc 0 j m /\ nth_error (s_atoms s') 0 = Some a /\ isNeighbor a j = false.
Proof.
  destruct id_sort_exists as [nsort Hs].
  destruct (list_terminates nsort (1/2) false outside outside_no_list) as (f & F); [intros _; cbn [outside s_box]; rewrite unit_det; lra|].
  destruct (F f (le_n _)) as (s' & E).
  pose proof (calculate_spec nsort f (1/2) false outside s' Hs outside_no_list E) as (pbc & Hp & _ & _ & _ & _ & _ & _ & HL & HA).
  destruct (HA 0%nat _ eq_refl) as (a & Ea & (_ & _ & _ & _ & Q & _) & _).
  exists nsort, f, (1/2), outside, s', 1%nat, (10, 0, 0)%Z, a. split; auto. split; [apply outside_no_list|]. split; [cbn; lra|].
  split; [cbn [outside s_box]; rewrite unit_det; lra|]. split; auto. split.
  { do 2 eexists. split; [reflexivity|]. split; [reflexivity|]. split; [discriminate|]. split; [discriminate|].
    unfold displacement, position_of_image, lattice, combine; cbn. apply norm_le_iff; [lra|]. unfold norm2, vsub, vadd, smul; cbn. lra. }
  split; auto. unfold isNeighbor. apply not_true_is_false. intros HB. apply existsb_exists in HB as (n & Hn & En).
  apply Nat.eqb_eq in En. eapply Permutation_in in Hn; [|exact Q]. unfold nbs_of in Hn. apply in_flat_map in Hn as (j & Hj & Hn).
  apply in_map_iff in Hn as (m & <- & Hm). cbn in En. subst j. unfold hits_of in Hm. apply filter_In in Hm as [Hm Ho].
  unfold imgs_of in Hm. cbn [s_periodic outside] in Hm. apply in_images in Hm. change (s_maxrc outside) with 0 in *. rewrite Rmax_left in * by lra.
  unfold copies_for in Hp. cbn [s_periodic outside s_box] in Hp. unfold calculatePbcCopies in Hp. rewrite unit_projections in Hp.
  destruct (copies_loop f 0 1 (1 / 2)) as [k|] eqn:Ek; [|discriminate]. injection Hp as <-.
  apply copies_loop_spec in Ek as (_ & _ & Ek).
  assert (Hk : (k <= 1)%nat). { destruct (Nat.le_gt_cases k 1) as [|Hk]; auto. specialize (Ek 1%nat ltac:(lia)). cbn in Ek. lra. }
  destruct m as [[x y] z]. destruct Hm as (Hx & _ & _).
  unfold ok in Ho. apply andb_true_iff in Ho as [_ Ho]. destruct (Rle_dec _ _) as [Hle|]; [|discriminate]. clear Ho.
  unfold pair_dr, at_, vzero in Hle. cbn in Hle. unfold norm2, vadd, vsub, smul in Hle. cbn in Hle.
  assert (Hx1 : IZR x <= 1) by (apply (IZR_le x 1); lia).
  set (u := IZR x) in *. 
  match type of Hle with ?A * ?A + ?B * ?B + ?C * ?C <= _ => set (p := A) in *; set (q := B) in *; set (r := C) in * end.
  assert (Hp1 : p <= -9) by (subst p; lra).
  assert (0 <= q * q) by apply Rle_0_sqr. assert (0 <= r * r) by apply Rle_0_sqr. assert (81 <= p * p) by nra. lra.
Qed.

(** Recomputing after clearNeighborList. *)
Lemma hits_ext s t rc pbc i ri j : s_periodic s = s_periodic t -> s_box s = s_box t ->
  a_r (at_ s j) = a_r (at_ t j) -> hits_of s rc pbc i ri j = hits_of t rc pbc i ri j.
Proof. intros A B C. unfold hits_of, imgs_of, ok. rewrite A, B, C. reflexivity. Qed.
Lemma nbs_ext s t rc pbc i ri n : s_periodic s = s_periodic t -> s_box s = s_box t ->
  (forall j, (j < n)%nat -> a_r (at_ s j) = a_r (at_ t j) /\ a_element (at_ s j) = a_element (at_ t j)) ->
  nbs_of s rc pbc i ri n = nbs_of t rc pbc i ri n /\ uniq_of s rc pbc i ri n = uniq_of t rc pbc i ri n.
Proof.
  intros A B C. unfold nbs_of, uniq_of. split.
  - rewrite !flat_map_concat_map. f_equal. apply map_ext_in. intros j Hj. apply in_seq in Hj. destruct (C j) as [C1 C2]; [lia|].
    rewrite (hits_ext s t) by auto. rewrite C1, C2. apply map_ext. intros m. unfold mk. rewrite B. reflexivity.
  - apply filter_ext_in. intros j Hj. apply in_seq in Hj. destruct (C j) as [C1 C2]; [lia|]. rewrite (hits_ext s t) by auto. reflexivity.
Qed.
Lemma recompute_same nsort fuel rc b b' s s1 s2 i a1 a2 : is_sort nsort -> no_list s ->
  calculateNeighborList nsort fuel rc b s = Some s1 ->
  calculateNeighborList nsort fuel rc b' (clearNeighborList s1) = Some s2 ->
  nth_error (s_atoms s1) i = Some a1 -> nth_error (s_atoms s2) i = Some a2 ->
  Permutation (a_nbs a2) (a_nbs a1) /\ a_numN a2 = a_numN a1 /\ a_unique a2 = a_unique a1 /\ a_numU a2 = a_numU a1.
Proof.
  intros Hs Hn E1 E2 H1 H2.
  pose proof (calculate_spec nsort fuel rc b s s1 Hs Hn E1) as (pbc & Hp & _ & P1 & P1b & P2 & P3 & _ & P4 & P5).
  assert (AT : forall j, (j < length (s_atoms s))%nat -> a_r (at_ s1 j) = a_r (at_ s j) /\ a_element (at_ s1 j) = a_element (at_ s j)).
  { intros j Hj. destruct (P5 j _ (nth_error_at s j Hj)) as (a & Ea & (_ & R & K & _) & _). rewrite (at_nth s1 j a Ea). auto. }
  assert (Hn2 : no_list (clearNeighborList s1)).
  { apply clear_no_list. intros a Ha. apply In_nth_error in Ha as [j Hj]. rewrite P2.
    assert (Hjl : (j < length (s_atoms s))%nat) by (rewrite <- P4; apply nth_error_Some; congruence).
    destruct (AT j Hjl) as [_ K]. rewrite (at_nth s1 j a Hj) in K. rewrite K. apply (Hn _ (nth_error_In _ _ (nth_error_at s j Hjl))). }
  pose proof (calculate_spec nsort fuel rc b' _ s2 Hs Hn2 E2) as (pbc2 & Hp2 & _ & _ & _ & _ & _ & _ & R4 & R5).
  destruct (clear_keeps s1) as (C1 & C2 & C3 & C4 & C5). rewrite C4, P3 in *. rewrite C1 in *.
  assert (pbc2 = pbc). { unfold copies_for in *. rewrite C2, C3, P1, P1b in Hp2. congruence. } subst pbc2.
  assert (Hil : (i < length (s_atoms s))%nat) by (rewrite <- P4; apply nth_error_Some; congruence).
  destruct (P5 i _ (nth_error_at s i Hil)) as (a1' & F1 & (_ & G1 & _ & _ & G2 & G3 & _ & _ & G4 & G5) & _).
  assert (a1' = a1) by congruence. subst a1'.
  destruct (C5 i a1 H1) as (c & Ec & Rc & _).
  destruct (R5 i c Ec) as (a2' & F2 & (_ & _ & _ & _ & T2 & T3 & _ & _ & T4 & T5) & _).
  assert (a2' = a2) by congruence. subst a2'.
  destruct (nbs_ext (clearNeighborList s1) s (Rmax rc (s_maxrc s)) pbc i (a_r c) (length (s_atoms s))) as [X1 X2].
  { congruence. } { congruence. }
  { intros j Hj. assert (Hj1 : (j < length (s_atoms s1))%nat) by lia. destruct (C5 j _ (nth_error_at s1 j Hj1)) as (d & Ed & Rd & Kd).
    rewrite (at_nth _ j d Ed). destruct (AT j Hj). split; congruence. }
  rewrite C1, P4 in T2, T4. rewrite X1, Rc, G1 in T2. rewrite X2, Rc, G1 in T4.
  assert (Permutation (a_nbs a2) (a_nbs a1)) by (rewrite T2; symmetry; exact G2).
  split; auto. split; [rewrite T3, G3; now apply Permutation_length|]. split; [congruence|]. congruence.
Qed.
