(** Neighbor statistics (C87). *)
From Coq Require Import Reals Lra Lia ZArith Bool Arith.
From Coq Require Import List.
From Verif Require Import Base.SumR Model.SymLines Model.DataAnalysis Spec.ScalingSpec Spec.DataAnalysisSpec
  Proofs.HistogramProofs.
Import ListNotations.
Local Open Scope R_scope.

Definition small (l : list nat) : Prop := forall n, In n l -> (Z.of_nat n < 2 ^ 64)%Z.
Lemma fold_zmin l : forall a, fold_left (fun m n => Z.min m (Z.of_nat n)) l a = Z.min a (fold_left (fun m n => Z.min m (Z.of_nat n)) l size_max) \/ (a > size_max)%Z.
Proof.
  induction l as [|x l IH]; intros a; cbn [fold_left].
  - destruct (Z_le_gt_dec a size_max); [left; lia | right; lia].
  - destruct (Z_le_gt_dec a size_max) as [L|L]; [left | now right].
    destruct (IH (Z.min a (Z.of_nat x))) as [->|G]; [|lia]. destruct (IH (Z.min size_max (Z.of_nat x))) as [->|G]; [|lia]. lia.
Qed.
Lemma min_app l m : min_neighbors (l ++ m) = Z.min (min_neighbors l) (min_neighbors m).
Proof.
  unfold min_neighbors. rewrite fold_left_app. destruct (fold_zmin m (fold_left (fun m n => Z.min m (Z.of_nat n)) l size_max)) as [->|G]; auto.
  exfalso. enough (fold_left (fun m n => Z.min m (Z.of_nat n)) l size_max <= size_max)%Z by lia. clear.
  assert (Q : forall a, (fold_left (fun m n => Z.min m (Z.of_nat n)) l a <= a)%Z). { induction l as [|x l IH]; intros a; cbn [fold_left]; [lia|]. specialize (IH (Z.min a (Z.of_nat x))). lia. }
  apply Q.
Qed.
Lemma min_le l : (min_neighbors l <= size_max)%Z.
Proof.
  unfold min_neighbors. generalize size_max. induction l as [|x l IH]; intros a; cbn [fold_left]; [lia|]. specialize (IH (Z.min a (Z.of_nat x))). lia.
Qed.
Lemma max_app l m : max_neighbors (l ++ m) = Nat.max (max_neighbors l) (max_neighbors m).
Proof.
  unfold max_neighbors. rewrite fold_left_app. generalize (fold_left (fun m n => Nat.max m n) l 0%nat). induction m as [|x m IH]; intros a; cbn; [lia|].
  rewrite IH, (IH x). lia.
Qed.
Lemma sum_app l m : sum_neighbors (l ++ m) = sum_neighbors l + sum_neighbors m.
Proof. unfold sum_neighbors. rewrite fold_left_app, !fold_sum. lra. Qed.
Lemma sum_rsum l : sum_neighbors l = rsum (map INR l).
Proof. unfold sum_neighbors. rewrite fold_sum. lra. Qed.
Lemma min_spec l : small l -> l <> [] -> exists m, In m l /\ min_neighbors l = Z.of_nat m /\ forall n, In n l -> (m <= n)%nat.
Proof.
  induction l as [|x l IH]; intros Sm NE; [congruence|]. change (x :: l) with ([x] ++ l). rewrite min_app.
  assert (X : min_neighbors [x] = Z.of_nat x). { unfold min_neighbors, size_max. cbn [fold_left]. specialize (Sm x (or_introl eq_refl)). lia. }
  rewrite X. destruct l as [|y l].
  - exists x. split; [now left|]. split; [|intros n [<- | []]; lia]. cbn. specialize (Sm x (or_introl eq_refl)). unfold size_max. lia.
  - destruct IH as (m & M & E & L); [intros n N; apply Sm; now right | discriminate|]. rewrite E. destruct (le_lt_dec x m).
    + exists x. split; [now left|]. split; [lia|]. intros n [<- | N]; [lia|]. specialize (L n N). lia.
    + exists m. split; [now right|]. split; [lia|]. intros n [<- | N]; [lia | auto].
Qed.
Lemma max_spec l : l <> [] -> In (max_neighbors l) l /\ forall n, In n l -> (n <= max_neighbors l)%nat.
Proof.
  induction l as [|x l IH]; intros NE; [congruence|]. change (x :: l) with ([x] ++ l). rewrite max_app. cbn [max_neighbors fold_left Nat.max].
  change (max_neighbors [x]) with x. destruct l as [|y l].
  - cbn. split; [left; lia|]. intros n [<- | []]; lia.
  - destruct IH as (M & L); [discriminate|]. split.
    + destruct (Nat.max_spec x (max_neighbors (y :: l))) as [(_ & ->) | (_ & ->)]; [now right | now left].
    + intros n [<- | N]; [lia|]. specialize (L n N). lia.
Qed.

Lemma global_spec p : global p = (length (flat_map snd p), min_neighbors (flat_map snd p), max_neighbors (flat_map snd p), sum_neighbors (flat_map snd p)).
Proof.
  unfold global.
  assert (Q : forall n mn mx m, (mn <= size_max)%Z -> fold_left (fun g (s : nb_structure) => let '(n, mn, mx, m) := g in
     ((n + length (snd s))%nat, Z.min mn (min_neighbors (snd s)), Nat.max mx (max_neighbors (snd s)), m + sum_neighbors (snd s))) p (n, mn, mx, m) =
     ((n + length (flat_map snd p))%nat, Z.min mn (min_neighbors (flat_map snd p)), Nat.max mx (max_neighbors (flat_map snd p)), m + sum_neighbors (flat_map snd p))).
  { induction p as [|s p IH]; intros n mn mx m L; cbn [fold_left flat_map].
    - cbn. rewrite Z.min_l, Nat.max_0_r, Nat.add_0_r by exact L. f_equal. unfold sum_neighbors. cbn. lra.
    - rewrite IH by (pose proof (min_le (snd s)); lia). rewrite app_length, min_app, max_app, sum_app. f_equal; [f_equal; [f_equal|]|]; try lia. lra. }
  rewrite Q by lia. pose proof (min_le (flat_map snd p)). rewrite Z.min_r by lia. cbn [Nat.add Nat.max]. f_equal. lra.
Qed.
Lemma reduce_spec procs : reduce_global (map global procs) =
  (length (all_counts procs), min_neighbors (all_counts procs), max_neighbors (all_counts procs), sum_neighbors (all_counts procs)).
Proof.
  unfold all_counts. induction procs as [|p procs IH]; [reflexivity|]. cbn [map reduce_global fold_right concat]. fold (reduce_global (map global procs)).
  rewrite IH, global_spec, flat_map_app, app_length, min_app, max_app, sum_app. reflexivity.
Qed.
Lemma fill_counts p : forall h, fold_left (fun h (s : nb_structure) => fold_left (fun h k => increment h (INR k)) (snd s) h) p h =
  fold_left increment (map INR (flat_map snd p)) h.
Proof.
  induction p as [|s p IH]; intros h; cbn [fold_left flat_map]; [reflexivity|]. rewrite IH, map_app, fold_left_app. f_equal.
  generalize h. induction (snd s) as [|k l IHl]; intros h'; cbn; auto.
Qed.
Lemma number_is_count k l : number_in (INR k - 1 / 2) (INR k + 1 / 2) (map INR l) = count_occ Nat.eq_dec l k.
Proof.
  induction l as [|x l IH]; [reflexivity|]. apply INR_eq. cbn [map]. rewrite number_in_cons, IH. cbn [count_occ].
  destruct (Nat.eq_dec x k) as [->|N].
  - rewrite (proj2 (dec_in_iff _ _ _)) by lra. rewrite S_INR. lra.
  - destruct (dec_in _ _ _) eqn:D; [|lra]. apply dec_in_iff in D. exfalso. apply N. apply INR_eq.
    destruct (le_lt_dec x k) as [L|L].
    + destruct (Nat.eq_dec x k); [congruence|]. assert (Q : (S x <= k)%nat) by lia. apply le_INR in Q. rewrite S_INR in Q. lra.
    + assert (Q : (S k <= x)%nat) by lia. apply le_INR in Q. rewrite S_INR in Q. lra.
Qed.
Lemma Forall2_flat_map {A B} (f : A -> B) (P : A -> B -> Prop) ls : (forall x, In x (concat ls) -> P x (f x)) -> Forall2 P (concat ls) (flat_map (map f) ls).
Proof.
  intros H. assert (E : flat_map (map f) ls = map f (concat ls)). { clear. induction ls as [|l ls IH]; cbn; [reflexivity|]. now rewrite map_app, IH. }
  rewrite E. revert H. generalize (concat ls). intros l. induction l; cbn; intros H; constructor; auto.
Qed.
Theorem neighbor_histogram_correct procs : small (all_counts procs) ->
  let r := writeNeighborHistogram procs in
  nr_histogram r = map (fun k => (INR k - 1 / 2, INR k + 1 / 2, INR (count_occ Nat.eq_dec (all_counts procs) k))) (seq 0 (nr_max r + 1)) /\
  (all_counts procs <> [] ->
     (In (nr_max r) (all_counts procs) /\ forall n, In n (all_counts procs) -> (n <= nr_max r)%nat) /\
     (exists m, In m (all_counts procs) /\ nr_min r = Z.of_nat m /\ forall n, In n (all_counts procs) -> (m <= n)%nat) /\
     nr_mean r = rsum (map INR (all_counts procs)) / INR (length (all_counts procs))) /\
  Forall2 structure_row (concat procs) (nr_rows r).
Proof.
  intros Sm. unfold writeNeighborHistogram. rewrite reduce_spec. cbn [nr_histogram nr_max nr_min nr_mean nr_rows]. split; [|split].
  - set (mx := max_neighbors (all_counts procs)).
    replace (INR mx + 1 / 2) with (- (1 / 2) + INR (mx + 1) * 1) by (rewrite plus_INR; cbn; lra).
    set (h0 := uniform _ _ _).
    assert (E0 : map (fun p => fold_left (fun h (s : nb_structure) => fold_left (fun h k => increment h (INR k)) (snd s) h) p h0) procs =
       map (fun V => fold_left increment V h0) (map (fun p : list nb_structure => map INR (flat_map snd p)) procs)).
    { rewrite map_map. apply map_ext. intros p. apply fill_counts. }
    rewrite E0. unfold h0.
    rewrite filled by (lia || lra). apply map_ext. intros k.
    assert (E : concat (map (fun p : list nb_structure => map INR (flat_map snd p)) procs) = map INR (all_counts procs)).
    { unfold all_counts. clear. induction procs as [|p procs IH]; cbn; [reflexivity|]. now rewrite flat_map_app, map_app, IH. }
    rewrite E. rewrite !Rmult_1_r, plus_INR. cbn [INR]. replace (- (1 / 2) + INR k) with (INR k - 1 / 2) by lra.
    replace (- (1 / 2) + (INR k + 1)) with (INR k + 1 / 2) by lra. now rewrite number_is_count.
  - intros NE. split; [now apply max_spec|]. split; [now apply min_spec|]. now rewrite sum_rsum.
  - apply Forall2_flat_map. intros s Hs. unfold structure_row, statistics_row. cbn. split; [lia|]. split; auto. intros NE. split; [|split].
    + apply min_spec; auto. intros n N. apply Sm. unfold all_counts. apply in_flat_map. eauto.
    + now apply max_spec.
    + now rewrite sum_rsum.
Qed.
