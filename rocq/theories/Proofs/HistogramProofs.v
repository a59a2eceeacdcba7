(** Histograms (C87). *)
From Coq Require Import Reals Lra Lia ZArith Bool Arith.
From Coq Require Import List.
From Verif Require Import Base.SumR Model.Scaling Model.SymLines Model.DataAnalysis Spec.ScalingSpec Spec.DataAnalysisSpec
  Proofs.ScalingProofs Proofs.SymLineProofs.
Import ListNotations.
Local Open Scope R_scope.

Definition dec_in (lo hi v : R) : bool := if Rle_dec lo v then if Rlt_dec v hi then true else false else false.
Lemma dec_in_iff lo hi v : dec_in lo hi v = true <-> lo <= v < hi.
Proof. unfold dec_in. destruct (Rle_dec lo v), (Rlt_dec v hi); split; intros; try discriminate; auto; lra. Qed.
Lemma number_in_cons lo hi v V : INR (number_in lo hi (v :: V)) = (if dec_in lo hi v then 1 else 0) + INR (number_in lo hi V).
Proof. unfold number_in. cbn [filter]. fold (dec_in lo hi v). destruct (dec_in lo hi v); [cbn [length]; rewrite S_INR; lra | lra]. Qed.
Lemma number_in_app lo hi V W : number_in lo hi (V ++ W) = (number_in lo hi V + number_in lo hi W)%nat.
Proof. unfold number_in. rewrite filter_app, app_length. reflexivity. Qed.

(** ** Bins *)
Lemma seq_map_S {A} (f : nat -> A) n k : map f (seq (S k) n) = map (fun i => f (S i)) (seq k n).
Proof. rewrite <- seq_shift, map_map. reflexivity. Qed.
Lemma find_uniform n : forall (f : nat -> R), (forall i j, (i < j)%nat -> f i < f j) -> forall x i,
  find_bin (map f (seq 0 (n + 1))) x = Some i <-> (i < n)%nat /\ f i <= x < f (S i).
Proof.
  induction n as [|n IH]; intros f Mf x i.
  - cbn. split; [discriminate | lia].
  - replace (S n + 1)%nat with (S (n + 1)) by lia. cbn [seq map]. rewrite seq_map_S.
    assert (Q := IH (fun i => f (S i)) ltac:(intros a b H; apply Mf; lia) x).
    destruct (n + 1)%nat as [|m] eqn:E; [lia|]. cbn [seq map] in *. cbn [find_bin].
    assert (mono : forall a b, (a <= b)%nat -> f a <= f b).
    { intros a b H. destruct (Nat.eq_dec a b) as [->|N]; [lra|]. left. apply Mf. lia. }
    assert (tail : forall o, (forall j, o = Some j <-> (j < n)%nat /\ f (S j) <= x < f (S (S j))) -> ~ (f 0%nat <= x < f 1%nat) ->
       (option_map S o = Some i <-> (i < S n)%nat /\ f i <= x < f (S i))).
    { intros o O NN. split.
      - destruct o as [j|]; [|discriminate]. cbn. intros [= <-]. destruct (proj1 (O j) eq_refl). split; [lia | auto].
      - intros (L & B). destruct i as [|j]; [tauto|]. rewrite (proj2 (O j)); [reflexivity | split; [lia | auto]]. }
    destruct (Rle_dec (f 0%nat) x) as [A|A]; [destruct (Rlt_dec x (f 1%nat)) as [B|B]|].
    + split; [intros [= <-]; split; [lia | auto]|]. intros (L & C). f_equal. destruct i as [|j]; auto. exfalso.
      pose proof (mono 1%nat (S j) ltac:(lia)). lra.
    + apply tail; [exact Q | lra].
    + apply tail; [exact Q | lra].
Qed.
Lemma add_one_map (g : nat -> R) n : forall k i, add_one (map g (seq k n)) i = map (fun j => if Nat.eqb j (k + i) then g j + 1 else g j) (seq k n).
Proof.
  induction n as [|n IH]; intros k i; cbn; [destruct i; auto|]. destruct i as [|i]; cbn.
  - rewrite Nat.add_0_r, Nat.eqb_refl. f_equal. apply map_ext_in. intros j J. apply in_seq in J. destruct (Nat.eqb_spec j k); [lia | auto].
  - destruct (Nat.eqb_spec k (k + S i)); [lia|]. f_equal. rewrite IH. apply map_ext. intros j. now replace (S k + i)%nat with (k + S i)%nat by lia.
Qed.
Lemma fill_uniform (f : nat -> R) n : (forall i j, (i < j)%nat -> f i < f j) -> forall V g,
  fold_left increment V (mkHist (map f (seq 0 (n + 1))) (map g (seq 0 n))) =
  mkHist (map f (seq 0 (n + 1))) (map (fun i => g i + INR (number_in (f i) (f (S i)) V)) (seq 0 n)).
Proof.
  intros Mf V. induction V as [|v V IH]; intros g; cbn [fold_left].
  - f_equal. apply map_ext. intros i. cbn. lra.
  - transitivity (fold_left increment V (mkHist (map f (seq 0 (n + 1))) (map (fun i => g i + (if dec_in (f i) (f (S i)) v then 1 else 0)) (seq 0 n)))).
    + f_equal. unfold increment. cbn [h_range h_bin]. destruct (find_bin _ v) as [i|] eqn:E.
      * f_equal. rewrite add_one_map. cbn [Nat.add]. apply map_ext_in. intros j J. apply in_seq in J.
        apply find_uniform in E; auto. destruct E as (L & B). destruct (Nat.eqb_spec j i) as [->|N].
        -- destruct (dec_in (f i) (f (S i)) v) eqn:D; auto. apply Bool.not_true_iff_false in D. rewrite dec_in_iff in D. lra.
        -- destruct (dec_in (f j) (f (S j)) v) eqn:D; [|lra]. apply dec_in_iff in D. exfalso.
           assert (Q1 : find_bin (map f (seq 0 (n + 1))) v = Some i) by (apply find_uniform; auto).
           assert (Q2 : find_bin (map f (seq 0 (n + 1))) v = Some j) by (apply find_uniform; auto; split; [lia|auto]). congruence.
      * f_equal. apply map_ext_in. intros j J. apply in_seq in J. destruct (dec_in (f j) (f (S j)) v) eqn:D; [|lra]. apply dec_in_iff in D. exfalso.
        assert (Q : find_bin (map f (seq 0 (n + 1))) v = Some j) by (apply find_uniform; auto; split; [lia|auto]). congruence.
    + rewrite IH. f_equal. apply map_ext. intros i. rewrite number_in_cons. lra.
Qed.
Lemma rows_uniform (f g : nat -> R) n : rows (mkHist (map f (seq 0 (n + 1))) (map g (seq 0 n))) = map (fun i => (f i, f (S i), g i)) (seq 0 n).
Proof.
  unfold rows. cbn [h_range h_bin]. replace (n + 1)%nat with (S n) by lia. cbn [seq map tl]. change (f 0%nat :: map f (seq 1 n)) with (map f (seq 0 (S n))). rewrite seq_map_S.
  assert (Q : forall k n (h : nat -> R) (g : nat -> R), combine (combine (map f (seq k (S n))) (map h (seq k n))) (map g (seq k n)) = map (fun i => (f i, h i, g i)) (seq k n)).
  { clear. intros k n. revert k. induction n as [|n IH]; intros k h g; [reflexivity|]. 
    change (seq k (S (S n))) with (k :: seq (S k) (S n)). change (seq k (S n)) with (k :: seq (S k) n). cbn [map combine]. f_equal. apply IH. }
  apply Q.
Qed.
Lemma repeat_map (c : R) n : forall k, repeat c n = map (fun _ => c) (seq k n).
Proof. induction n as [|n IH]; intros k; cbn; f_equal. apply IH. Qed.
Lemma allreduce_map n (gs : list (nat -> R)) :
  allreduce_bins n (map (fun g => map g (seq 0 n)) gs) = map (fun i => rsum (map (fun g => g i) gs)) (seq 0 n).
Proof.
  induction gs as [|g gs IH]; cbn.
  - apply repeat_map.
  - unfold allreduce_bins in *. cbn. rewrite IH. unfold add_bins. generalize (seq 0 n). intros l. induction l; cbn; f_equal; auto.
Qed.

(** ** Symmetry function histograms *)
Lemma all_values_concat e s procs : concat (map (values_on e s) procs) = all_values e s procs.
Proof. unfold all_values. induction procs as [|p procs IH]; [reflexivity|]. cbn [map concat]. rewrite IH, flat_map_app. reflexivity. Qed.
Lemma limits_spec e s procs : finite_values procs ->
  all_values e s procs <> [] -> is_minimum (fst (limits e s procs)) (all_values e s procs) /\ is_maximum (snd (limits e s procs)) (all_values e s procs).
Proof.
  intros F NE. unfold limits.
  assert (H : Forall2 holds (map (values_on e s) procs) (map (fun atoms => fold_left c_addValue (values_on e s atoms) container_init) procs)).
  { assert (F' : forall p, In p procs -> Forall finite_double (values_on e s p)).
    { intros p P. apply Forall_forall. intros x X. unfold values_on in X. apply in_flat_map in X. destruct X as (a & A & B).
      destruct (Nat.eqb (fst a) e); [|destruct B]. destruct (nth_error (snd a) s) as [g|] eqn:E; [|destruct B]. destruct B as [<- | []].
      eapply Forall_forall; [eapply F; eauto | eapply nth_error_In; eauto]. }
    clear F NE. induction procs as [|p procs IH]; cbn; constructor; [|apply IH; intros; apply F'; now right].
    specialize (F' p (or_introl eq_refl)). generalize dependent (values_on e s p). clear. intros l F.
    assert (G : forall l c, c_count (fold_left c_addValue l c) = (c_count c + length l)%nat /\
       c_min (fold_left c_addValue l c) = fold_left Rmin l (c_min c) /\ c_max (fold_left c_addValue l c) = fold_left Rmax l (c_max c) /\
       c_sum (fold_left c_addValue l c) = c_sum c + rsum l /\ c_sum2 (fold_left c_addValue l c) = c_sum2 c + rsum (map (fun x => x * x) l)).
    { clear. induction l as [|x l IH]; intros c; cbn; [repeat split; try lia; lra|].
      destruct (IH (c_addValue c x)) as (A & B & C & D & E). rewrite A, B, C, D, E. cbn. repeat split; try lia; lra. }
    destruct (G l container_init) as (A & B & C & D & E). unfold holds, statistics_of. rewrite A, B, C, D, E. cbn [c_count container_init c_min c_max c_sum c_sum2].
    split; [|split]; auto.
    - split; [lia|]. split; [lra|]. split; [lra|]. intros N. split.
      + apply fold_min_spec; auto. intros x X. apply (proj1 (Forall_forall _ _) F x X).
      + apply fold_max_spec; auto. intros x X. apply (proj1 (Forall_forall _ _) F x X).
    - intros ->. split; reflexivity. }
  pose proof (allreduce_stats_spec _ _ H) as Q. destruct (allreduce_stats _) as [[[[n mn] mx] s1] s2]. cbn.
  pose proof (all_values_concat e s procs) as E.
  destruct Q as (_ & _ & _ & Q). rewrite E in Q. apply (Q NE).
Qed.

Lemma limits_vary e s procs : finite_values procs -> (fst (limits e s procs) < snd (limits e s procs) <-> varies (all_values e s procs)).
Proof.
  intros F. destruct (all_values e s procs) as [|v V] eqn:E.
  - split; [|intros (x & y & [] & _)]. intros L. exfalso. revert L. unfold limits.
    assert (Q : forall p, In p procs -> values_on e s p = []).
    { intros p P. apply in_split in P. destruct P as (a & b & ->). unfold all_values in E. rewrite concat_app in E. cbn in E.
      rewrite !flat_map_app in E. apply app_eq_nil in E. destruct E as (_ & E). apply app_eq_nil in E. apply E. }
    clear E F. assert (M : - dbl_max <= dbl_max).
    { unfold dbl_max. assert (0 < / 2 ^ 52 < 1) by (split; [apply Rinv_0_lt_compat; lra | rewrite <- Rinv_1; apply Rinv_lt_contravar; lra]).
      assert (0 < 2 ^ 1023) by (apply pow_lt; lra). nra. }
    unfold allreduce_stats. cbn [fst snd].
    assert (A : fold_right (fun c m => Rmin (c_min c) m) dbl_max (map (fun atoms => fold_left c_addValue (values_on e s atoms) container_init) procs) = dbl_max /\
                fold_right (fun c m => Rmax (c_max c) m) (- dbl_max) (map (fun atoms => fold_left c_addValue (values_on e s atoms) container_init) procs) = - dbl_max).
    { induction procs as [|p procs IH]; [split; reflexivity|]. cbn [map fold_right]. destruct IH as (-> & ->); [intros; apply Q; now right|].
      rewrite (Q p (or_introl eq_refl)). cbn [fold_left container_init c_min c_max]. rewrite Rmin_left, Rmax_left by apply Rle_refl. split; reflexivity. }
    destruct A as (-> & ->). lra.
  - destruct (limits_spec e s procs F) as ((A & B) & C & D); [rewrite E; discriminate|]. rewrite E in *. split.
    + intros L. exists (fst (limits e s procs)), (snd (limits e s procs)). auto.
    + intros (x & y & X & Y & L). specialize (B x X). specialize (D y Y). lra.
Qed.
Lemma fill_values e s atoms h : fold_left (fun h a => fill_one s h e a) atoms h = fold_left increment (values_on e s atoms) h.
Proof.
  revert h. induction atoms as [|a atoms IH]; intros h; cbn [fold_left values_on flat_map]; auto.
  rewrite fold_left_app, IH. unfold values_on. f_equal. unfold fill_one. destruct (Nat.eqb (fst a) e); auto. destruct (nth_error (snd a) s); auto.
Qed.
Lemma number_in_concat lo hi ls : rsum (map (fun l => INR (number_in lo hi l)) ls) = INR (number_in lo hi (concat ls)).
Proof. induction ls as [|l ls IH]; cbn -[number_in INR]; [reflexivity|]. rewrite number_in_app, plus_INR, IH. reflexivity. Qed.
Lemma uniform_limits n l w i : (0 < n)%nat -> (i <= n)%nat ->
  INR (n - i) / INR n * l + INR i / INR n * (l + INR n * w) = l + INR i * w.
Proof. intros N I. rewrite minus_INR by lia. field. apply not_0_INR. lia. Qed.
Lemma filled numBins l w (Vs : list (list R)) : (0 < numBins)%nat -> 0 < w ->
  let h0 := uniform numBins l (l + INR numBins * w) in
  rows (mkHist (h_range h0) (allreduce_bins numBins (map h_bin (map (fun V => fold_left increment V h0) Vs)))) =
  map (fun k => (l + INR k * w, l + INR (k + 1) * w, INR (number_in (l + INR k * w) (l + INR (k + 1) * w) (concat Vs)))) (seq 0 numBins).
Proof.
  intros N W h0. set (f := fun i => l + INR i * w).
  assert (Mf : forall i j, (i < j)%nat -> f i < f j). { intros i j L. unfold f. apply lt_INR in L. nra. }
  assert (E : h0 = mkHist (map f (seq 0 (numBins + 1))) (map (fun _ => 0) (seq 0 numBins))).
  { unfold h0, uniform. f_equal.
    - apply map_ext_in. intros i I. apply in_seq in I. apply uniform_limits; lia.
    - apply repeat_map. }
  assert (B : map h_bin (map (fun V => fold_left increment V h0) Vs) =
     map (fun g => map g (seq 0 numBins)) (map (fun V i => 0 + INR (number_in (f i) (f (S i)) V)) Vs)).
  { rewrite !map_map. apply map_ext. intros V. rewrite E, fill_uniform by exact Mf. reflexivity. }
  rewrite B, allreduce_map, E. cbn [h_range]. rewrite rows_uniform. apply map_ext. intros k. unfold f at 1 2. rewrite (Nat.add_1_r k). f_equal.
  rewrite map_map, <- number_in_concat. f_equal. apply map_ext. intros V. unfold f. lra.
Qed.
Lemma number_total n : forall (f : nat -> R) V, (forall i j, (i < j)%nat -> f i < f j) -> (forall v, In v V -> f 0%nat <= v < f n) ->
  rsum (map (fun k => INR (number_in (f k) (f (S k)) V)) (seq 0 n)) = INR (length V).
Proof.
  intros f V Mf. induction V as [|v V IH]; intros B.
  - cbn [length]. apply rsum_zero. intros k _. reflexivity.
  - rewrite (rsum_ext _ (fun k => (if dec_in (f k) (f (S k)) v then 1 else 0) + INR (number_in (f k) (f (S k)) V))) by (intros; apply number_in_cons).
    rewrite rsum_plus, IH by (intros; apply B; now right). cbn [length]. rewrite S_INR. enough (rsum (map (fun k => if dec_in (f k) (f (S k)) v then 1 else 0) (seq 0 n)) = 1) by lra.
    destruct (find_bin (map f (seq 0 (n + 1))) v) as [i|] eqn:E.
    + apply find_uniform in E; auto. destruct E as (L & D). change (sumn n (fun k => if dec_in (f k) (f (S k)) v then 1 else 0) = 1).
      rewrite (sumn_single n _ i L).
      * apply dec_in_iff in D. now rewrite D.
      * intros j J N. destruct (dec_in (f j) (f (S j)) v) eqn:DD; auto. apply dec_in_iff in DD. exfalso.
        assert (Q1 : find_bin (map f (seq 0 (n + 1))) v = Some i) by (apply find_uniform; auto).
        assert (Q2 : find_bin (map f (seq 0 (n + 1))) v = Some j) by (apply find_uniform; auto). congruence.
    + exfalso. specialize (B v (or_introl eq_refl)).
      assert (Q : forall m, (m <= n)%nat -> f m <= v).
      { induction m as [|m IHm]; [intros; apply B|]. intros Hm. destruct (Rle_dec (f (S m)) v); auto. exfalso.
        assert (Q2 : find_bin (map f (seq 0 (n + 1))) v = Some m) by (apply find_uniform; auto; split; [lia | split; [apply IHm; lia | lra]]). congruence. }
      specialize (Q n (le_n n)). lra.
Qed.
Lemma histogram_file_ok numBins procs e s : (2 <= numBins)%nat -> finite_values procs ->
  (~ varies (all_values e s procs) /\ histogram_file numBins procs (e, s) = Done []) \/
  (varies (all_values e s procs) /\ exists mn mx file, is_minimum mn (all_values e s procs) /\ is_maximum mx (all_values e s procs) /\
     histogram_file numBins procs (e, s) = Done [(e, s, file)] /\
     is_histogram (all_values e s procs) mn ((mx - mn) / INR (numBins - 1)) numBins file /\
     rsum (counts file) = INR (length (all_values e s procs))).
Proof.
  intros N F. pose proof (limits_vary e s procs F) as LV. unfold histogram_file. pose proof (limits_spec e s procs F) as LS.
  destruct (limits e s procs) as (l, h). cbn [fst snd] in *. unfold new_histogram. destruct (Rlt_dec l h) as [L|L].
  2:{ left. split; [tauto | reflexivity]. }
  right. split; [tauto|].
  assert (NE : all_values e s procs <> []) by (apply LV in L; destruct L as (x & y & X & _); intros Q; rewrite Q in X; destruct X).
  destruct (LS NE) as (Mn & Mx). exists l, h.
  destruct (Nat.ltb_spec numBins 2); [lia|]. cbn [bindo].
  set (w := (h - l) / INR (numBins - 1)).
  assert (P : 0 < INR (numBins - 1)) by (apply lt_0_INR; lia).
  assert (W : 0 < w) by (apply Rdiv_lt_0_compat; lra).
  assert (HH : h = l + INR (numBins - 1) * w) by (unfold w; field; lra).
  replace (numBins - 1 + 1)%nat with numBins by lia.
  replace (h + w) with (l + INR numBins * w).
  2:{ rewrite HH. rewrite minus_INR by lia. cbn [INR]. ring. }
  eexists. split; [exact Mn|]. split; [exact Mx|]. split.
  { reflexivity. }
  assert (E : rows (mkHist (h_range (uniform numBins l (l + INR numBins * w)))
     (allreduce_bins numBins (map h_bin (map (fun atoms => fold_left (fun h a => fill_one s h e a) atoms (uniform numBins l (l + INR numBins * w))) procs)))) =
     map (fun k => (l + INR k * w, l + INR (k + 1) * w, INR (number_in (l + INR k * w) (l + INR (k + 1) * w) (all_values e s procs)))) (seq 0 numBins)).
  { rewrite <- all_values_concat, <- filled by (auto; lia). f_equal. f_equal. f_equal. rewrite !map_map. apply map_ext. intros a. now rewrite fill_values. }
  rewrite E. split.
  - split; [now rewrite map_length, seq_length|]. intros k K. rewrite nth_error_map.
    rewrite (nth_error_nth' _ 0%nat) by now rewrite seq_length. rewrite seq_nth by lia. reflexivity.
  - unfold counts. rewrite map_map. cbn [snd].
    rewrite (map_ext _ (fun k => INR (number_in (l + INR k * w) (l + INR (S k) * w) (all_values e s procs)))) by (intros; now rewrite Nat.add_1_r).
    apply (number_total numBins (fun k : nat => l + INR k * w)).
    + intros i j Lij. apply lt_INR in Lij. nra.
    + intros v V. destruct Mn as (_ & Mn). destruct Mx as (_ & Mx). specialize (Mn v V). specialize (Mx v V). cbn [INR].
      split; [lra|]. rewrite HH in Mx. apply Rle_lt_trans with (1 := Mx). apply Rplus_lt_compat_l. apply Rmult_lt_compat_r; auto. apply lt_INR. lia.
Qed.

(** Every histogram. *)
Lemma mapo_concat {A B} (f : A -> outcome (list B)) l ls : mapo f l = Done ls ->
  forall y, In y (concat ls) <-> exists x ys, In x l /\ f x = Done ys /\ In y ys.
Proof.
  revert ls. induction l as [|x l IH]; intros ls; cbn.
  - intros [= <-] y. split; [intros [] | intros (x & ys & [] & _)].
  - intros H. apply bindo_done in H. destruct H as (a & A1 & H). apply bindo_done in H. destruct H as (bs & B1 & H). injection H as <-.
    intros y. cbn. rewrite in_app_iff, (IH _ B1). split.
    + intros [I | (x' & ys & X & Y & Z)]; [exists x, a | exists x', ys]; auto.
    + intros (x' & ys & [<- | X] & Y & Z); [left; congruence | right; eauto].
Qed.
Lemma labels_in numSF e s : In (e, s) (flat_map (fun e => map (fun s => (e, s)) (seq 0 (nth e numSF 0%nat))) (seq 0 (length numSF))) <->
  exists n, nth_error numSF e = Some n /\ (s < n)%nat.
Proof.
  rewrite in_flat_map. split.
  - intros (e' & E & S'). apply in_map_iff in S'. destruct S' as (s' & [= <- <-] & S'). apply in_seq in E, S'.
    exists (nth e' numSF 0%nat). split; [apply nth_error_nth'; lia | lia].
  - intros (n & N & L). exists e. split; [apply in_seq; split; [lia|]; cbn; apply nth_error_Some; congruence|].
    apply in_map_iff. exists s. split; auto. apply in_seq. rewrite (nth_error_nth _ _ _ N). lia.
Qed.
Lemma fits_iff numSF procs : forallb (forallb (fits_elements numSF)) procs = true <-> known numSF procs.
Proof.
  rewrite forallb_forall. unfold known. split.
  - intros H p a P A. specialize (H p P). rewrite forallb_forall in H. specialize (H a A). unfold fits_elements in H.
    destruct (nth_error numSF (fst a)) as [n|]; [|discriminate]. exists n. split; auto. now apply Nat.leb_le.
  - intros H p P. apply forallb_forall. intros a A. destruct (H p a P A) as (n & N & L). unfold fits_elements. rewrite N. now apply Nat.leb_le.
Qed.
Theorem histograms_correct numBins numSF procs : (2 <= numBins)%nat -> finite_values procs -> known numSF procs ->
  exists files, writeSymmetryFunctionHistograms numBins numSF procs = Done files /\
  (forall e s file, In (e, s, file) files -> exists n, nth_error numSF e = Some n /\ (s < n)%nat /\ varies (all_values e s procs)) /\
  forall e n s, nth_error numSF e = Some n -> (s < n)%nat -> varies (all_values e s procs) ->
  exists mn mx file, is_minimum mn (all_values e s procs) /\ is_maximum mx (all_values e s procs) /\
    (forall file', In (e, s, file') files <-> file' = file) /\
    is_histogram (all_values e s procs) mn ((mx - mn) / INR (numBins - 1)) numBins file /\
    rsum (counts file) = INR (length (all_values e s procs)).
Proof.
  intros N F K. unfold writeSymmetryFunctionHistograms. rewrite (proj2 (fits_iff _ _) K).
  set (labels := flat_map _ _).
  assert (D : exists ls, mapo (histogram_file numBins procs) labels = Done ls).
  { generalize labels. induction labels0 as [|(e, s) l (ls & IH)]; [eexists; reflexivity|]. cbn [mapo].
    destruct (histogram_file_ok numBins procs e s N F) as [(_ & ->) | (_ & mn & mx & file & _ & _ & -> & _)]; cbn [bindo]; rewrite IH; eexists; reflexivity. }
  destruct D as (ls & D). rewrite D. cbn [bindo]. exists (concat ls). split; [reflexivity|]. pose proof (mapo_concat _ _ _ D) as Q. split.
  - intros e s file I. apply Q in I. destruct I as ((e', s') & ys & X & Y & Z).
    destruct (histogram_file_ok numBins procs e' s' N F) as [(_ & E) | (V & mn & mx & f & _ & _ & E & _)]; rewrite E in Y; injection Y as <-; [destruct Z|].
    destruct Z as [[= <- <- <-] | []]. apply labels_in in X. destruct X as (n & X1 & X2). exists n. auto.
  - intros e n s E L V. destruct (histogram_file_ok numBins procs e s N F) as [(NV & _) | (_ & mn & mx & f & A & B & C & H & T)]; [tauto|].
    exists mn, mx, f. split; auto. split; auto. split; [|auto]. intros file'. rewrite Q. split.
    + intros ((e', s') & ys & X & Y & Z).
      destruct (histogram_file_ok numBins procs e' s' N F) as [(_ & E') | (_ & mn' & mx' & f' & _ & _ & E' & _)]; rewrite E' in Y; injection Y as <-; [destruct Z|].
      destruct Z as [Z | []]. injection Z as -> -> ->. congruence.
    + intros ->. exists (e, s), [(e, s, f)]. split; [apply labels_in; eauto|]. split; [exact C | now left].
Qed.
