From Coq Require Import List Arith Reals Lra Bool Lia Permutation.
From Verif Require Import Model.SymFunctions Model.Selection Spec.SelectionSpec Proofs.SelectionProofs.
Import ListNotations.

(** * Schedule *)
Lemma count_repeat i n j : count_occ Nat.eq_dec (repeat i n) j = if Nat.eqb i j then n else 0.
Proof. induction n as [|n IH]; cbn [repeat count_occ]; [now destruct (Nat.eqb i j)|]. rewrite IH. destruct (Nat.eq_dec i j), (Nat.eqb_spec i j); congruence || lia. Qed.
Lemma count_concat (f : nat -> nat) j : forall l, NoDup l ->
  count_occ Nat.eq_dec (concat (map (fun i => repeat i (f i)) l)) j = if in_dec Nat.eq_dec j l then f j else 0.
Proof.
  induction l as [|a l IH]; intros N; [reflexivity|]. inversion N as [|? ? Ha Nl]; subst. cbn [map concat]. rewrite count_occ_app, count_repeat, (IH Nl).
  destruct (Nat.eqb_spec a j) as [E|E].
  - subst j. destruct (in_dec Nat.eq_dec a l); [contradiction|]. destruct (in_dec Nat.eq_dec a (a :: l)) as [|Hn]; [lia|]. exfalso. apply Hn. now left.
  - destruct (in_dec Nat.eq_dec j l) as [i|i]; destruct (in_dec Nat.eq_dec j (a :: l)) as [i'|i']; auto.
    + exfalso. apply i'. now right.
    + exfalso. destruct i' as [i'|i']; [congruence|contradiction].
Qed.
Lemma schedule_counts shuffle numUpdates : (forall l, Permutation (shuffle l) l) ->
  forall i, count_occ Nat.eq_dec (setEpochSchedule shuffle numUpdates) i = nth i numUpdates 0.
Proof.
  intros H i. unfold setEpochSchedule.
  assert (G : count_occ Nat.eq_dec (concat (map (fun i => repeat i (nth i numUpdates 0)) (rev (seq 0 (length numUpdates))))) i = nth i numUpdates 0).
  { rewrite (count_concat (fun i => nth i numUpdates 0)) by (apply NoDup_rev, seq_NoDup). destruct (in_dec Nat.eq_dec i (rev (seq 0 (length numUpdates)))) as [I|I]; [reflexivity|].
    symmetry. apply nth_overflow. destruct (le_lt_dec (length numUpdates) i); auto. exfalso. apply I. rewrite <- in_rev. apply in_seq. lia. }
  destruct (Nat.eqb _ 1); [exact G|]. rewrite <- G. apply (Permutation_count_occ Nat.eq_dec). apply H.
Qed.

(** * Going through the candidates *)
Lemma map_add_seq b : forall n a, map (fun j => b + j) (seq a n) = seq (b + a) n.
Proof. induction n as [|n IH]; intros a; [reflexivity|]. cbn [seq map]. f_equal. rewrite IH. f_equal. lia. Qed.
Lemma selectBatch_plain grouped frac : forall batch u, ready false u -> u_mode u <> SM_THRESHOLD ->
  exists u', selectBatch false frac grouped batch u = Some (map (tried false u) (seq 0 batch), u') /\ ready false u' /\ alike u u' /\ forall j, tried false u' j = tried false u (batch + j).
Proof.
  induction batch as [|b IH]; intros u H Hm.
  - exists u. split; [reflexivity|]. split; [exact H|]. split; [apply alike_refl|reflexivity].
  - destruct (select_plain false frac u H Hm) as (x & X1 & X2 & _ & _ & X3 & X4 & X5 & _). cbn [selectBatch]. rewrite X1. cbv beta iota zeta.
    destruct (IH (x_prop x) X3) as (u' & Y1 & Y2 & Y3 & Y4). { assert (u_mode (x_prop x) = u_mode u) by apply X4. congruence. }
    rewrite Y1. exists u'. split; [|split; [exact Y2|split; [eapply alike_trans; eauto|]]].
    + rewrite X2. f_equal. f_equal. cbn [seq map]. f_equal. rewrite <- seq_shift, map_map. apply map_ext. exact X5.
    + intros j. rewrite Y4, X5. reflexivity.
Qed.
Lemma epoch_plain frac grouped batch : forall m u, ready false u -> u_mode u <> SM_THRESHOLD ->
  exists u', epochSelection false frac grouped batch m u = Some (map (tried false u) (seq 0 (m * batch)), u') /\ ready false u' /\ alike u u'.
Proof.
  induction m as [|m IH]; intros u H Hm.
  - exists u. split; [reflexivity|]. split; [exact H|apply alike_refl].
  - cbn [epochSelection]. unfold updateSelection. destruct (selectBatch_plain grouped (frac m) batch u H Hm) as (u1 & X1 & X2 & X3 & X4). rewrite X1.
    rewrite andb_false_r. destruct (IH u1 X2) as (u' & Y1 & Y2 & Y3). { assert (u_mode u1 = u_mode u) by apply X3. congruence. }
    rewrite Y1. exists u'. split; [|split; [exact Y2|eapply alike_trans; eauto]]. f_equal. f_equal.
    change (S m * batch) with (batch + m * batch). rewrite seq_app, map_app. f_equal. cbn [Nat.add].
    rewrite (map_ext _ (fun j => tried false u (batch + j)) X4), <- (map_map (fun j => batch + j) (tried false u)). f_equal.
    rewrite map_add_seq, Nat.add_0_r. reflexivity.
Qed.
Lemma tried_fst u j : fst (tried false u j) = (u_pos u + j) mod length (u_cands u).
Proof. unfold tried. cbv zeta. destruct (nth_error _ _); reflexivity. Qed.
Lemma cycling frac grouped batch m u : ready false u -> u_mode u <> SM_THRESHOLD ->
  exists l u', epochSelection false frac grouped batch m u = Some (l, u') /\
  map fst l = map (fun j => (u_pos u + j) mod length (u_cands u)) (seq 0 (m * batch)) /\ ready false u' /\ same_places (u_cands u) (u_cands u').
Proof.
  intros H Hm. destruct (epoch_plain frac grouped batch m u H Hm) as (u' & X1 & X2 & X3). exists (map (tried false u) (seq 0 (m * batch))), u'.
  split; [exact X1|]. split; [|split; [exact X2|now apply alike_places]]. rewrite map_map. apply map_ext. intros. apply tried_fst.
Qed.
Lemma cyclic_window p n a : 0 < n -> Permutation (map (fun j => (p + j) mod n) (seq a n)) (seq 0 n).
Proof.
  intros Hn. apply NoDup_Permutation_bis.
  - assert (G : forall l, NoDup l -> (forall x, In x l -> a <= x < a + n) -> NoDup (map (fun j => (p + j) mod n) l)).
    { clear - Hn. induction l as [|x l IH]; intros N B; cbn; [constructor|]. inversion N as [|? ? Nx Nl]; subst. constructor.
      - intros I. apply in_map_iff in I. destruct I as (y & Ey & Iy). assert (x <> y) by congruence.
        pose proof (B x (or_introl eq_refl)) as Bx. pose proof (B y (or_intror Iy)) as By.
        pose proof (Nat.div_mod (p + x) n ltac:(lia)) as D1. pose proof (Nat.div_mod (p + y) n ltac:(lia)) as D2. rewrite Ey in D2.
        assert ((p + x) / n = (p + y) / n); [|nia]. destruct (Nat.lt_trichotomy ((p + x) / n) ((p + y) / n)) as [L|[L|L]]; [exfalso; nia|auto|exfalso; nia].
      - apply IH; auto. intros. apply B. now right. }
    apply G; [apply seq_NoDup|]. intros x Hx. apply in_seq in Hx. lia.
  - rewrite map_length, !seq_length. lia.
  - intros x Hx. apply in_map_iff in Hx. destruct Hx as (y & <- & _). apply in_seq. pose proof (Nat.mod_upper_bound (p + y) n). lia.
Qed.
Lemma firstn_seq a n k : k <= n -> firstn k (seq a n) = seq a k.
Proof. intros H. replace n with (k + (n - k)) by lia. rewrite seq_app, firstn_app, seq_length, Nat.sub_diag. cbn. rewrite app_nil_r. apply firstn_all2. rewrite seq_length. lia. Qed.
Lemma skipn_seq a n k : k <= n -> skipn k (seq a n) = seq (a + k) (n - k).
Proof. intros H. replace n with (k + (n - k)) at 1 by lia. rewrite seq_app, skipn_app, seq_length, Nat.sub_diag. cbn. rewrite skipn_all2 by (rewrite seq_length; lia). reflexivity. Qed.
Lemma each_once frac grouped batch m u l u' : ready false u -> u_mode u <> SM_THRESHOLD ->
  epochSelection false frac grouped batch m u = Some (l, u') -> forall j, j + length (u_cands u) <= m * batch ->
  Permutation (firstn (length (u_cands u)) (skipn j (map fst l))) (seq 0 (length (u_cands u))).
Proof.
  intros H Hm E j Hj. destruct (cycling frac grouped batch m u H Hm) as (l0 & u0 & E0 & L & _). rewrite E in E0. injection E0 as <- <-. rewrite L.
  rewrite skipn_map, firstn_map, skipn_seq, firstn_seq by lia. apply cyclic_window. apply H.
Qed.

(** * Going through sub-candidates *)
Lemma used_app k l l' : used_of k (l ++ l') = used_of k l ++ used_of k l'.
Proof. unfold used_of. now rewrite filter_app, map_app. Qed.
Lemma cycled_refl u : cycled u u [].
Proof. split; [reflexivity|]. intros k c H. split; [reflexivity|]. exists c. cbn. rewrite Nat.add_0_r. auto. Qed.
Lemma cycled_trans u v w l l' : (forall c, In c (u_cands u) -> 0 < length (c_subs c)) -> cycled u v l -> cycled v w l' -> cycled u w (l ++ l').
Proof.
  intros P (A1 & A2) (B1 & B2). split; [congruence|]. intros k c H. destruct (A2 k c H) as (A3 & c' & Hc' & S' & Sub' & Pos').
  destruct (B2 k c' Hc') as (B3 & c'' & Hc'' & S'' & Sub'' & Pos''). rewrite used_app, app_length.
  assert (M : 0 < length (c_subs c)) by (apply P; eapply nth_error_In; eauto).
  split.
  - rewrite seq_app, map_app, <- A3. f_equal. rewrite B3 at 1. rewrite Sub'. cbn [Nat.add].
    set (q := length (used_of k l)) in *.
    assert (G : forall n a, map (fun j => Some ((c_posSub c' + j) mod length (c_subs c))) (seq a n) = map (fun j => Some ((c_posSub c + j) mod length (c_subs c))) (seq (q + a) n)).
    { clear - Pos' M. induction n; intros a; [reflexivity|]. cbn. f_equal; [|rewrite IHn; f_equal; f_equal; lia]. f_equal.
      rewrite <- (Nat.add_mod_idemp_l (c_posSub c')), Pos', Nat.add_mod_idemp_l by lia. f_equal. lia. }
    rewrite G, Nat.add_0_r. reflexivity.
  - exists c''. split; [exact Hc''|]. split; [congruence|]. split; [congruence|]. rewrite Sub' in Pos''. rewrite Pos''.
    rewrite <- (Nat.add_mod_idemp_l (c_posSub c')), Pos', Nat.add_mod_idemp_l by lia. f_equal. lia.
Qed.

Lemma single_used k s i : used_of i [(k, s)] = if Nat.eqb k i then [s] else [].
Proof. unfold used_of. cbn [filter fst]. destruct (Nat.eqb k i); reflexivity. Qed.
Lemma select_cycled frac u : ready true u -> u_mode u <> SM_THRESHOLD ->
  exists x, select true frac u = Some x /\ x_cand x = u_pos u mod length (u_cands u) /\ cycled u (x_prop x) [(x_cand x, x_sub x)] /\
  ready true (x_prop x) /\ alike u (x_prop x) /\ u_pos (x_prop x) = u_pos u mod length (u_cands u).
Proof.
  intros H Hm. destruct (select_plain true frac u H Hm) as (x & X1 & X2 & _ & _ & X3 & X4 & _ & X5 & X6). exists x. split; [exact X1|].
  pose proof H as (H1 & H2 & H3). set (n := length (u_cands u)) in *. set (k := u_pos u mod n) in *.
  assert (M : k < n) by (apply Nat.mod_upper_bound; lia).
  destruct (ready_nth true u H k M) as (c & Hc & Pc & Sc).
  assert (T : tried true u 0 = (k, Some (c_posSub c mod length (c_subs c)))). { unfold tried. cbv zeta. fold n. fold k. rewrite Hc, Nat.add_0_r. reflexivity. }
  rewrite T in X2. injection X2 as K1 K2. rewrite K1, K2. split; [reflexivity|]. split; [|split; [exact X3|split; [exact X4|exact X5]]].
  split; [apply X4|]. intros i y Hy. destruct (X6 i y Hy) as (c2 & C1 & C2 & C3). rewrite single_used.
  assert (S2 : c_s c2 = c_s y). { destruct X4 as (_ & _ & _ & _ & _ & _ & X4). destruct (X4 i y Hy) as (q & Hq). rewrite C1 in Hq. injection Hq as ->. reflexivity. }
  specialize (C3 eq_refl). rewrite (Nat.eqb_sym k i). destruct (Nat.eqb_spec i k) as [E|E].
  - subst i. assert (y = c) by congruence. subst y. cbn [length seq map]. rewrite Nat.add_0_r. split; [reflexivity|]. exists c2. rewrite C3, Nat.add_1_r. auto.
  - cbn [length seq map]. split; [reflexivity|]. exists c2. rewrite C3, Nat.add_0_r. auto.
Qed.
Definition withGroup (g c : nat) (u : prop) : prop := mkProp (u_mode u) (u_threshold u) (u_trials u) (u_pos u) (u_cands u) g c.
Lemma selectBatch_cycled grouped frac : position_free grouped -> forall batch u, ready true u -> u_mode u <> SM_THRESHOLD -> 0 < batch ->
  forall c, nth_error (u_cands u) (u_pos u mod length (u_cands u)) = Some c ->
  exists l u', selectBatch true frac grouped batch u = Some (l, u') /\ length l = batch /\ (forall x, In x l -> fst x = u_pos u mod length (u_cands u)) /\
  cycled u u' l /\ ready true u' /\ u_mode u' = u_mode u /\ u_pos u' = u_pos u mod length (u_cands u) /\
  u_numGrouped u' = (if Nat.eqb (u_countGrouped u) 0 then grouped c else u_numGrouped u) /\ u_countGrouped u' = u_countGrouped u + batch.
Proof.
  intros F. induction batch as [|b IH]; intros u H Hm Hb c Hc; [lia|].
  destruct (select_cycled frac u H Hm) as (x & X1 & X2 & X3 & X4 & X5 & X6).
  pose proof H as (H1 & H2 & H3). set (n := length (u_cands u)) in *. set (k := u_pos u mod n) in *.
  assert (M : k < n) by (apply Nat.mod_upper_bound; lia).
  cbn [selectBatch]. rewrite X1, X2. cbv beta iota zeta.
  destruct X5 as (Y1 & Y2 & Y3 & Y4 & Y5 & Y6 & Y7). destruct (Y7 k c Hc) as (q & Hq). rewrite Hq.
  assert (Fg : grouped (mkCand (c_s c) (c_error c) q (c_subs c)) = grouped c) by apply F. rewrite Fg, Y4, Y5.
  match goal with |- context [selectBatch true frac grouped b ?v] => set (u2 := v) end.
  assert (C2 : cycled u u2 [(k, x_sub x)]). { rewrite <- X2 at 1. exact X3. }
  assert (R2 : ready true u2) by exact X4.
  destruct b as [|b].
  - cbn [selectBatch]. exists [(k, x_sub x)], u2. split; [reflexivity|]. split; [reflexivity|]. split. { intros y [<-|[]]. reflexivity. }
    split; [exact C2|]. split; [exact R2|]. split; [exact Y1|]. split; [exact X6|]. split; [reflexivity|]. cbn. reflexivity.
  - assert (L2 : length (u_cands u2) = n) by exact Y6. assert (P2 : u_pos u2 mod length (u_cands u2) = k). { rewrite L2. change (u_pos u2) with (u_pos (x_prop x)). rewrite X6. apply Nat.mod_small. exact M. }
    specialize (IH u2 R2 ltac:(change (u_mode u2) with (u_mode (x_prop x)); congruence) ltac:(lia)).
    rewrite P2 in IH. destruct (IH _ Hq) as (l & u' & Z1 & Z2 & Z3 & Z4 & Z5 & Z6 & Z7 & Z8 & Z9).
    rewrite Z1. exists ((k, x_sub x) :: l), u'. split; [reflexivity|]. split; [cbn; lia|]. split. { intros y [<-|Hy]; [reflexivity|now apply Z3]. }
    split. { apply (cycled_trans u u2 u' [(k, x_sub x)] l); auto. intros d Hd. apply H3; auto. }
    split; [exact Z5|]. split; [rewrite Z6; exact Y1|]. split; [exact Z7|].
    assert (Q : u_countGrouped u2 = u_countGrouped u + 1) by reflexivity. rewrite Q in Z8, Z9.
    replace (Nat.eqb (u_countGrouped u + 1) 0) with false in Z8 by (symmetry; apply Nat.eqb_neq; lia).
    split; [exact Z8|]. lia.
Qed.
Lemma update_cycled grouped frac batch u c : position_free grouped -> ready true u -> u_mode u <> SM_THRESHOLD -> 0 < batch ->
  nth_error (u_cands u) (u_pos u mod length (u_cands u)) = Some c ->
  let k := u_pos u mod length (u_cands u) in
  let g := if Nat.eqb (u_countGrouped u) 0 then grouped c else u_numGrouped u in
  exists l u', updateSelection true frac grouped batch u = Some (l, u') /\ length l = batch /\ (forall x, In x l -> fst x = k) /\
  cycled u u' l /\ ready true u' /\ u_mode u' = u_mode u /\
  (if Nat.leb g (u_countGrouped u + batch)
   then u_pos u' = S k /\ u_countGrouped u' = 0
   else u_pos u' = k /\ u_countGrouped u' = u_countGrouped u + batch /\ u_numGrouped u' = g).
Proof.
  intros F H Hm Hb Hc. cbv zeta. destruct (selectBatch_cycled grouped frac F batch u H Hm Hb c Hc) as (l & u' & Z1 & Z2 & Z3 & Z4 & Z5 & Z6 & Z7 & Z8 & Z9).
  set (k := u_pos u mod length (u_cands u)) in *. pose proof H as (H1 & H2 & H3).
  assert (M : k < length (u_cands u)) by (apply Nat.mod_upper_bound; lia).
  unfold updateSelection. rewrite Z1, Z8, Z9, Z7, andb_true_r.
  set (g := if Nat.eqb (u_countGrouped u) 0 then grouped c else u_numGrouped u) in *.
  destruct (Nat.leb g (u_countGrouped u + batch)).
  - pose proof Z4 as [L _]. rewrite L. destruct (Nat.ltb_spec k (length (u_cands u))) as [K|K]; [|lia].
    eexists _, _. split; [reflexivity|]. split; [exact Z2|]. split; [exact Z3|]. split; [exact Z4|].
    split. { destruct Z5 as (Q1 & Q2 & Q3). split; [exact Q1|]. split; [cbn; rewrite L; lia|exact Q3]. }
    split; [exact Z6|]. split; reflexivity.
  - exists l, u'. split; [reflexivity|]. split; [exact Z2|]. split; [exact Z3|]. split; [exact Z4|]. split; [exact Z5|]. split; [exact Z6|]. auto.
Qed.
Lemma epoch_cycled grouped frac batch : position_free grouped -> 0 < batch -> forall m u, ready true u -> u_mode u <> SM_THRESHOLD ->
  exists l u', epochSelection true frac grouped batch m u = Some (l, u') /\ length l = m * batch /\ cycled u u' l /\ ready true u' /\ u_mode u' = u_mode u.
Proof.
  intros F Hb. induction m as [|m IH]; intros u H Hm.
  - exists [], u. split; [reflexivity|]. split; [reflexivity|]. split; [apply cycled_refl|]. auto.
  - pose proof H as (H1 & H2 & H3). destruct (ready_nth true u H (u_pos u mod length (u_cands u)) ltac:(apply Nat.mod_upper_bound; lia)) as (c & Hc & _).
    destruct (update_cycled grouped (frac m) batch u c F H Hm Hb Hc) as (l & u1 & Z1 & Z2 & Z3 & Z4 & Z5 & Z6 & _).
    destruct (IH u1 Z5 ltac:(congruence)) as (l' & u' & Y1 & Y2 & Y3 & Y4 & Y5).
    cbn [epochSelection]. rewrite Z1, Y1. exists (l ++ l'), u'. split; [reflexivity|]. split; [rewrite app_length; cbn; lia|].
    split. { eapply cycled_trans; eauto. intros d Hd. apply H3; auto. } split; [exact Y4|congruence].
Qed.

(** * Sorting and shuffling *)
Lemma shuffle_rearranged shuffleC shuffleS u : (forall l, Permutation (shuffleC l) l) -> (forall c l, Permutation (shuffleS c l) l) ->
  rearranged u (shuffleUpdateCandidates shuffleC shuffleS u).
Proof.
  intros HC HS. split; [reflexivity|]. split; [reflexivity|]. exists (shuffleC (u_cands u)). split; [apply HC|]. unfold shuffleUpdateCandidates. cbn [setPos setCands u_cands].
  induction (shuffleC (u_cands u)) as [|c l IH]; cbn [map]; constructor; [|exact IH]. cbn [c_s c_posSub]. split; [reflexivity|]. split; [|reflexivity].
  unfold places. cbn [snd c_subs]. apply Permutation_map. destruct (Nat.ltb 0 (length (c_subs c))); [apply HS|apply Permutation_refl].
Qed.
Lemma Forall2_perm_l {A B} (P : A -> B -> Prop) l l' (m : list B) : Permutation l' m -> Forall2 P l m -> exists l0, Permutation l0 l /\ Forall2 P l0 l'.
Proof.
  intros H. revert l. induction H; intros l0 F.
  - inversion F; subst. exists []. auto.
  - inversion F; subst. destruct (IHPermutation _ H4) as (q & Q1 & Q2). exists (x0 :: q). auto.
  - inversion F; subst. inversion H3; subst. eexists (x1 :: x0 :: _). split; [apply perm_swap|]. auto.
  - destruct (IHPermutation2 _ F) as (q & Q1 & Q2). destruct (IHPermutation1 _ Q2) as (r & R1 & R2). exists r. split; [eapply Permutation_trans; eauto|auto].
Qed.
Lemma sort_rearranged sortC sortS err serr u : (forall l, Permutation (sortC l) l) -> (forall l, Permutation (sortS l) l) ->
  rearranged u (sortUpdateCandidates sortC sortS err serr u).
Proof.
  intros HC HS. split; [reflexivity|]. split; [reflexivity|]. unfold sortUpdateCandidates. cbn [setPos setCands u_cands].
  match goal with |- context [sortC ?w] => set (W := w) end.
  assert (F : Forall2 (fun c c' => c_s c' = c_s c /\ snd (places c') = snd (places c)) (u_cands u) W).
  { unfold W. induction (u_cands u) as [|c l IH]; cbn [map]; constructor; auto. split; [reflexivity|]. unfold places. cbn [snd c_subs]. rewrite map_map. reflexivity. }
  destruct (Forall2_perm_l _ _ _ _ (HC W) F) as (l & L1 & L2). exists l. split; [exact L1|].
  clear - L2 HS. induction L2 as [|c c' l l' [E1 E2] _ IH]; cbn [map]; constructor; auto. cbn [c_s c_posSub]. split; [exact E1|]. split; [|reflexivity].
  rewrite <- E2. unfold places. cbn [snd c_subs]. apply Permutation_map. destruct (Nat.ltb 0 (length (c_subs c'))); [apply HS|apply Permutation_refl].
Qed.
