(** Collective file output: invariant over all interleavings. *)
From Coq Require Import List Arith Lia Bool Permutation Sorted Wf_nat.
From Verif Require Import Base.Loop Model.Dataset Spec.DatasetSpec.
Import ListNotations.

Section Updates.
Context {Line : Type}.
Notation proc := (@proc Line).
Lemma updProc_nth (ps : list proc) : forall k p r, k < length ps ->
  nth_error (updProc ps k p) r = if Nat.eqb r k then Some p else nth_error ps r.
Proof.
  induction ps as [|a ps IH]; intros k p r Hk; cbn in Hk; [lia|].
  destruct k as [|k]. { destruct r; reflexivity. }
  destruct r as [|r]; [reflexivity|].
  change (nth_error (updProc ps k p) r = if Nat.eqb r k then Some p else nth_error ps r). apply IH. lia.
Qed.
Lemma updProc_length (ps : list proc) : forall k p, k < length ps -> length (updProc ps k p) = length ps.
Proof.
  induction ps as [|a ps IH]; intros k p Hk; cbn in Hk; [lia|]. destruct k as [|k]; [reflexivity|].
  change (S (length (updProc ps k p)) = S (length ps)). rewrite IH; auto; lia.
Qed.
Definition idle (ps : list proc) : nat := length (filter (fun p => negb (p_waits p)) ps).
Lemma idle_le ps : idle ps <= length ps.
Proof. unfold idle. induction ps as [|a ps IH]; cbn; auto. destruct (negb (p_waits a)); cbn; lia. Qed.
Lemma idle_upd (ps : list proc) : forall k p q, nth_error ps k = Some p ->
  idle (updProc ps k q) + (if p_waits p then 0 else 1) = idle ps + (if p_waits q then 0 else 1).
Proof.
  induction ps as [|a ps IH]; intros k p q Hk; [destruct k; discriminate|]. destruct k as [|k].
  - injection Hk as ->. unfold idle, updProc. cbn. destruct (p_waits p), (p_waits q); cbn; lia.
  - cbn in Hk. specialize (IH k p q Hk).
    change (updProc (a :: ps) (S k) q) with (a :: updProc ps k q). unfold idle in *. cbn [filter].
    destruct (negb (p_waits a)); cbn [length]; lia.
Qed.
Lemma startProcs_nth (loads : list (list (nat * list Line))) : forall a r,
  nth_error (startProcs a loads) r = option_map (startProc (a + r)) (nth_error loads r).
Proof.
  induction loads as [|l loads IH]; intros a r; destruct r as [|r]; cbn; auto.
  - now rewrite Nat.add_0_r.
  - rewrite IH. now rewrite Nat.add_succ_r.
Qed.
Lemma startProcs_length (loads : list (list (nat * list Line))) : forall a, length (startProcs a loads) = length loads.
Proof. induction loads; intros; cbn; auto. Qed.
End Updates.

Section Col.
Context {Line : Type}.
Variables (loads : list (list (nat * list Line))) (blocks : list (list Line)).
Hypothesis HD : distributed loads blocks.
Hypothesis HP : loads <> [].
Let n := length blocks.

Lemma keys : Permutation (map fst (concat loads)) (seq 0 n).
Proof.
  destruct HD as [Q _]. apply (Permutation_map fst) in Q. rewrite Q. fold n.
  assert (G : forall (l : list (list Line)) a, map fst (combine (seq a (length l)) l) = seq a (length l)).
  { induction l; intros; cbn; auto. f_equal. auto. }
  unfold n. now rewrite G.
Qed.
Lemma key_unique : forall r r' l l' k, nth_error loads r = Some l -> nth_error loads r' = Some l' ->
  In k (map fst l) -> In k (map fst l') -> r = r'.
Proof.
  assert (ND : NoDup (map fst (concat loads))) by (eapply Permutation_NoDup; [apply Permutation_sym, keys|apply seq_NoDup]).
  clear HD HP. revert ND. induction loads as [|a ls IH]; intros ND r r' l l' k H1 H2 I1 I2; [destruct r; discriminate|].
  cbn in ND. rewrite map_app in ND.
  assert (X : forall l r, nth_error ls r = Some l -> In k (map fst l) -> In k (map fst (concat ls))).
  { intros m x Hx Hk. apply nth_error_In in Hx. apply in_map_iff in Hk. destruct Hk as (y & E & Hy). apply in_map_iff.
    exists y. split; auto. apply in_concat. eauto. }
  assert (Y : In k (map fst a) -> In k (map fst (concat ls)) -> False).
  { clear - ND. intros A B. induction (map fst a) as [|z zs IH]; cbn in *; [contradiction|].
    inversion ND; subst. destruct A as [-> |A]; auto. apply H1. apply in_or_app; auto. }
  assert (ND2 : NoDup (map fst (concat ls))).
  { clear - ND. induction (map fst a); auto. inversion ND; auto. }
  destruct r as [|r], r' as [|r']; cbn in H1, H2; auto.
  - injection H1 as ->. exfalso. eauto.
  - injection H2 as ->. exfalso. eauto.
  - f_equal. eapply IH; eauto.
Qed.
Lemma block_at k b : nth_error blocks k = Some b -> exists r l, nth_error loads r = Some l /\ In (k, b) l.
Proof.
  intros Hk. assert (I : In (k, b) (concat loads)).
  { apply (Permutation_in _ (Permutation_sym (proj1 HD))).
    assert (G : forall (l : list (list Line)) a k, nth_error l k = Some b -> In (a + k, b) (combine (seq a (length l)) l)).
    { clear. induction l as [|x l IH]; intros a k H; destruct k; try discriminate; cbn in *.
      - injection H as ->. left. f_equal. lia.
      - right. rewrite Nat.add_succ_r. apply (IH (S a)). auto. }
    apply (G blocks 0 k Hk). }
  apply in_concat in I. destruct I as (l & Hl & I). destruct (In_nth_error _ _ Hl) as [r Hr]. eauto.
Qed.
Lemma block_of k b l : In l loads -> In (k, b) l -> nth_error blocks k = Some b.
Proof.
  intros Hl Hi. assert (I : In (k, b) (concat loads)) by (apply in_concat; eauto).
  apply (Permutation_in _ (proj1 HD)) in I.
  assert (G : forall (l : list (list Line)) a, In (k, b) (combine (seq a (length l)) l) -> a <= k /\ nth_error l (k - a) = Some b).
  { clear. induction l as [|x l IH]; intros a H; cbn in H; [contradiction|]. destruct H as [H|H].
    - injection H as -> ->. rewrite Nat.sub_diag. auto.
    - destruct (IH _ H) as [A B]. split; [lia|]. replace (k - a) with (S (k - S a)) by lia. auto. }
  destruct (G _ _ I) as [_ E]. now rewrite Nat.sub_0_r in E.
Qed.
Definition left_at (k : nat) (l : list (nat * list Line)) : list (nat * list Line) := filter (fun x => Nat.leb k (fst x)) l.
Lemma left_sorted k l : StronglySorted lt (map fst l) -> enterPhase k (left_at k l)
  = (match find (fun x => Nat.eqb (fst x) k) l with Some (_, b) => map Append b | None => [] end, left_at (S k) l).
Proof.
  induction l as [|[i b] l IH]; intros S; auto. cbn in S. inversion S as [|? ? S' F]; subst. specialize (IH S').
  unfold left_at in *. cbn [filter fst find]. destruct (Nat.leb_spec k i) as [L|L].
  - cbn [enterPhase]. destruct (Nat.eqb_spec k i) as [E|E].
    + subst k. rewrite Nat.eqb_refl. f_equal. destruct (Nat.leb_spec (Datatypes.S i) i); [lia|].
      apply filter_ext_in. intros x Hx. apply (in_map fst) in Hx. rewrite Forall_forall in F. specialize (F _ Hx).
      destruct (Nat.leb_spec i (fst x)), (Nat.leb_spec (Datatypes.S i) (fst x)); auto; lia.
    + destruct (Nat.eqb_spec i k); [lia|]. destruct (Nat.leb_spec (Datatypes.S k) i); [|lia].
      assert (X : forall x, In x l -> i < fst x). { intros x Hx. apply (in_map fst) in Hx. rewrite Forall_forall in F. auto. }
      replace (find (fun x => Nat.eqb (fst x) k) l) with (@None (nat * list Line)).
      * f_equal. f_equal. apply filter_ext_in. intros x Hx. specialize (X x Hx).
        destruct (Nat.leb_spec k (fst x)), (Nat.leb_spec (Datatypes.S k) (fst x)); auto; lia.
      * symmetry. destruct (find _ l) eqn:Ef; auto. apply find_some in Ef. destruct Ef as [A B]. apply Nat.eqb_eq in B. specialize (X _ A). lia.
  - destruct (Nat.eqb_spec i k); [lia|]. rewrite IH. destruct (Nat.leb_spec (Datatypes.S k) i); [lia|]. reflexivity.
Qed.
Lemma left_end k l : In l loads -> n <= k -> left_at k l = [].
Proof.
  intros Hl Hk. unfold left_at. destruct (filter _ l) as [|[i b] f] eqn:E; auto.
  assert (I : In (i, b) (filter (fun x => Nat.leb k (fst x)) l)) by (rewrite E; now left).
  apply filter_In in I. destruct I as [I L]. apply Nat.leb_le in L. cbn in L.
  apply (block_of i b l Hl) in I. assert (i < n). { apply nth_error_Some. unfold n. congruence. } lia.
Qed.

(** All processes are in the same phase k; at most one has something to write, and when it has done so the file
    consists of the first k blocks. *)
Record inv (w : world) (k r0 : nat) (rest : list (action Line)) : Prop := {
  i_len : length (w_procs w) = length loads;
  i_k : k <= S n;
  i_r0 : r0 < length loads;
  i_proc : forall r p l, nth_error (w_procs w) r = Some p -> nth_error loads r = Some l ->
     p_phase p = k /\ p_it p = left_at k l /\ p_todo p = (if Nat.eqb r r0 then rest else []) /\ (p_waits p = true -> p_todo p = [] /\ k <= n);
  i_file : fold_left (fun f a => act a f) rest (w_file w) = concat (firstn k blocks);
  i_end : k = S n -> rest = [];
  i_rest : length rest <= 1 + length (concat blocks)
}.
Lemma load_of w k r0 rest : inv w k r0 rest -> forall r p, nth_error (w_procs w) r = Some p -> exists l, nth_error loads r = Some l.
Proof.
  intros I r p H. destruct (nth_error loads r) eqn:E; eauto. apply nth_error_None in E.
  assert (r < length (w_procs w)) by (apply nth_error_Some; congruence). rewrite (i_len _ _ _ _ I) in H0. lia.
Qed.
Lemma inv_start file : inv (startWorld file loads) 0 0 [Truncate].
Proof.
  assert (0 < length loads) by (destruct loads; cbn; [contradiction|lia]).
  constructor; cbn; auto; try lia.
  - apply startProcs_length.
  - intros r p l H1 H2. rewrite startProcs_nth, H2 in H1. cbn in H1. injection H1 as <-. unfold startProc. cbn.
    split; auto. split; [|split; auto; discriminate].
    unfold left_at. clear. induction l; cbn; auto. now rewrite IHl at 1.
Qed.
Definition measure (w : @world Line) (k : nat) (rest : list (action Line)) : nat :=
  (S n - k) * (3 + length (concat blocks) + length loads) + length rest + idle (w_procs w).

Lemma inv_step w w' k r0 rest : inv w k r0 rest -> step n w w' ->
  exists k' r0' rest', inv w' k' r0' rest' /\ measure w' k' rest' < measure w k rest.
Proof.
  intros I S. destruct S as [file ps j p a todo Hj Ht Hw|file ps j p Hj Ht Hw Hk|file ps Hw Hne].
  - destruct (load_of _ _ _ _ I j p Hj) as [l Hl].
    destruct (i_proc _ _ _ _ I j p l Hj Hl) as (P1 & P2 & P3 & P4).
    destruct (Nat.eqb_spec j r0) as [E|E]; [|congruence]. subst j. rewrite Ht in P3. subst rest.
    assert (Lj : r0 < length ps) by (apply nth_error_Some; cbn in Hj; congruence).
    exists k, r0, todo. split.
    + constructor; cbn [w_procs w_file].
      * rewrite updProc_length; auto. apply (i_len _ _ _ _ I).
      * apply (i_k _ _ _ _ I). * apply (i_r0 _ _ _ _ I).
      * intros r q l' Hr Hl'. rewrite updProc_nth in Hr by auto. destruct (Nat.eqb_spec r r0) as [E|E].
        -- subst r. injection Hr as <-. cbn. rewrite Hl in Hl'. injection Hl' as <-. repeat split; auto; discriminate.
        -- destruct (i_proc _ _ _ _ I r q l' Hr Hl') as (Q1 & Q2 & Q3 & Q4). destruct (Nat.eqb_spec r r0); [contradiction|]. auto.
      * apply (i_file _ _ _ _ I).
      * intros Hk. pose proof (i_end _ _ _ _ I Hk). discriminate.
      * pose proof (i_rest _ _ _ _ I) as L. cbn in L. lia.
    + unfold measure. cbn [w_procs length]. pose proof (idle_upd ps r0 p (mkP (p_phase p) todo false (p_it p)) Hj) as A.
      rewrite Hw in A. cbn [p_waits] in A. lia.
  - destruct (load_of _ _ _ _ I j p Hj) as [l Hl].
    destruct (i_proc _ _ _ _ I j p l Hj Hl) as (P1 & P2 & P3 & P4).
    assert (Lj : j < length ps) by (apply nth_error_Some; cbn in Hj; congruence).
    exists k, r0, rest. split.
    + constructor; cbn [w_procs w_file].
      * rewrite updProc_length; auto. apply (i_len _ _ _ _ I).
      * apply (i_k _ _ _ _ I). * apply (i_r0 _ _ _ _ I).
      * intros r q l' Hr Hl'. rewrite updProc_nth in Hr by auto. destruct (Nat.eqb_spec r j) as [E|E].
        -- subst r. injection Hr as <-. cbn. rewrite Hl in Hl'. injection Hl' as <-. rewrite Ht in P3. repeat split; auto; lia.
        -- apply (i_proc _ _ _ _ I r q l' Hr Hl').
      * apply (i_file _ _ _ _ I). * apply (i_end _ _ _ _ I). * apply (i_rest _ _ _ _ I).
    + unfold measure. cbn [w_procs]. pose proof (idle_upd ps j p (mkP (p_phase p) [] true (p_it p)) Hj) as A.
      rewrite Hw in A. cbn [p_waits] in A. lia.
  - pose proof (i_len _ _ _ _ I) as IL. cbn [w_procs] in IL.
    destruct (nth_error ps r0) as [p0|] eqn:E0. 2:{ apply nth_error_None in E0. pose proof (i_r0 _ _ _ _ I). lia. }
    destruct (load_of _ _ _ _ I r0 p0 E0) as [l0 Hl0].
    destruct (i_proc _ _ _ _ I r0 p0 l0 E0 Hl0) as (P1 & P2 & P3 & P4). rewrite Nat.eqb_refl in P3.
    destruct (P4 (Hw _ (nth_error_In _ _ E0))) as [T Hk]. rewrite T in P3. subst rest.
    pose proof (i_file _ _ _ _ I) as IF. cbn [fold_left w_file] in IF.
    assert (M : forall k' ps' r', length r' <= 1 + length (concat blocks) -> length ps' = length ps -> k' = S k ->
              measure (mkWorld file ps') k' r' < measure (mkWorld file ps) k []).
    { intros k' ps' r' L1 L2 ->. unfold measure. cbn [w_procs length]. pose proof (idle_le ps'). rewrite L2, IL in H.
      replace (S n - k) with (S (n - k)) by lia. replace (S n - S k) with (n - k) by lia. cbn [Nat.mul]. lia. }
    assert (Nth : forall r q, nth_error (map (passBarrier n) ps) r = Some q -> exists p, nth_error ps r = Some p /\ q = passBarrier n p).
    { intros r q Hq. rewrite nth_error_map in Hq. destruct (nth_error ps r) eqn:E; [|discriminate]. injection Hq as <-. eauto. }
    destruct (Nat.eq_dec k n) as [Ekn|Ekn].
    + exists (S k), r0, []. split; [|apply M; cbn; auto; [lia|now rewrite map_length]].
      constructor; cbn [w_procs w_file]; auto; try lia.
      * now rewrite map_length.
      * apply (i_r0 _ _ _ _ I).
      * intros r q l Hr Hl. destruct (Nth r q Hr) as (p & Hp & ->). destruct (i_proc _ _ _ _ I r p l Hp Hl) as (Q1 & Q2 & Q3 & Q4).
        unfold passBarrier. rewrite Q1. destruct (Nat.ltb_spec k n); [lia|]. cbn. split; [lia|]. split.
        -- rewrite Q2. apply nth_error_In in Hl. now rewrite !left_end by (auto; lia).
        -- split; [now destruct (Nat.eqb r r0)|discriminate].
      * cbn [fold_left]. rewrite IF. rewrite !firstn_all2 by (fold n; lia). reflexivity.
      * cbn. lia.
    + assert (Hkn : k < n) by lia.
      destruct (nth_error blocks k) as [b|] eqn:Eb. 2:{ apply nth_error_None in Eb. unfold n in Hkn. lia. }
      destruct (block_at k b Eb) as (r1 & l1 & Hr1 & I1).
      assert (Lb : length b <= length (concat blocks)).
      { clear - Eb. revert k Eb. induction blocks as [|x bs IH]; intros k Eb; destruct k; try discriminate; cbn in *; rewrite app_length.
        - injection Eb as ->. lia. - specialize (IH _ Eb). lia. }
      exists (S k), r1, (map Append b). split; [|apply M; cbn; auto; [rewrite map_length; lia|now rewrite map_length]].
      constructor; cbn [w_procs w_file]; auto; try lia.
      * now rewrite map_length.
      * apply nth_error_Some. congruence.
      * intros r q l Hr Hl. destruct (Nth r q Hr) as (p & Hp & ->). destruct (i_proc _ _ _ _ I r p l Hp Hl) as (Q1 & Q2 & Q3 & Q4).
        unfold passBarrier. rewrite Q1, Q2. destruct (Nat.ltb_spec k n); [|lia]. pose proof (nth_error_In _ _ Hl) as Hin.
        rewrite (left_sorted k l (proj2 HD l Hin)). cbn [p_phase p_it p_todo p_waits].
        split; [lia|]. split; auto. split; [|discriminate].
        destruct (find _ l) as [[i c]|] eqn:Ef.
        -- apply find_some in Ef. destruct Ef as [A B]. apply Nat.eqb_eq in B. cbn in B. subst i.
           assert (c = b) by (pose proof (block_of k c l Hin A); congruence). subst c.
           assert (r = r1). { apply (key_unique r r1 l l1 k Hl Hr1); [apply (in_map fst) in A|apply (in_map fst) in I1]; auto. }
           subst r. now rewrite Nat.eqb_refl.
        -- destruct (Nat.eqb_spec r r1) as [E|E]; auto. subst r. rewrite Hl in Hr1. injection Hr1 as ->.
           pose proof (find_none _ _ Ef _ I1) as F. cbn in F. rewrite Nat.eqb_refl in F. discriminate.
      * rewrite IF. clear - Eb.
        assert (G : forall (c f : list Line), fold_left (fun f a => act a f) (map Append c) f = f ++ c).
        { induction c as [|x c IH]; intros f; cbn [map fold_left act].
          { now rewrite app_nil_r. }
          rewrite IH, <- app_assoc. reflexivity. }
        rewrite G. revert k Eb. induction blocks as [|x bs IH]; intros k Eb; destruct k; try discriminate; cbn in *.
        -- injection Eb as ->. rewrite ?app_nil_r. reflexivity.
        -- rewrite <- app_assoc. f_equal. apply IH. auto.
      * rewrite map_length. lia.
Qed.
Lemma inv_steps w w' : steps n w w' -> forall k r0 rest, inv w k r0 rest -> exists k' r0' rest', inv w' k' r0' rest'.
Proof.
  induction 1 as [w|w w1 w2 S1 S2 IH]; intros k r0 rest I; eauto.
  destruct (inv_step _ _ _ _ _ I S1) as (k' & r' & rest' & I' & _). eauto.
Qed.
Lemma reach_inv file w : steps n (startWorld file loads) w -> exists k r0 rest, inv w k r0 rest.
Proof. intros S. eapply inv_steps; eauto. apply inv_start. Qed.

Lemma output_complete file w : steps n (startWorld file loads) w -> finished n w -> w_file w = concat blocks.
Proof.
  intros S F. destruct (reach_inv _ _ S) as (k & r0 & rest & I).
  destruct (nth_error (w_procs w) r0) as [p|] eqn:E.
  - destruct (load_of _ _ _ _ I r0 p E) as [l Hl]. destruct (i_proc _ _ _ _ I r0 p l E Hl) as (P1 & _).
    rewrite (F p (nth_error_In _ _ E)) in P1. pose proof (i_end _ _ _ _ I (eq_sym P1)) as ->.
    pose proof (i_file _ _ _ _ I) as IF. cbn in IF. rewrite IF, <- P1. now rewrite firstn_all2 by (unfold n; lia).
  - apply nth_error_None in E. pose proof (i_r0 _ _ _ _ I). pose proof (i_len _ _ _ _ I). lia.
Qed.
Lemma output_progress file w : steps n (startWorld file loads) w -> finished n w \/ exists w', step n w w'.
Proof.
  intros S. destruct (reach_inv _ _ S) as (k & r0 & rest & I). destruct w as [f ps].
  destruct (Nat.eq_dec k (Datatypes.S n)) as [E|E].
  - left. intros p Hp. destruct (In_nth_error _ _ Hp) as [r Hr]. destruct (load_of _ _ _ _ I r p Hr) as [l Hl].
    destruct (i_proc _ _ _ _ I r p l Hr Hl) as (P1 & _). lia.
  - right. pose proof (i_k _ _ _ _ I) as Ik.
    destruct (forallb p_waits ps) eqn:F.
    + eexists. apply step_release. { apply forallb_forall. auto. }
      intros ->. pose proof (i_len _ _ _ _ I) as L. cbn in L. pose proof (i_r0 _ _ _ _ I). lia.
    + assert (G : exists p, In p ps /\ p_waits p = false).
      { clear - F. induction ps as [|a ps IH]; [discriminate|]. cbn in F. destruct (p_waits a) eqn:W.
        - destruct (IH F) as (p & A & B). exists p. cbn. auto. - exists a. cbn. auto. }
      destruct G as (p & Hp & W). destruct (In_nth_error _ _ Hp) as [r Hr]. destruct (load_of _ _ _ _ I r p Hr) as [l Hl].
      destruct (i_proc _ _ _ _ I r p l Hr Hl) as (P1 & _).
      destruct (p_todo p) as [|a t] eqn:T.
      * eexists. eapply step_arrive; eauto. lia.
      * eexists. eapply step_act; eauto.
Qed.
Lemma output_terminates file w : steps n (startWorld file loads) w -> Acc (fun x y => step n y x) w.
Proof.
  intros S. destruct (reach_inv _ _ S) as (k & r0 & rest & I). clear S.
  remember (measure w k rest) as m eqn:Em. revert w k r0 rest I Em. induction m as [m IH] using lt_wf_ind.
  intros w k r0 rest I ->. constructor. intros w' S. destruct (inv_step _ _ _ _ _ I S) as (k' & r' & rest' & I' & L).
  eapply IH; eauto.
Qed.
End Col.

(** combineFiles *)
Section Comb.
Context {Byte : Type}.
Lemma combine_loop : forall is (f : @files Byte), f_failed f = false -> NoDup is ->
  (forall i, In i is -> f_proc f i <> None) ->
  exists f', combineLoop is f = (true, f') /\ f_failed f' = false /\
    (forall i, f_proc f' i = if in_dec Nat.eq_dec i is then None else f_proc f i) /\
    f_combined f' = f_combined f ++ concat (map (fun i => match f_proc f i with Some c => c | None => [] end) is).
Proof.
  induction is as [|i is IH]; intros f Hf ND Hp.
  - exists f. cbn. rewrite app_nil_r. auto.
  - inversion ND as [|? ? N1 N2]; subst. cbn [combineLoop].
    destruct (f_proc f i) as [c|] eqn:Ei. 2:{ exfalso. apply (Hp i); auto. now left. }
    set (f1 := match c with [] => f | _ => insertBuf c f end).
    assert (E1 : f_proc f1 = f_proc f /\ f_combined f1 = f_combined f ++ c /\ f_failed f1 = false).
    { unfold f1, insertBuf. destruct c; [now rewrite app_nil_r|]. rewrite Hf. auto. }
    destruct E1 as (A1 & A2 & A3).
    match goal with |- context [combineLoop is ?x] => set (f2 := x) end.
    assert (Hp2 : forall j, In j is -> f_proc f2 j = f_proc f j).
    { intros j Hj. unfold f2. cbn. rewrite A1. apply upd_other. intros ->. contradiction. }
    assert (G : exists f', combineLoop is f2 = (true, f') /\ f_failed f' = false /\
      (forall j, f_proc f' j = if in_dec Nat.eq_dec j is then None else f_proc f2 j) /\
      f_combined f' = f_combined f2 ++ concat (map (fun i => match f_proc f2 i with Some c => c | None => [] end) is)).
    { apply (IH f2 A3 N2). intros j Hj. rewrite Hp2 by auto. apply Hp. now right. }
    destruct G as (f' & G1 & G2 & G3 & G4). exists f'. split; auto. split; auto. split.
    + intros j. rewrite G3. destruct (in_dec Nat.eq_dec j is) as [J|J], (in_dec Nat.eq_dec j (i :: is)) as [J'|J']; auto.
      * exfalso. apply J'. now right.
      * destruct J' as [->|J']; [|contradiction]. unfold f2. cbn. now rewrite upd_same.
      * unfold f2. cbn. rewrite upd_other; [now rewrite A1|]. intros ->. apply J'. now left.
    + rewrite G4. unfold f2 at 1. cbn [f_combined map concat]. rewrite A2, Ei, <- app_assoc. f_equal. f_equal. f_equal.
      apply map_ext_in. intros j Hj. now rewrite Hp2.
Qed.
Lemma combine_files P proc (contents : nat -> list Byte) : (forall i, i < P -> proc i = Some (contents i)) ->
  exists f, combineFiles P proc = (true, f) /\ f_combined f = concat (map contents (seq 0 P)) /\
  forall i, f_proc f i = if Nat.ltb i P then None else proc i.
Proof.
  intros H. unfold combineFiles.
  destruct (combine_loop (seq 0 P) (mkF proc [] false)) as (f & E1 & E2 & E3 & E4); auto.
  - apply seq_NoDup.
  - intros i Hi. apply in_seq in Hi. cbn. rewrite H by lia. discriminate.
  - exists f. split; auto. rewrite E4. cbn [f_combined app]. split.
    + f_equal. apply map_ext_in. intros i Hi. apply in_seq in Hi. now rewrite H by lia.
    + intros i. rewrite E3. cbn [f_proc].
      destruct (in_dec Nat.eq_dec i (seq 0 P)) as [J|J], (Nat.ltb_spec i P).
      all: try reflexivity.
      all: exfalso; rewrite in_seq in J.
      all: lia.
Qed.
Lemma combine_missing P (proc : nat -> option (list Byte)) i : i < P -> proc i = None -> fst (combineFiles P proc) = false.
Proof.
  intros Hi Hn. unfold combineFiles.
  assert (G : forall is (f : @files Byte), In i is -> f_proc f i = None -> fst (combineLoop is f) = false).
  { induction is as [|j is IH]; intros f I N; [contradiction|]. cbn. destruct (f_proc f j) as [c|] eqn:Ej; auto.
    assert (E : f_proc (match c with [] => f | _ => insertBuf c f end) = f_proc f).
    { destruct c; auto. unfold insertBuf. destruct (f_failed f); auto. }
    assert (i <> j) by congruence. apply IH.
    - destruct I as [->|]; [contradiction|auto].
    - cbn. rewrite upd_other by auto. now rewrite E. }
  apply G; auto. apply in_seq. lia.
Qed.
End Comb.
