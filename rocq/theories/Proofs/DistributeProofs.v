(** Distribution of structures over processes. *)
From Coq Require Import List Arith Lia Bool Permutation Sorted.
From Verif Require Import Base.Loop Model.Dataset.
Import ListNotations.

Lemma perProc_eq P ex n i : perProc P ex n i =
  if Nat.ltb i P then
    if negb (Nat.eqb i 0) || negb ex
    then n / (if ex then P - 1 else P) + (if Nat.ltb 0 i && Nat.leb i (n mod (if ex then P - 1 else P)) then 1 else 0)
    else 0
  else 0.
Proof.
  unfold perProc. set (q := n / _). set (r := n mod _).
  match goal with |- for_up P ?f ?a i = _ =>
    assert (G : forall k, for_up k f a i = if Nat.ltb i k then if negb (Nat.eqb i 0) || negb ex then q + (if Nat.ltb 0 i && Nat.leb i r then 1 else 0) else 0 else 0) end.
  { induction k as [|k IH]. { cbn. auto. }
    cbn [for_up]. set (a := for_up k _ _) in *.
    destruct (Nat.eq_dec i k) as [E|E].
    - subst k. replace (Nat.ltb i i) with false in IH by (symmetry; apply Nat.ltb_ge; lia).
      replace (Nat.ltb i (S i)) with true by (symmetry; apply Nat.ltb_lt; lia).
      destruct (negb (Nat.eqb i 0) || negb ex); auto. cbv zeta.
      destruct (Nat.ltb_spec 0 r), (Nat.ltb_spec 0 i), (Nat.leb_spec i r); cbn [andb]; rewrite ?upd_same; try lia.
    - replace (Nat.ltb i (S k)) with (Nat.ltb i k). 2:{ destruct (Nat.ltb_spec i k), (Nat.ltb_spec i (S k)); auto; lia. }
      rewrite <- IH. destruct (negb (Nat.eqb k 0) || negb ex); auto. cbv zeta.
      destruct (Nat.ltb 0 r && Nat.ltb 0 k && Nat.leb k r); rewrite !upd_other by auto; auto. }
  apply G.
Qed.

Lemma perProc_prefix P (ex : bool) n k : S k <= P -> (if ex then 2 <= P else True) -> list_sum (map (perProc P ex n) (seq 0 (S k))) =
  (if ex then k else S k) * (n / (if ex then P - 1 else P)) + Nat.min k (n mod (if ex then P - 1 else P)).
Proof.
  intros Hk HP. induction k as [|k IH].
  - cbn [seq map list_sum fold_right]. rewrite perProc_eq. destruct (Nat.ltb_spec 0 P); [|lia].
    destruct ex; cbn [negb orb Nat.eqb Nat.ltb Nat.leb andb]; lia.
  - rewrite seq_S, map_app, list_sum_app, IH by lia. cbn [map list_sum fold_right plus].
    rewrite perProc_eq. destruct (Nat.ltb_spec (S k) P); [|lia]. cbn [Nat.eqb negb orb].
    set (q := n / _). set (r := n mod _). cbn [Nat.ltb Nat.leb andb].
    destruct r as [|r']. { destruct ex; lia. }
    destruct (Nat.leb_spec k r'); destruct ex; nia.
Qed.
Lemma perProc_sum P (ex : bool) n : 1 <= P -> (if ex then 2 <= P else True) -> list_sum (map (perProc P ex n) (seq 0 P)) = n.
Proof.
  intros H1 H2. destruct P as [|P]; [lia|]. rewrite perProc_prefix by auto.
  destruct ex.
  - replace (S P - 1) with P by lia. pose proof (Nat.div_mod n P ltac:(lia)). pose proof (Nat.mod_upper_bound n P ltac:(lia)). nia.
  - pose proof (Nat.div_mod n (S P) ltac:(lia)). pose proof (Nat.mod_upper_bound n (S P) ltac:(lia)). nia.
Qed.

Section Dist.
Context {A : Type}.
Variable off : A -> A.
Variable file : list A.
Variable P : nat.
Variable quota : nat -> nat.
Let n := length file.
Definition indexed (file : list A) : list (nat * A) := combine (seq 0 (length file)) (map off file).

Lemma indexed_length : length (indexed file) = n.
Proof. unfold indexed. rewrite combine_length, seq_length, map_length. apply Nat.min_id. Qed.
Lemma nth_combine {X Y} (l : list X) (l' : list Y) k : nth_error (combine l l') k = match nth_error l k, nth_error l' k with Some a, Some b => Some (a, b) | _, _ => None end.
Proof.
  revert l' k. induction l as [|a l IH]; intros l' k. { destruct k; cbn; auto. }
  destruct l' as [|b l']. { destruct k; cbn; auto. destruct (nth_error l k); auto. }
  destruct k; cbn; auto.
Qed.
Lemma indexed_nth k : nth_error (indexed file) k = match nth_error file k with Some x => Some (k, off x) | None => None end.
Proof.
  unfold indexed. rewrite nth_combine, nth_error_map. destruct (nth_error file k) as [x|] eqn:E.
  - assert (k < length file) by (apply nth_error_Some; congruence).
    rewrite (nth_error_nth' _ 0) by (rewrite seq_length; lia). rewrite seq_nth by lia. reflexivity.
  - cbn. destruct (nth_error (seq 0 (length file)) k); auto.
Qed.

Record good (s : @dstate A) : Prop := {
  g_count : d_count s <= n;
  g_file : d_file s = skipn (d_count s) file;
  g_len : forall p, d_perProc s p = length (d_out s p);
  g_quota : forall p, length (d_out s p) <= quota p;
  g_perm : Permutation (concat (map (d_out s) (seq 0 P))) (firstn (d_count s) (indexed file));
  g_sorted : forall p, StronglySorted lt (map fst (d_out s p)) /\ (forall x, In x (d_out s p) -> fst x < d_count s) }.

Lemma concat_upd (f : nat -> list (nat * A)) p x : forall k a, a <= p < a + k ->
  Permutation (concat (map (upd f p (f p ++ [x])) (seq a k))) (concat (map f (seq a k)) ++ [x]).
Proof.
  induction k as [|k IH]; intros a Hp; [lia|]. cbn [seq map concat].
  destruct (Nat.eq_dec p a) as [E|E].
  - subst a. rewrite upd_same.
    rewrite (map_ext_in (upd f p (f p ++ [x])) f (seq (S p) k)).
    2:{ intros i Hi. apply in_seq in Hi. apply upd_other. lia. }
    rewrite <- !app_assoc. apply Permutation_app_head. apply Permutation_app_comm.
  - rewrite upd_other by auto. rewrite <- app_assoc. apply Permutation_app_head. apply IH. lia.
Qed.
Lemma sorted_snoc l x : StronglySorted lt l -> (forall y, In y l -> y < x) -> StronglySorted lt (l ++ [x]).
Proof.
  induction l as [|a l IH]; intros H1 H2; cbn. { repeat constructor. }
  inversion H1; subst. constructor.
  - apply IH; auto. intros. apply H2. now right.
  - apply Forall_forall. intros y Hy. apply in_app_or in Hy. destruct Hy as [Hy|[<-|[]]].
    + rewrite Forall_forall in H4. auto.
    + apply H2. now left.
Qed.
Lemma skipn_cons {X} (l : list X) k x r : skipn k l = x :: r -> nth_error l k = Some x /\ skipn (S k) l = r /\ k < length l.
Proof.
  revert l. induction k; intros l H. { destruct l; [discriminate|]. cbn in *. injection H as -> ->. repeat split; auto. lia. }
  destruct l; [discriminate|]. cbn in H. destruct (IHk l H) as (A1 & A2 & A3). repeat split; auto. cbn; lia.
Qed.
Lemma firstn_S {X} (l : list X) k x : nth_error l k = Some x -> firstn (S k) l = firstn k l ++ [x].
Proof.
  revert l. induction k; intros l H; destruct l; try discriminate. { cbn in *. congruence. }
  cbn [firstn app]. f_equal. apply IHk. auto.
Qed.

Lemma give_good p s s' : p < P -> good s -> d_perProc s p < quota p -> giveTo off p s = Some s' ->
  good s' /\ d_count s' = d_count s + 1 /\ (forall q, length (d_out s' q) = length (d_out s q) + if Nat.eqb q p then 1 else 0).
Proof.
  intros Hp [G1 G2 G3 G4 G5 G6] Hq. unfold giveTo. destruct (d_file s) as [|x rest] eqn:Ef; [discriminate|]. intros E. injection E as <-.
  symmetry in G2. destruct (skipn_cons _ _ _ _ G2) as (N1 & N2 & N3). fold n in N3.
  assert (L : forall q, length (upd (d_out s) p (d_out s p ++ [(d_count s, off x)]) q) = length (d_out s q) + if Nat.eqb q p then 1 else 0).
  { intros q. destruct (Nat.eqb_spec q p) as [Eq|Eq]. { subst q. rewrite upd_same, app_length. auto. } rewrite upd_other by auto. lia. }
  split; [|split; [reflexivity|exact L]]. constructor; cbn [d_file d_count d_perProc d_out].
  - lia.
  - rewrite Nat.add_1_r. auto.
  - intros q. rewrite L. destruct (Nat.eqb_spec q p) as [Eq|Eq]. { subst q. rewrite upd_same, G3. auto. } rewrite upd_other, G3 by auto. lia.
  - intros q. rewrite L. destruct (Nat.eqb_spec q p) as [Eq|Eq]. { subst q. rewrite <- G3. lia. } rewrite Nat.add_0_r. auto.
  - eapply Permutation_trans; [apply concat_upd; lia|]. rewrite Nat.add_1_r.
    rewrite (firstn_S (indexed file) (d_count s) (d_count s, off x)). 2:{ rewrite indexed_nth, N1. auto. }
    apply Permutation_app_tail. exact G5.
  - intros q. destruct (Nat.eq_dec q p) as [Eq|Eq].
    + subst q. rewrite upd_same. rewrite map_app. cbn [map fst]. destruct (G6 p) as [S1 S2]. split.
      * apply sorted_snoc; auto. intros y Hy. apply in_map_iff in Hy. destruct Hy as (z & <- & Hz). auto.
      * intros z Hz. apply in_app_or in Hz. destruct Hz as [Hz|[<-|[]]]. { specialize (S2 z Hz). lia. } cbn. lia.
    + rewrite upd_other by auto. destruct (G6 q) as [S1 S2]. split; auto. intros z Hz. specialize (S2 z Hz). lia.
Qed.

Lemma start_good : good (mkD file 0 (fun _ => 0) (fun _ => [])).
Proof.
  constructor; cbn; auto; try lia.
  - clear. induction (seq 0 P); cbn; auto.
  - intros. split; [constructor|]. intros x [].
Qed.
Lemma random_good draws : (forall p, P <= p -> quota p = 0) -> forall s s', good s -> randomLoop off n quota draws s = Some s' -> good s' /\ d_count s' = n.
Proof.
  intros HQ. induction draws as [|p draws IH]; intros s s' Hs; cbn [randomLoop]; destruct (Nat.ltb_spec (d_count s) n) as [L|L].
  - discriminate.
  - intros E. injection E as <-. split; auto. pose proof (g_count s Hs). lia.
  - destruct (Nat.ltb_spec (d_perProc s p) (quota p)) as [L1|L1]; [|now apply IH].
    destruct (giveTo off p s) as [s1|] eqn:E1; [|discriminate].
    assert (Hp : p < P). { destruct (Nat.lt_ge_cases p P); auto. rewrite HQ in L1 by auto. lia. }
    destruct (give_good p s s1 Hp Hs L1 E1) as (G & _). eauto.
  - intros E. injection E as <-. split; auto. pose proof (g_count s Hs). lia.
Qed.
Lemma give_some p s : good s -> d_count s < n -> exists s', giveTo off p s = Some s'.
Proof.
  intros G L. unfold giveTo. rewrite (g_file s G). destruct (skipn (d_count s) file) as [|x r] eqn:E; eauto.
  exfalso. assert (length (skipn (d_count s) file) = 0) by now rewrite E. rewrite skipn_length in H. unfold n in L. lia.
Qed.

Lemma repeat_good p : p < P -> forall k s s', good s -> length (d_out s p) + k <= quota p -> repeatGive off k p s = Some s' ->
  good s' /\ d_count s' = d_count s + k /\ (forall q, length (d_out s' q) = length (d_out s q) + if Nat.eqb q p then k else 0) /\
  (forall q, q <> p -> d_out s' q = d_out s q).
Proof.
  intros Hp. induction k as [|k IH]; intros s s' Hs Hk; cbn [repeatGive].
  - intros E. injection E as <-. split; auto. split; [lia|]. split; auto. intros q. destruct (Nat.eqb q p); lia.
  - destruct (giveTo off p s) as [s1|] eqn:E1; [|discriminate]. intros E.
    assert (L1 : d_perProc s p < quota p) by (rewrite (g_len s Hs); lia).
    destruct (give_good p s s1 Hp Hs L1 E1) as (G & C & L).
    destruct (IH s1 s' G) as (A1 & A2 & A3 & A4); auto. { rewrite L, Nat.eqb_refl. lia. }
    split; auto. split; [lia|]. split.
    + intros q. rewrite A3, L. destruct (Nat.eqb q p); lia.
    + intros q Hq. rewrite A4 by auto. unfold giveTo in E1. destruct (d_file s); [discriminate|]. injection E1 as <-. cbn. now apply upd_other.
Qed.
Lemma repeat_some p : p < P -> forall k s, good s -> length (d_out s p) + k <= quota p -> d_count s + k <= n -> exists s', repeatGive off k p s = Some s'.
Proof.
  intros Hp. induction k as [|k IH]; intros s Hs Hk Hn; cbn [repeatGive]; eauto.
  destruct (give_some p s Hs ltac:(lia)) as [s1 E1]. rewrite E1.
  assert (L1 : d_perProc s p < quota p) by (rewrite (g_len s Hs); lia).
  destruct (give_good p s s1 Hp Hs L1 E1) as (G & C & L). apply IH; auto. { rewrite L, Nat.eqb_refl. lia. } lia.
Qed.

(** What the sequential loop has handed out: complete blocks in the order of the ranks. *)
Lemma sequential_good : forall procs a s s', procs = seq a (P - a) -> a <= P -> good s ->
  (forall q, a <= q -> d_out s q = []) -> sequentialLoop off procs quota s = Some s' ->
  good s' /\ d_count s' = d_count s + list_sum (map quota procs) /\
  (forall q, q < a -> d_out s' q = d_out s q).
Proof.
  induction procs as [|p procs IH]; intros a s s' Ep Ha Hs He; cbn [sequentialLoop].
  - intros E. injection E as <-. split; auto.
  - intros E. destruct (P - a) as [|k] eqn:Ek; [discriminate|]. cbn [seq] in Ep. injection Ep as E1 E2.
    destruct (repeatGive off (quota p) p s) as [s1|] eqn:R; [|discriminate]. subst p.
    destruct (repeat_good a ltac:(lia) (quota a) s s1 Hs ltac:(rewrite He by lia; cbn; lia) R) as (G & C & L & K).
    destruct (IH (S a) s1 s') as (A1 & A2 & A3); auto; try lia.
    { rewrite E2. f_equal. lia. }
    { intros q Hq. rewrite K by lia. apply He. lia. }
    split; auto. split; [unfold list_sum in *; cbn [map fold_right]; lia|]. intros q Hq. rewrite A3 by lia. apply K. lia.
Qed.
Lemma sequential_some : forall procs a s, procs = seq a (P - a) -> a <= P -> good s ->
  (forall q, a <= q -> d_out s q = []) -> d_count s + list_sum (map quota procs) <= n -> exists s', sequentialLoop off procs quota s = Some s'.
Proof.
  induction procs as [|p procs IH]; intros a s Ep Ha Hs He Hn; cbn [sequentialLoop]; eauto.
  destruct (P - a) as [|k] eqn:Ek; [discriminate|]. cbn [seq] in Ep. injection Ep as E1 E2. subst p. cbn [map list_sum fold_right] in Hn.
  destruct (repeat_some a ltac:(lia) (quota a) s Hs ltac:(rewrite He by lia; cbn; lia)) as [s1 R]. { change (fold_right Nat.add 0 (map quota procs)) with (list_sum (map quota procs)) in Hn. lia. }
  rewrite R.
  destruct (repeat_good a ltac:(lia) (quota a) s s1 Hs ltac:(rewrite He by lia; cbn; lia) R) as (G & C & L & K).
  apply (IH (S a) s1); auto; try lia.
  { rewrite E2. f_equal. lia. }
  { intros q Hq. rewrite K by lia. apply He. lia. }
  change (fold_right Nat.add 0 (map quota procs)) with (list_sum (map quota procs)) in Hn. lia.
Qed.
(** Random loop: enough draws of every rank let it end. *)
Lemma random_some : (forall p, P <= p -> quota p = 0) -> list_sum (map quota (seq 0 P)) = n -> forall draws s, good s ->
  (forall p, p < P -> quota p <= length (d_out s p) + count_occ Nat.eq_dec draws p) -> exists s', randomLoop off n quota draws s = Some s'.
Proof.
  intros HQ Hsum. induction draws as [|p draws IH]; intros s Hs Hd; cbn [randomLoop]; destruct (Nat.ltb_spec (d_count s) n) as [L|L]; eauto.
  - exfalso.
    assert (E : d_count s = list_sum (map (fun p => length (d_out s p)) (seq 0 P))).
    { pose proof (Permutation_length (g_perm s Hs)) as E. rewrite firstn_length, indexed_length in E. rewrite Nat.min_l in E by lia.
      rewrite <- E. clear. induction (seq 0 P); cbn; auto. rewrite app_length. f_equal. auto. }
    assert (list_sum (map quota (seq 0 P)) <= list_sum (map (fun p => length (d_out s p)) (seq 0 P))); [|lia].
    assert (G : forall l, (forall p, In p l -> quota p <= length (d_out s p)) -> list_sum (map quota l) <= list_sum (map (fun p => length (d_out s p)) l)).
    { induction l as [|b l IHl]; intros Hl; cbn; auto.
      assert (quota b <= length (d_out s b)) by (apply Hl; now left).
      assert (list_sum (map quota l) <= list_sum (map (fun p => length (d_out s p)) l)) by (apply IHl; intros; apply Hl; now right).
      unfold list_sum in *. lia. }
    apply G. intros p Hp. apply in_seq in Hp. specialize (Hd p ltac:(lia)). cbn in Hd. lia.
  - destruct (Nat.ltb_spec (d_perProc s p) (quota p)) as [L1|L1].
    + destruct (give_some p s Hs L) as [s1 E1]. rewrite E1.
      assert (Hp : p < P). { destruct (Nat.lt_ge_cases p P); auto. rewrite HQ in L1 by auto. lia. }
      destruct (give_good p s s1 Hp Hs L1 E1) as (G & C & Le). apply IH; auto.
      intros q Hq. specialize (Hd q Hq). rewrite Le. cbn [count_occ] in Hd.
      destruct (Nat.eq_dec p q), (Nat.eqb_spec q p); try lia.
    + apply IH; auto. intros q Hq. specialize (Hd q Hq). cbn [count_occ] in Hd.
      rewrite (g_len s Hs) in L1. destruct (Nat.eq_dec p q) as [Eq|Eq]; [subst q|]; lia.
Qed.

(** When everything is handed out every rank has its quota. *)
Lemma full_quota s : good s -> d_count s = n -> list_sum (map quota (seq 0 P)) = n -> forall p, p < P -> length (d_out s p) = quota p.
Proof.
  intros Hs Hc Hsum.
  assert (E : n = list_sum (map (fun p => length (d_out s p)) (seq 0 P))).
  { pose proof (Permutation_length (g_perm s Hs)) as E. rewrite firstn_length, indexed_length, Hc, Nat.min_id in E.
    rewrite <- E. clear. induction (seq 0 P); cbn; auto. rewrite app_length. f_equal. auto. }
  assert (G : forall l, list_sum (map quota l) = list_sum (map (fun p => length (d_out s p)) l) -> forall p, In p l -> length (d_out s p) = quota p).
  { assert (G0 : forall l, list_sum (map (fun p => length (d_out s p)) l) <= list_sum (map quota l)).
    { induction l; cbn; auto. pose proof (g_quota s Hs a). unfold list_sum in *. lia. }
    induction l as [|b l IHl]; intros El p Hp; [destruct Hp|]. cbn in El.
    pose proof (G0 l). pose proof (g_quota s Hs b). unfold list_sum in *. destruct Hp as [<-|Hp]; [lia|]. apply IHl; auto. lia. }
  intros p Hp. apply (G (seq 0 P)). { now rewrite Hsum. } apply in_seq. lia.
Qed.
Lemma receive_all out ps : (forall p, In p ps -> length (out p) = quota p) -> receiveAll quota out ps = Some (map (out : nat -> list (nat * A)) ps).
Proof.
  clear n. induction ps as [|p ps IH]; intros H; cbn; auto. rewrite IH by (intros; apply H; now right).
  unfold receive. pose proof (H p (or_introl eq_refl)) as E.
  destruct (Nat.eqb_spec p 0) as [E0|E0]. { subst p. auto. }
  rewrite <- E. destruct (Nat.ltb_spec (length (out p)) (length (out p))); [lia|]. now rewrite firstn_all.
Qed.
End Dist.

Section Final.
Context {A : Type}.
Variable off : A -> A.

Lemma distribute_state P rnd ex draws (file : list A) loads : distributeStructures off P rnd ex draws file = Some loads -> 1 <= P ->
  exists s, good off file P (perProc P ex (length file)) s /\ d_count s = length file /\ loads = map (d_out s) (seq 0 P) /\
  (forall p, p < P -> length (d_out s p) = perProc P ex (length file) p) /\
  (if ex then 2 <= P else True).
Proof.
  unfold distributeStructures. intros H HP. destruct (ex && Nat.eqb P 1) eqn:E1; [discriminate|].
  destruct (Nat.ltb_spec (length file) (if ex then P - 1 else P)) as [L|L]; [discriminate|]. cbv zeta in H.
  assert (HP2 : if ex then 2 <= P else True). { destruct ex; auto. cbn in E1. apply Nat.eqb_neq in E1. lia. }
  set (quota := perProc P ex (length file)) in *.
  assert (HQ : forall p, P <= p -> quota p = 0). { intros p Hp. unfold quota. rewrite perProc_eq. destruct (Nat.ltb_spec p P); auto; lia. }
  assert (HS : list_sum (map quota (seq 0 P)) = length file) by (apply perProc_sum; auto).
  pose proof (start_good off file P quota) as G0.
  set (s0 := mkD file 0 (fun _ => 0) (fun _ => [])) in *.
  assert (F : forall s, good off file P quota s -> d_count s = length file -> receiveAll quota (d_out s) (seq 0 P) = Some loads ->
    exists s, good off file P quota s /\ d_count s = length file /\ loads = map (d_out s) (seq 0 P) /\ (forall p, p < P -> length (d_out s p) = quota p) /\ (if ex then 2 <= P else True)).
  { intros s Gs Cs Rs. pose proof (full_quota off file P quota s Gs Cs HS) as FQ. exists s. split; auto. split; auto.
    rewrite (receive_all quota (d_out s) (seq 0 P)) in Rs by (intros p Hp; apply in_seq in Hp; apply FQ; lia). injection Rs as <-. auto. }
  destruct rnd.
  - destruct (randomLoop off (length file) quota draws s0) as [s|] eqn:E; [|discriminate].
    destruct (random_good off file P quota draws HQ s0 s G0 E) as [Gs Cs]. eauto.
  - destruct (sequentialLoop off (seq 0 P) quota s0) as [s|] eqn:E; [|discriminate].
    destruct (sequential_good off file P quota (seq 0 P) 0 s0 s) as (Gs & Cs & _); auto; try lia. { f_equal. lia. }
    eapply F; eauto. rewrite Cs. cbn. auto.
Qed.
Lemma distribute_once P rnd ex draws (file : list A) loads : distributeStructures off P rnd ex draws file = Some loads -> 1 <= P ->
  length loads = P /\ Permutation (concat loads) (combine (seq 0 (length file)) (map off file)).
Proof.
  intros H HP. destruct (distribute_state _ _ _ _ _ _ H HP) as (s & G & C & -> & _).
  split. { now rewrite map_length, seq_length. }
  pose proof (g_perm _ _ _ _ _ G) as E. rewrite C in E. rewrite <- (indexed_length off file), firstn_all in E. exact E.
Qed.
Lemma distribute_balanced P rnd ex draws (file : list A) loads : distributeStructures off P rnd ex draws file = Some loads -> 1 <= P ->
  (forall p q, (if ex then 1 else 0) <= p < P -> (if ex then 1 else 0) <= q < P -> length (nth p loads []) <= length (nth q loads []) + 1) /\
  (ex = true -> nth 0 loads [] = []).
Proof.
  intros H HP. destruct (distribute_state _ _ _ _ _ _ H HP) as (s & G & C & -> & L & HP2).
  assert (N : forall p, p < P -> nth p (map (d_out s) (seq 0 P)) [] = d_out s p).
  { intros p Hp. rewrite (nth_indep _ [] (d_out s 0)) by (rewrite map_length, seq_length; auto). rewrite map_nth, seq_nth by auto. auto. }
  split.
  - intros p q Hp Hq. rewrite !N, !L by lia. rewrite !perProc_eq.
    destruct (Nat.ltb_spec p P), (Nat.ltb_spec q P); try lia.
    replace (negb (Nat.eqb p 0) || negb ex) with true. 2:{ destruct (Nat.eqb_spec p 0), ex; cbn; auto; lia. }
    replace (negb (Nat.eqb q 0) || negb ex) with true. 2:{ destruct (Nat.eqb_spec q 0), ex; cbn; auto; lia. }
    destruct (_ && _), (_ && _); lia.
  - intros ->. rewrite N by lia. apply length_zero_iff_nil. rewrite L by lia. rewrite perProc_eq. destruct (Nat.ltb_spec 0 P); auto.
Qed.
Lemma distribute_sorted P rnd ex draws (file : list A) loads : distributeStructures off P rnd ex draws file = Some loads -> 1 <= P ->
  forall l, In l loads -> StronglySorted lt (map fst l).
Proof.
  intros H HP l Hl. destruct (distribute_state _ _ _ _ _ _ H HP) as (s & G & C & -> & _).
  apply in_map_iff in Hl. destruct Hl as (p & <- & _). apply (g_sorted _ _ _ _ _ G p).
Qed.

Lemma repeat_blocks p : forall k (s s' : @dstate A), repeatGive off k p s = Some s' ->
  d_count s' = d_count s + k /\ (forall q, q <> p -> d_out s' q = d_out s q) /\
  d_out s' p = d_out s p ++ combine (seq (d_count s) k) (map off (firstn k (d_file s))) /\ d_file s' = skipn k (d_file s) /\ k <= length (d_file s).
Proof.
  induction k as [|k IH]; intros s s'; cbn [repeatGive].
  - intros E. injection E as <-. repeat split; auto; cbn; try lia. now rewrite app_nil_r.
  - unfold giveTo. destruct (d_file s) as [|x r] eqn:Ef; [discriminate|]. intros E. destruct (IH _ _ E) as (A1 & A2 & A3 & A4 & A5).
    cbn [d_count d_out d_file] in *. split; [lia|]. split. { intros q Hq. rewrite A2 by auto. now apply upd_other. }
    split. { rewrite A3, upd_same, <- app_assoc. cbn [seq firstn map combine app]. rewrite Nat.add_1_r. auto. }
    split; auto. cbn. lia.
Qed.
Lemma sequential_blocks quota : forall k a (s s' : @dstate A), sequentialLoop off (seq a k) quota s = Some s' -> (forall q, a <= q -> d_out s q = []) ->
  let m := list_sum (map quota (seq a k)) in
  concat (map (d_out s') (seq a k)) = combine (seq (d_count s) m) (map off (firstn m (d_file s))) /\ m <= length (d_file s) /\ (forall q, q < a -> d_out s' q = d_out s q).
Proof.
  induction k as [|k IH]; intros a s s' H He; cbn [seq sequentialLoop] in *.
  - injection H as <-. cbn. repeat split; auto. lia.
  - destruct (repeatGive off (quota a) a s) as [s1|] eqn:E; [|discriminate].
    destruct (repeat_blocks a _ _ _ E) as (A1 & A2 & A3 & A4 & A5).
    destruct (IH (S a) s1 s' H) as (B1 & B2 & B3). { intros q Hq. rewrite A2 by lia. apply He. lia. }
    cbv zeta in *. cbn [map concat list_sum fold_right]. fold (list_sum (map quota (seq (S a) k))).
    set (m := list_sum (map quota (seq (S a) k))) in *. rewrite B1, (B3 a) by lia. rewrite A3, (He a), A1, A4 by lia. cbn [app].
    rewrite A4, skipn_length in B2. split; [|split; [lia|]].
    2:{ intros q Hq. rewrite B3 by lia. apply A2. lia. }
    assert (Ec : forall (X Y : Type) (l1 l2 : list X) (m1 m2 : list Y), length l1 = length m1 -> combine (l1 ++ l2) (m1 ++ m2) = combine l1 m1 ++ combine l2 m2).
    { clear. induction l1; intros l2 m1 m2 H; destruct m1; cbn in *; try discriminate; auto. f_equal. apply IHl1. lia. }
    rewrite seq_app. rewrite <- (firstn_skipn (quota a) (d_file s)) at 3. rewrite firstn_app, firstn_length, Nat.min_l by lia.
    replace (quota a + m - quota a) with m by lia. rewrite firstn_firstn, Nat.min_r by lia.
    rewrite map_app. rewrite Ec; auto. rewrite seq_length, map_length, firstn_length. lia.
Qed.
Lemma distribute_sequential P ex draws (file : list A) loads : distributeStructures off P false ex draws file = Some loads -> 1 <= P ->
  concat loads = combine (seq 0 (length file)) (map off file).
Proof.
  intros H HP. destruct (distribute_state _ _ _ _ _ _ H HP) as (s & G & C & EL & L & HP2).
  unfold distributeStructures in H. destruct (ex && Nat.eqb P 1); [discriminate|].
  destruct (Nat.ltb (length file) _); [discriminate|]. cbv zeta in H.
  set (quota := perProc P ex (length file)) in *.
  destruct (sequentialLoop off (seq 0 P) quota _) as [s1|] eqn:E; [|discriminate].
  destruct (sequential_blocks quota P 0 _ s1 E) as (B1 & B2 & _). { auto. } cbv zeta in B1. cbn [d_file d_count] in B1.
  assert (HS : list_sum (map quota (seq 0 P)) = length file) by (apply perProc_sum; auto). rewrite HS, firstn_all in B1.
  destruct (sequential_good off file P quota (seq 0 P) 0 _ s1 ltac:(f_equal; lia) ltac:(lia) (start_good off file P quota) ltac:(auto) E) as (Gs & Cs & _).
  cbn [d_count] in Cs. rewrite (receive_all quota (d_out s1) (seq 0 P)) in H.
  - injection H as <-. exact B1.
  - intros p Hp. apply in_seq in Hp. apply (full_quota off file P quota s1 Gs); auto; try lia.
Qed.
Lemma distribute_succeeds P rnd (ex : bool) draws (file : list A) : 1 <= P -> (ex = true -> 2 <= P) -> (if ex then P - 1 else P) <= length file ->
  (rnd = true -> forall p, p < P -> length file / (if ex then P - 1 else P) + 1 <= count_occ Nat.eq_dec draws p) ->
  exists loads, distributeStructures off P rnd ex draws file = Some loads.
Proof.
  intros HP Hex Hn Hd. unfold distributeStructures.
  replace (ex && Nat.eqb P 1) with false. 2:{ destruct ex; cbn; auto. symmetry. apply Nat.eqb_neq. specialize (Hex eq_refl). lia. }
  destruct (Nat.ltb_spec (length file) (if ex then P - 1 else P)) as [L|L]; [lia|]. cbv zeta.
  assert (HP2 : if ex then 2 <= P else True). { destruct ex; auto. }
  set (quota := perProc P ex (length file)) in *.
  assert (HQ : forall p, P <= p -> quota p = 0). { intros p Hp. unfold quota. rewrite perProc_eq. destruct (Nat.ltb_spec p P); auto; lia. }
  assert (HS : list_sum (map quota (seq 0 P)) = length file) by (apply perProc_sum; auto).
  pose proof (start_good off file P quota) as G0. set (s0 := mkD file 0 (fun _ => 0) (fun _ => [])) in *.
  assert (F : forall s, good off file P quota s -> d_count s = length file -> exists loads, receiveAll quota (d_out s) (seq 0 P) = Some loads).
  { intros s Gs Cs. eexists. apply receive_all. intros p Hp. apply in_seq in Hp. apply (full_quota off file P quota s Gs); auto. lia. }
  destruct rnd.
  - destruct (random_some off file P quota HQ HS draws s0 G0) as [s E].
    { intros p Hp. specialize (Hd eq_refl p Hp). cbn [s0 d_out length]. unfold quota. rewrite perProc_eq.
      destruct (Nat.ltb p P); [|lia]. destruct (negb _ || _); [|lia]. destruct (_ && _); lia. }
    rewrite E. destruct (random_good off file P quota draws HQ s0 s G0 E) as [Gs Cs]. eauto.
  - destruct (sequential_some off file P quota (seq 0 P) 0 s0) as [s E]; auto; try lia. { f_equal. lia. } { cbn. rewrite HS. lia. }
    rewrite E. destruct (sequential_good off file P quota (seq 0 P) 0 s0 s) as (Gs & Cs & _); auto; try lia. { f_equal. lia. }
    apply F; auto. rewrite Cs. cbn. auto.
Qed.
End Final.
