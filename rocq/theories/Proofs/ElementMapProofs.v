From Coq Require Import List Ascii String Arith Bool Lia Permutation Sorted.
From Verif Require Import Base.AssocMap Model.Strings Model.ElementMap Spec.StringSpec Spec.ElementSpec Proofs.StringProofs.
Import ListNotations.

Lemma table_eq : known_elements = map lit (List.concat periodic_table).
Proof. reflexivity. Qed.

Definition nodupb (l : list str) : bool :=
  (fix go l := match l with [] => true | x :: r => negb (existsb (str_eqb x) r) && go r end) l.
Lemma nodupb_spec l : nodupb l = true -> NoDup l.
Proof.
  induction l as [|x l IH]; intros H; constructor.
  - cbn in H. apply andb_true_iff in H. destruct H as [H _]. intros Hi.
    assert (existsb (str_eqb x) l = true) by (apply existsb_exists; exists x; split; auto; apply str_eqb_refl).
    rewrite H0 in H. discriminate.
  - cbn in H. apply andb_true_iff in H. apply IH. tauto.
Qed.
Lemma known_nodup : NoDup known_elements.
Proof. apply nodupb_spec. vm_compute. reflexivity. Qed.
Lemma known_length : List.length known_elements = 102.
Proof. reflexivity. Qed.

Lemma search_spec l s : forall i z, search_element l i s = Some z ->
  exists k, z = i + k + 1 /\ nth_error l k = Some s.
Proof.
  induction l as [|e l IH]; intros i z; simpl; [discriminate|].
  destruct (str_eqb e s) eqn:E; intros H.
  - apply str_eqb_true in E. subst. injection H as <-. exists 0. simpl. split; [lia|auto].
  - apply IH in H. destruct H as (k & -> & Hk). exists (S k). simpl. split; [lia|auto].
Qed.
Lemma search_complete l s k : forall i, NoDup l -> nth_error l k = Some s -> search_element l i s = Some (i + k + 1).
Proof.
  revert k; induction l as [|e l IH]; intros k i Hn Hk; [destruct k; discriminate|].
  inversion Hn; subst. destruct k as [|k]; simpl in *.
  - injection Hk as ->. rewrite str_eqb_refl. f_equal; lia.
  - destruct (str_eqb e s) eqn:E.
    + apply str_eqb_true in E. subst. exfalso. apply H1. eapply nth_error_In; eauto.
    + rewrite (IH k (S i)); auto. f_equal; lia.
Qed.

Lemma atomicNumber_iff s z : atomicNumber s = Some z <-> element_Z s z.
Proof.
  unfold atomicNumber, element_Z. rewrite <- table_eq. split.
  - intros H. apply search_spec in H. destruct H as (k & -> & Hk). split; [lia|].
    replace (0 + k + 1 - 1) with k by lia. auto.
  - intros [Hz H]. rewrite (search_complete _ _ _ 0 known_nodup H). f_equal; lia.
Qed.
Lemma element_Z_inj s1 s2 z : element_Z s1 z -> element_Z s2 z -> s1 = s2.
Proof. intros [_ H1] [_ H2]. congruence. Qed.
Lemma element_Z_fun s z1 z2 : element_Z s z1 -> element_Z s z2 -> z1 = z2.
Proof. intros H1 H2. apply atomicNumber_iff in H1. apply atomicNumber_iff in H2. congruence. Qed.
Lemma element_Z_range s z : element_Z s z -> 1 <= z <= 102.
Proof.
  intros [Hz H]. split; auto. assert (z - 1 < 102); [|lia].
  rewrite <- known_length, table_eq. apply nth_error_Some. congruence.
Qed.
Lemma element_Z_total z : 1 <= z <= 102 -> exists s, element_Z s z.
Proof.
  intros H. unfold element_Z. rewrite <- table_eq.
  destruct (nth_error known_elements (z - 1)) eqn:E; [exists s; split; [lia|auto]|].
  apply nth_error_None in E. rewrite known_length in E. lia.
Qed.
Lemma symbolFromAtomicNumber_ok s z : z < 102 -> (symbolFromAtomicNumber z = Some s <-> element_Z s z).
Proof.
  intros H. unfold symbolFromAtomicNumber, element_Z. rewrite <- table_eq.
  destruct (Nat.leb_spec (List.length known_elements) z); [rewrite known_length in *; lia|].
  destruct (Nat.eqb_spec z 0).
  - split; [discriminate|lia].
  - split; [intros ?; split; [lia|auto] | tauto].
Qed.

(** ** Sorting *)
Definition isknown (s : str) : Prop := exists z, element_Z s z.
Definition zle (s t : str) : Prop := forall a b, element_Z s a -> element_Z t b -> a <= b.

Lemma insert_spec s l : isknown s -> Forall isknown l -> StronglySorted zle l ->
  exists r, insert_sym s l = Some r /\ Permutation (s :: l) r /\ StronglySorted zle r.
Proof.
  intros [zs Hs]. induction l as [|e l IH]; intros Hk Hl; simpl.
  - eexists; split; [reflexivity|]. split; auto. repeat constructor.
  - inversion Hk as [|? ? [ze He] H2]; subst. inversion Hl as [|? ? H3 H4]; subst.
    unfold compareAtomicNumber. rewrite (proj2 (atomicNumber_iff s zs) Hs), (proj2 (atomicNumber_iff e ze) He).
    destruct (Nat.ltb_spec zs ze).
    + eexists; split; [reflexivity|]. split; auto. constructor; auto. constructor.
      * intros a b Ha Hb. rewrite (element_Z_fun _ _ _ Ha Hs), (element_Z_fun _ _ _ Hb He). lia.
      * rewrite Forall_forall in *. intros x Hx a b Ha Hb.
        assert (ze <= b) by (apply (H4 x Hx); auto).
        rewrite (element_Z_fun _ _ _ Ha Hs). lia.
    + destruct (IH H2 H3) as (r & Hr & Hp & Hsr). rewrite Hr. eexists; split; [reflexivity|]. split.
      * transitivity (e :: s :: l); [constructor|]. constructor. auto.
      * constructor; auto. rewrite Forall_forall in *. intros x Hx.
        apply (Permutation_in _ (Permutation_sym Hp)) in Hx. destruct Hx as [<- | Hx]; auto.
        intros a b Ha Hb. rewrite (element_Z_fun _ _ _ Hb Hs), (element_Z_fun _ _ _ Ha He). auto.
Qed.
Lemma sort_spec l : Forall isknown l ->
  exists r, sort_syms l = Some r /\ Permutation l r /\ StronglySorted zle r.
Proof.
  induction 1 as [|s l Hs Hl IH]; simpl.
  - eexists; split; [reflexivity|]. split; auto. constructor.
  - destruct IH as (r & Hr & Hp & Hsr). rewrite Hr.
    destruct (insert_spec s r) as (r' & Hr' & Hp' & Hs'); auto.
    { rewrite Forall_forall in *. intros x Hx. apply Hl. apply (Permutation_in _ (Permutation_sym Hp)); auto. }
    exists r'. split; auto. split; auto. rewrite <- Hp'. constructor; auto.
Qed.
(** Any two sorted permutations agree: the choice of sorting algorithm is
    irrelevant. *)
Lemma sorted_unique l1 l2 : Forall isknown l1 -> Permutation l1 l2 -> StronglySorted zle l1 -> StronglySorted zle l2 -> l1 = l2.
Proof.
  intros Hk Hp H1; revert l2 Hk Hp. induction H1 as [|a l1 H1 IH Ha]; intros l2 Hk Hp H2.
  - apply Permutation_nil in Hp. auto.
  - destruct l2 as [|b l2]; [apply Permutation_sym, Permutation_nil in Hp; discriminate|].
    inversion Hk as [|? ? [za Hza] Hk']; subst. inversion H2 as [|? ? H2' Hb]; subst.
    assert (a = b).
    { assert (Hbi : In b (a :: l1)) by (apply (Permutation_in _ (Permutation_sym Hp)); left; auto).
      assert (Hai : In a (b :: l2)) by (apply (Permutation_in _ Hp); left; auto).
      destruct Hbi as [|Hbi]; auto. destruct Hai as [|Hai]; auto.
      rewrite Forall_forall in Ha, Hb, Hk'. destruct (Hk' b Hbi) as [zb Hzb].
      assert (za <= zb) by (apply (Ha b Hbi); auto). assert (zb <= za) by (apply (Hb a Hai); auto).
      assert (za = zb) by lia. subst. eapply element_Z_inj; eauto. }
    subst b. f_equal. apply IH; auto. eapply Permutation_cons_inv; eauto.
Qed.

Lemma register_loop_spec l : forall i m,
  NoDup l -> (forall s, In s l -> ~ In s (map fst (forwardMap m))) ->
  (forall j, In j (map fst (reverseMap m)) -> j < i) ->
  let m' := register_loop l i m in
  List.length (forwardMap m') = List.length (forwardMap m) + List.length l /\
  (forall s, mget str_eqb s (forwardMap m') =
      match find (fun p => str_eqb (fst p) s) (combine l (seq i (List.length l))) with
      | Some p => Some (snd p) | None => mget str_eqb s (forwardMap m) end) /\
  (forall j, mget Nat.eqb j (reverseMap m') =
      if (i <=? j) then nth_error l (j - i) else mget Nat.eqb j (reverseMap m)).
Proof.
  induction l as [|e l IH]; intros i m Hn Hf Hr; cbn [register_loop].
  - simpl. split; [lia|]. split; auto. intros j. destruct (Nat.leb_spec i j); auto.
    rewrite (proj2 (mget_none Nat.eqb Nat.eqb_eq j _)).
    + destruct (j - i); auto.
    + intros Hj. apply Hr in Hj. lia.
  - inversion Hn; subst.
    specialize (IH (S i) (mkEM (mset str_eqb e i (forwardMap m)) (mset Nat.eqb i e (reverseMap m)))).
    cbn [forwardMap reverseMap] in IH.
    destruct IH as (IH1 & IH2 & IH3).
    + auto.
    + intros s Hs. rewrite (mset_keys _ str_eqb_true). intros [-> | Hin]; auto. apply (Hf s); [right|]; auto.
    + intros j. rewrite (mset_keys _ Nat.eqb_eq). intros [-> | Hj]; [lia|]. apply Hr in Hj. lia.
    + cbv zeta. split; [|split].
      * rewrite IH1. rewrite (mset_length_new _ str_eqb_true); [simpl; lia|]. apply Hf. left; auto.
      * intros s. rewrite IH2. cbn [List.length seq combine find fst snd].
        destruct (find _ (combine l (seq (S i) (List.length l)))) as [[s' j']|] eqn:E.
        -- destruct (str_eqb e s) eqn:Es; auto. apply str_eqb_true in Es. subst.
           apply find_some in E. destruct E as [E Es]. cbn in Es. apply str_eqb_true in Es. subst.
           apply in_combine_l in E. tauto.
        -- destruct (str_eqb e s) eqn:Es.
           ++ apply str_eqb_true in Es. subst. apply (mget_mset_same _ str_eqb_true).
           ++ apply str_eqb_false in Es. apply (mget_mset_other _ str_eqb_true). auto.
      * intros j. rewrite IH3. destruct (Nat.leb_spec (S i) j).
        -- destruct (Nat.leb_spec i j); [|lia]. replace (j - i) with (S (j - S i)) by lia. auto.
        -- destruct (Nat.leb_spec i j).
           ++ assert (j = i) by lia. subst. rewrite (mget_mset_same _ Nat.eqb_eq), Nat.sub_diag. auto.
           ++ apply (mget_mset_other _ Nat.eqb_eq). lia.
Qed.

Lemma find_combine l s : forall i, NoDup l -> 
  match find (fun p => str_eqb (fst p) s) (combine l (seq i (List.length l))) with
  | Some p => i <= snd p /\ nth_error l (snd p - i) = Some s
  | None => ~ In s l end.
Proof.
  induction l as [|e l IH]; intros i Hn; cbn [combine seq List.length find]; [simpl; auto|].
  inversion Hn; subst. cbn [fst]. destruct (str_eqb e s) eqn:E.
  - apply str_eqb_true in E. subst. cbn. rewrite Nat.sub_diag. auto.
  - specialize (IH (S i) H2). destruct find as [[s' j]|].
    + cbn [snd] in *. destruct IH as [Hi Hj]. split; [lia|]. replace (j - i) with (S (j - S i)) by lia. auto.
    + apply str_eqb_false in E. intros [Hx | Hx]; auto.
Qed.

Lemma nodup_nth_error {A} (l : list A) i j x : NoDup l -> nth_error l i = Some x -> nth_error l j = Some x -> i = j.
Proof.
  intros Hn Hi Hj. rewrite NoDup_nth_error in Hn. apply Hn; [|congruence].
  apply nth_error_Some. congruence.
Qed.

(** Main characterisation: after registering distinct known symbols, the map
    is the bijection given by the sorted list. *)
Lemma register_spec line ws : is_words line ws -> NoDup ws -> Forall isknown ws ->
  exists l m, registerElements em_init line = Some (m, List.length ws) /\
    Permutation ws l /\ StronglySorted zle l /\ NoDup l /\
    em_size m = List.length ws /\
    (forall s i, em_index m s = Some i <-> nth_error l i = Some s) /\
    (forall i, em_symbol m i = nth_error l i).
Proof.
  intros Hw Hn Hk. unfold registerElements.
  rewrite split_reduce, (proj1 (is_words_iff _ _) Hw).
  destruct (sort_spec ws Hk) as (l & Hl & Hp & Hs). rewrite Hl. cbn [forwardMap em_init].
  assert (Hnl : NoDup l) by (eapply Permutation_NoDup; eauto).
  exists l, (register_loop l 0 em_init).
  destruct (register_loop_spec l 0 em_init Hnl) as (H1 & H2 & H3).
  { intros s _ []. } { intros j []. }
  assert (Hlen : List.length l = List.length ws) by (apply Permutation_length, Permutation_sym; auto).
  cbn in H1. unfold em_size. rewrite H1, Hlen. cbv zeta. repeat split; auto.
  - unfold em_index. rewrite H2. pose proof (find_combine l s 0 Hnl) as Hf.
    destruct find as [[s' j]|]; cbn in *; [|discriminate]. intros H. injection H as ->.
    replace (i - 0) with i in Hf by lia. tauto.
  - intros H. unfold em_index. rewrite H2. pose proof (find_combine l s 0 Hnl) as Hf.
    destruct find as [[s' j]|]; cbn in *.
    + f_equal. replace (j - 0) with j in Hf by lia. eapply nodup_nth_error; eauto. tauto.
    + exfalso. apply Hf. eapply nth_error_In; eauto.
  - intros i. unfold em_symbol. rewrite H3. cbn. f_equal. lia.
Qed.

Lemma sorted_nth l i j s t a b : StronglySorted zle l -> NoDup l -> i < j ->
  nth_error l i = Some s -> nth_error l j = Some t -> element_Z s a -> element_Z t b -> a < b.
Proof.
  intros Hs Hn Hij Hi Hj Ha Hb.
  assert (a <= b).
  { clear Hn. revert i j Hij Hi Hj. induction Hs as [|x l Hs IH Hx]; intros i j Hij Hi Hj; [destruct i; discriminate|].
    destruct j as [|j]; [lia|]. destruct i as [|i]; simpl in *.
    - injection Hi as ->. rewrite Forall_forall in Hx. apply (Hx t); auto. eapply nth_error_In; eauto.
    - apply (IH i j); auto. lia. }
  destruct (Nat.eq_dec a b); [|lia]. subst. exfalso.
  assert (s = t) by (eapply element_Z_inj; eauto). subst.
  assert (i = j) by (eapply nodup_nth_error; eauto). lia.
Qed.

Lemma elements_string_loop_spec m l n : forall i, (forall i, em_symbol m i = nth_error l i) ->
  i + n = List.length l ->
  elements_string_loop m i n = Some (List.concat (map (fun s => lit " " ++ s) (skipn i l))).
Proof.
  induction n as [|n IH]; intros i Hm Hl; simpl.
  - rewrite skipn_all2 by lia. auto.
  - rewrite (IH (S i)) by (auto; lia). rewrite Hm. destruct (nth_error l i) eqn:E.
    + assert (skipn i l = s :: skipn (S i) l) as ->; [|reflexivity].
      clear -E. revert l E; induction i; intros l E; destruct l; try discriminate; simpl in *.
      * injection E as ->. auto.
      * rewrite (IHi _ E). destruct l; auto.
    + apply nth_error_None in E. lia.
Qed.
Lemma join_concat w ws : join [ch_space] (w :: ws) = w ++ List.concat (map (fun s => lit " " ++ s) ws).
Proof.
  revert w; induction ws as [|v ws IH]; intros w; simpl.
  - now rewrite app_nil_r.
  - f_equal. specialize (IH v). simpl in IH. rewrite IH. reflexivity.
Qed.
Lemma getElementsString_spec m l : em_size m = List.length l -> (forall i, em_symbol m i = nth_error l i) ->
  getElementsString m = Some (join [ch_space] l).
Proof.
  intros Hs Hm. unfold getElementsString. rewrite Hs. destruct l as [|w l]; [auto|].
  cbn [List.length Nat.eqb]. rewrite Hm. cbn [nth_error].
  destruct l as [|v l]; [reflexivity|]. cbn [List.length Nat.eqb].
  rewrite (elements_string_loop_spec m (w :: v :: l)) by (auto; simpl; lia).
  rewrite join_concat. reflexivity.
Qed.

(** ** Summary lemmas *)
Lemma isknown_all ws : (forall s, In s ws -> exists z, element_Z s z) -> Forall isknown ws.
Proof. intros H. rewrite Forall_forall. exact H. Qed.

Lemma register_bijection line ws :
  is_words line ws -> NoDup ws -> (forall s, In s ws -> exists z, element_Z s z) ->
  exists m, registerElements em_init line = Some (m, List.length ws) /\
    em_size m = List.length ws /\
    (forall s i, em_index m s = Some i <-> em_symbol m i = Some s) /\
    (forall s, In s ws <-> exists i, em_index m s = Some i) /\
    (forall i, i < List.length ws <-> exists s, em_symbol m i = Some s) /\
    (forall i j s t a b, em_symbol m i = Some s -> em_symbol m j = Some t ->
        element_Z s a -> element_Z t b -> (i < j <-> a < b)).
Proof.
  intros Hw Hn Hk. destruct (register_spec line ws Hw Hn (isknown_all _ Hk)) as (l & m & H1 & Hp & Hs & Hnl & Hsz & Hi & Hsy).
  exists m. split; auto. split; auto. split; [|split; [|split]].
  - intros s i. rewrite Hi, Hsy. tauto.
  - intros s. split.
    + intros Hin. apply (Permutation_in _ Hp) in Hin. apply In_nth_error in Hin. destruct Hin as [i Hx].
      exists i. apply Hi; auto.
    + intros [i Hx]. apply Hi in Hx. apply nth_error_In in Hx. apply (Permutation_in _ (Permutation_sym Hp)); auto.
  - intros i. rewrite (Permutation_length Hp). split.
    + intros H. rewrite Hsy. apply nth_error_Some in H. destruct (nth_error l i) eqn:E; [eauto|congruence].
    + intros [s H]. rewrite Hsy in H. apply nth_error_Some. congruence.
  - intros i j s t a b Hi' Hj' Ha Hb. rewrite Hsy in *. split; intros H.
    + eapply sorted_nth; eauto.
    + destruct (Nat.lt_trichotomy i j) as [|[->|Hgt]]; auto.
      * assert (s = t) by congruence. subst. rewrite (element_Z_fun _ _ _ Ha Hb) in H. lia.
      * assert (b < a) by (eapply sorted_nth; [| |exact Hgt| | | |]; eauto). lia.
Qed.

Lemma register_permutation line1 line2 ws1 ws2 :
  is_words line1 ws1 -> is_words line2 ws2 -> Permutation ws1 ws2 -> NoDup ws1 ->
  (forall s, In s ws1 -> exists z, element_Z s z) ->
  registerElements em_init line1 = registerElements em_init line2.
Proof.
  intros H1 H2 Hp _ Hk. unfold registerElements.
  rewrite !split_reduce, (proj1 (is_words_iff _ _) H1), (proj1 (is_words_iff _ _) H2).
  destruct (sort_spec ws1) as (r1 & -> & Hp1 & Hs1); [apply isknown_all; auto|].
  assert (Hk2 : Forall isknown ws2).
  { apply isknown_all. intros s Hs. apply Hk. apply (Permutation_in _ (Permutation_sym Hp)); auto. }
  destruct (sort_spec ws2) as (r2 & -> & Hp2 & Hs2); auto.
  assert (r1 = r2) as ->; [|reflexivity].
  apply sorted_unique; auto.
  - apply isknown_all. intros s Hs. apply Hk. apply (Permutation_in _ (Permutation_sym Hp1)); auto.
  - transitivity ws1; [symmetry; auto|]. transitivity ws2; auto.
Qed.

Lemma elements_string_roundtrip line ws :
  is_words line ws -> NoDup ws -> (forall s, In s ws -> exists z, element_Z s z) ->
  exists m e l, registerElements em_init line = Some (m, List.length ws) /\
    getElementsString m = Some e /\ is_words e l /\ Permutation ws l /\
    (forall i, nth_error l i = em_symbol m i) /\
    registerElements em_init e = Some (m, List.length ws).
Proof.
  intros Hw Hn Hk. destruct (register_spec line ws Hw Hn (isknown_all _ Hk)) as (l & m & H1 & Hp & Hs & Hnl & Hsz & Hi & Hsy).
  assert (He : is_words (join [ch_space] l) l).
  { apply words_join. intros x Hx. apply (words_nonempty line).
    rewrite (proj1 (is_words_iff _ _) Hw). apply (Permutation_in _ (Permutation_sym Hp)); auto. }
  exists m, (join [ch_space] l), l. split; auto. split.
  { apply getElementsString_spec; auto. rewrite Hsz. apply Permutation_length; auto. }
  split; auto. split; auto. split; auto.
  rewrite <- H1. symmetry. eapply register_permutation; eauto.
Qed.

Lemma register_twice line line' m n :
  registerElements em_init line = Some (m, n) -> 0 < n ->
  registerElements m line' = None /\
  registerElements (deregisterElements m) line' = registerElements em_init line'.
Proof.
  intros H Hn. split; [|reflexivity].
  unfold registerElements in *. destruct (sort_syms (split (reduce line') ch_space)); auto.
  destruct (sort_syms (split (reduce line) ch_space)); [|discriminate].
  cbn [forwardMap em_init] in H. injection H as Hm Hn'. rewrite Hm in *.
  unfold em_size in Hn'. destruct (forwardMap m); auto. simpl in Hn'. lia.
Qed.

Lemma register_duplicates : exists line m n,
  registerElements em_init line = Some (m, n) /\
  exists i s, em_symbol m i = Some s /\ em_index m s <> Some i.
Proof.
  exists (lit "H H"), (mkEM [(lit "H", 1)] [(0, lit "H"); (1, lit "H")]), 1. split; [reflexivity|].
  exists 0, (lit "H"). split; [reflexivity|]. cbv. discriminate.
Qed.

Lemma register_unknown : exists line s m,
  registerElements em_init line = Some (m, 1) /\ em_index m s = Some 0 /\
  ~ (exists z, element_Z s z).
Proof.
  exists (lit "Xx"), (lit "Xx"), (mkEM [(lit "Xx", 0)] [(0, lit "Xx")]).
  split; [reflexivity|]. split; [reflexivity|]. intros [z Hz]. apply atomicNumber_iff in Hz. discriminate.
Qed.

Lemma symbol_number_inverse s z : z <> 102 -> (symbolFromAtomicNumber z = Some s <-> atomicNumber s = Some z).
Proof.
  intros Hz. rewrite atomicNumber_iff. destruct (Nat.lt_ge_cases z 102).
  - apply symbolFromAtomicNumber_ok; auto.
  - split.
    + unfold symbolFromAtomicNumber. rewrite known_length. destruct (Nat.leb_spec 102 z); [discriminate|lia].
    + intros He. apply element_Z_range in He. lia.
Qed.
Lemma number_range s z :
  (symbolFromAtomicNumber z = Some s -> 1 <= z <= 102) /\ (atomicNumber s = Some z -> 1 <= z <= 102).
Proof.
  split.
  - unfold symbolFromAtomicNumber. rewrite known_length. destruct (Nat.leb_spec 102 z); [discriminate|].
    destruct (Nat.eqb_spec z 0); [discriminate|]. lia.
  - intros H. apply atomicNumber_iff in H. apply element_Z_range in H; auto.
Qed.
Lemma last_element : exists s z, atomicNumber s = Some z /\ symbolFromAtomicNumber z = None.
Proof. exists (lit "No"), 102. split; reflexivity. Qed.
