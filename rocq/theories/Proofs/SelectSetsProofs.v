From Coq Require Import List Arith Reals Lra Bool Lia Permutation.
From Verif Require Import Model.SymFunctions Model.Selection Spec.SelectionSpec.
Import ListNotations.

Lemma pushSub_last a c p l x : pt_cands p = l ++ [x] ->
  pushSub a c p = Some (mkPat (pt_train p) (pt_test p) (l ++ [mkCand (c_s x) (c_error x) (c_posSub x) (c_subs x ++ [mkSub a c 0])])).
Proof. intros E. unfold pushSub. rewrite E, rev_app_distr. cbn. now rewrite rev_involutive. Qed.

Section S.
Variables (nnp : nnpType) (hasE hasF hasQ : bool) (numElements : nat) (fraction : R) (draw : nat -> R).

(** 4G: sub-candidates are appended to the last candidate. *)
Lemma force_4G_inner i : is4G nnp = true -> forall atoms p l x, pt_cands p = l ++ [x] ->
  exists p' x', ofold (fun a p => ofold (fun j p => let p := if is4G nnp then p else pushCand i p in pushSub a j p) (seq 0 3) p) atoms p = Some p' /\
  pt_train p' = pt_train p /\ pt_test p' = pt_test p /\ pt_cands p' = l ++ [x'] /\ c_s x' = c_s x /\
  map (fun x => (sub_a x, sub_c x)) (c_subs x') = map (fun x => (sub_a x, sub_c x)) (c_subs x) ++ list_prod atoms [0; 1; 2].
Proof.
  intros H4. rewrite H4. induction atoms as [|a atoms IH]; intros p l x E.
  - exists p, x. cbn. rewrite app_nil_r. auto 10.
  - cbn [ofold seq list_prod map app]. cbv zeta. rewrite (pushSub_last a 0 p l x E). cbn [ofold].
    rewrite (pushSub_last a 1 _ l (mkCand (c_s x) (c_error x) (c_posSub x) (c_subs x ++ [mkSub a 0 0]))) by reflexivity. cbn [ofold].
    rewrite (pushSub_last a 2 _ l (mkCand (c_s x) (c_error x) (c_posSub x) ((c_subs x ++ [mkSub a 0 0]) ++ [mkSub a 1 0]))) by reflexivity. cbn [ofold].
    match goal with |- context [ofold _ atoms ?q] => set (p3 := q) end.
    destruct (IH p3 l _ eq_refl) as (p' & x' & A1 & A2 & A3 & A4 & A5 & A6).
    exists p', x'. split; [exact A1|]. rewrite A2, A3, A4, A5. split; [reflexivity|]. split; [reflexivity|]. split; [reflexivity|]. split; [reflexivity|].
    rewrite A6. cbn [c_subs pt_cands]. rewrite !map_app. cbn [map sub_a sub_c app]. rewrite <- !app_assoc. reflexivity.
Qed.
Lemma force_other_inner i : is4G nnp = false -> forall atoms p,
  exists p', ofold (fun a p => ofold (fun j p => let p := if is4G nnp then p else pushCand i p in pushSub a j p) (seq 0 3) p) atoms p = Some p' /\
  pt_train p' = pt_train p /\ pt_test p' = pt_test p /\ map places (pt_cands p') = map places (pt_cands p) ++ map (fun ac => (i, [ac])) (list_prod atoms [0; 1; 2]).
Proof.
  intros H4. rewrite H4. induction atoms as [|a atoms IH]; intros p.
  - exists p. cbn. rewrite app_nil_r. auto.
  - cbn [ofold seq list_prod map app]. cbv zeta.
    assert (G : forall c q, pushSub a c (pushCand i q) = Some (mkPat (pt_train q) (pt_test q) (pt_cands q ++ [mkCand i 0 0 [mkSub a c 0]]))).
    { intros c q. rewrite (pushSub_last a c (pushCand i q) (pt_cands q) (mkCand i 0 0 [])) by reflexivity. reflexivity. }
    repeat (rewrite G; cbv beta iota). cbn [pt_cands pt_train pt_test].
    match goal with |- context [ofold _ atoms ?q] => destruct (IH q) as (p' & A1 & A2 & A3 & A4) end.
    exists p'. split; [exact A1|]. rewrite A2, A3. split; [reflexivity|]. split; [reflexivity|]. rewrite A4. cbn [pt_cands].
    rewrite !map_app. cbn [map places c_s c_subs sub_a sub_c app]. rewrite <- !app_assoc. reflexivity.
Qed.
Lemma force_ok i s p : exists p', forceCandidates nnp i s p = Some p' /\
  pt_train p' = pt_train p + 3 * s_numAtoms s /\ pt_test p' = pt_test p /\ map places (pt_cands p') = map places (pt_cands p) ++ force_places nnp i s.
Proof.
  unfold forceCandidates. destruct (is4G nnp) eqn:H4.
  - assert (E4 : nnp = HDNNP_4G) by (unfold is4G in H4; destruct nnp; congruence).
    destruct (force_4G_inner i H4 (s_atoms s) (pushCand i (addTrain (3 * s_numAtoms s) p)) (pt_cands p) (mkCand i 0 0 []) eq_refl) as (p' & x' & A1 & A2 & A3 & A4 & A5 & A6).
    rewrite H4 in A1. exists p'. split; [exact A1|]. split; [exact A2|]. split; [exact A3|].
    rewrite A4, map_app. unfold force_places. rewrite E4. cbn [map]. unfold places at 2. rewrite A5, A6. reflexivity.
  - destruct (force_other_inner i H4 (s_atoms s) (addTrain (3 * s_numAtoms s) p)) as (p' & A1 & A2 & A3 & A4).
    rewrite H4 in A1. exists p'. split; [exact A1|]. split; [exact A2|]. split; [exact A3|]. rewrite A4.
    unfold force_places. destruct nnp; [reflexivity|discriminate|reflexivity].
Qed.
Lemma charge_ok i s p : exists p', chargeCandidates nnp i s p = Some p' /\
  pt_train p' = pt_train p + charge_patterns nnp s /\ pt_test p' = pt_test p /\ map places (pt_cands p') = map places (pt_cands p) ++ charge_places nnp i s.
Proof.
  unfold chargeCandidates. destruct (is4G nnp) eqn:H4.
  - assert (E4 : nnp = HDNNP_4G) by (unfold is4G in H4; destruct nnp; congruence). rewrite E4.
    eexists. split; [reflexivity|]. cbn. split; auto. split; auto. now rewrite map_app.
  - assert (G : forall atoms q, exists p', ofold (fun a p => pushSub a 0 (pushCand i p)) atoms q = Some p' /\ pt_train p' = pt_train q /\ pt_test p' = pt_test q /\
       map places (pt_cands p') = map places (pt_cands q) ++ map (fun a => (i, [(a, 0)])) atoms).
    { induction atoms as [|a atoms IH]; intros q. { exists q. cbn. rewrite app_nil_r. auto. }
      cbn [ofold]. rewrite (pushSub_last a 0 (pushCand i q) (pt_cands q) (mkCand i 0 0 [])) by reflexivity.
      match goal with |- context [ofold _ atoms ?q'] => destruct (IH q') as (p' & A1 & A2 & A3 & A4) end.
      exists p'. split; [exact A1|]. rewrite A2, A3, A4. split; [reflexivity|]. split; [reflexivity|]. cbn [pt_cands].
      rewrite map_app. cbn [map places c_s c_subs sub_a sub_c app]. rewrite <- app_assoc. reflexivity. }
    destruct (G (s_atoms s) (addTrain (s_numAtoms s) p)) as (p' & A1 & A2 & A3 & A4).
    exists p'. split; [exact A1|]. rewrite A2, A3, A4. unfold charge_patterns, charge_places. destruct nnp; [auto|discriminate|auto].
Qed.

(** Sets decided for a list of structures when k random numbers have been used. *)
Fixpoint decide (k : nat) (l : list tstructure) : list sampleType :=
  match l with [] => [] | s :: l => fst (assign fraction draw k (s_sample s)) :: decide (snd (assign fraction draw k (s_sample s))) l end.
Definition sumof (f : tstructure -> nat) (w : sampleType -> bool) (ls : list (tstructure * sampleType)) : nat :=
  list_sum (map (fun x => if w (snd x) then f (fst x) else 0) ls).
Definition isTrain (t : sampleType) : bool := match t with ST_TRAINING => true | _ => false end.
Definition isTest (t : sampleType) : bool := match t with ST_TEST => true | _ => false end.
Definition added (has : bool) (f : tstructure -> nat) (g : nat -> tstructure -> list (nat * list (nat * nat))) (a : nat) (l : list tstructure) (ts : list sampleType) (p p' : patterns) : Prop :=
  pt_train p' = pt_train p + (if has then sumof f isTrain (combine l ts) else 0) /\
  pt_test p' = pt_test p + (if has then sumof f isTest (combine l ts) else 0) /\
  map places (pt_cands p') = map places (pt_cands p) ++ (if has then over_training g (combine (combine (seq a (length l)) l) ts) else []).

Lemma loop_ok : forall l a st st', ofold (selectOne nnp hasE hasF hasQ numElements fraction draw) (combine (seq a (length l)) l) st = Some st' ->
  let ts := decide (ss_draws st) l in
  ss_types st' = ss_types st ++ ts /\
  added hasE energy_patterns energy_places a l ts (ss_energy st) (ss_energy st') /\
  added hasF force_patterns (force_places nnp) a l ts (ss_force st) (ss_force st') /\
  added hasQ (charge_patterns nnp) (charge_places nnp) a l ts (ss_charge st) (ss_charge st').
Proof.
  induction l as [|s l IH]; intros a st st' H; cbv zeta.
  - cbn in H. injection H as <-. cbn [decide]. rewrite app_nil_r. split; auto.
    unfold added, sumof. cbn. repeat split; try (destruct hasE); try destruct hasF; try destruct hasQ; rewrite ?app_nil_r; auto; lia.
  - cbn [length seq combine ofold] in H. destruct (selectOne _ _ _ _ _ _ _ (a, s) st) as [st1|] eqn:E1; [|discriminate].
    specialize (IH (S a) st1 st' H). cbv zeta in IH. destruct IH as (T & (E1a & E1b & E1c) & (F1a & F1b & F1c) & (Q1a & Q1b & Q1c)).
    cbn [decide]. unfold selectOne in E1. destruct (assign fraction draw (ss_draws st) (s_sample s)) as [t k] eqn:Ea. cbn [fst snd].
    assert (D : ss_draws st1 = k /\ ss_types st1 = ss_types st ++ [t] /\
      added hasE energy_patterns energy_places a [s] [t] (ss_energy st) (ss_energy st1) /\
      added hasF force_patterns (force_places nnp) a [s] [t] (ss_force st) (ss_force st1) /\
      added hasQ (charge_patterns nnp) (charge_places nnp) a [s] [t] (ss_charge st) (ss_charge st1)).
    { assert (N : forall has f g p, isTrain t = false -> isTest t = false -> added has f g a [s] [t] p p).
      { intros has f g p N1 N2. unfold added, sumof, over_training. cbn. rewrite N1, N2. destruct has; destruct t; try discriminate; cbn; rewrite ?app_nil_r; repeat split; lia. }
      destruct t; try (injection E1 as <-; cbn [ss_draws ss_types ss_energy ss_force ss_charge]; split; [reflexivity|]; split; [reflexivity|]; split; [apply N; auto|]; split; apply N; auto).
      - destruct (Nat.ltb (length (s_perElement s)) numElements); [discriminate|]. unfold when in E1.
        destruct (force_ok a s (ss_force st)) as (pf & PF1 & PF2 & PF3 & PF4). rewrite PF1 in E1.
        destruct (charge_ok a s (ss_charge st)) as (pq & PQ1 & PQ2 & PQ3 & PQ4). rewrite PQ1 in E1.
        assert (X : st1 = mkSS k (ss_types st ++ [ST_TRAINING]) (if hasE then pushCand a (addTrain 1 (ss_energy st)) else ss_energy st)
             (if hasF then pf else ss_force st) (if hasQ then pq else ss_charge st)).
        { destruct hasE, hasF, hasQ; injection E1 as <-; reflexivity. }
        rewrite X. cbn [ss_draws ss_types ss_energy ss_force ss_charge]. split; [reflexivity|]. split; [reflexivity|].
        unfold added, sumof, over_training. cbn [combine seq length map isTrain isTest snd fst list_sum fold_right flat_map]. rewrite app_nil_r.
        split; [|split].
        + destruct hasE; cbn; rewrite ?map_app, ?app_nil_r; unfold energy_patterns; repeat split; auto; lia.
        + destruct hasF; rewrite ?app_nil_r. 2: repeat split; lia. split; [unfold force_patterns; lia|]. split; [lia|]. auto.
        + destruct hasQ; rewrite ?app_nil_r. 2: repeat split; lia. split; [lia|]. split; [lia|]. auto.
      - injection E1 as <-. cbn [ss_draws ss_types ss_energy ss_force ss_charge]. split; [reflexivity|]. split; [reflexivity|].
        unfold added, sumof, over_training. cbn [combine seq length map isTrain isTest snd fst list_sum fold_right flat_map].
        split; [|split].
        + destruct hasE; cbn; rewrite ?app_nil_r; unfold energy_patterns; repeat split; auto; lia.
        + destruct hasF; cbn; rewrite ?app_nil_r; unfold force_patterns; repeat split; auto; lia.
        + destruct hasQ; cbn [addTest pt_train pt_test pt_cands]; rewrite ?app_nil_r. 2: repeat split; lia.
          unfold charge_patterns, is4G. destruct nnp; repeat split; auto; lia. }
    destruct D as (D1 & D2 & (D3a & D3b & D3c) & (D4a & D4b & D4c) & (D5a & D5b & D5c)).
    rewrite D1 in *.
    assert (C : forall has f g p p1 p', added has f g a [s] [t] p p1 -> added has f g (S a) l (decide k l) p1 p' -> added has f g a (s :: l) (t :: decide k l) p p').
    { intros has f g p p1 p' (X1 & X2 & X3) (Y1 & Y2 & Y3). unfold added, sumof, over_training in *.
      cbn [combine seq length map list_sum fold_right flat_map fst snd] in *. rewrite ?app_nil_r in *.
      change (fold_right Nat.add 0) with list_sum in *.
      rewrite Y1, Y2, Y3, X1, X2, X3. destruct has; [|rewrite ?app_nil_r; repeat split; lia].
      rewrite <- app_assoc. repeat split; lia. }
    split. { rewrite T, D2, <- app_assoc. reflexivity. }
    split; [|split].
    + apply (C _ _ _ _ (ss_energy st1)); unfold added; auto.
    + apply (C _ _ _ _ (ss_force st1)); unfold added; auto.
    + apply (C _ _ _ _ (ss_charge st1)); unfold added; auto.
Qed.
Lemma decide_length k l : length (decide k l) = length l.
Proof. revert k. induction l; intros; cbn; auto. Qed.
Lemma decide_set : forall l pre k, k = length (filter undecided pre) -> forall i s, nth_error l i = Some s ->
  exists t, nth_error (decide k l) i = Some t /\ set_of draw fraction (pre ++ l) (length pre + i) s t.
Proof.
  induction l as [|x l IH]; intros pre k Hk i s Hi; [destruct i; discriminate|].
  destruct i as [|i].
  - cbn in Hi. injection Hi as ->. exists (fst (assign fraction draw k (s_sample s))). split; [reflexivity|].
    unfold set_of. rewrite Nat.add_0_r, firstn_app, firstn_all, Nat.sub_diag. cbn [firstn]. rewrite app_nil_r, <- Hk.
    unfold assign, ltR. destruct (s_sample s); cbn [fst]; auto. destruct (Rlt_dec (draw k) fraction); cbn; [left|right]; split; auto; lra.
  - cbn in Hi. specialize (IH (pre ++ [x]) (snd (assign fraction draw k (s_sample x)))).
    rewrite app_length in IH. cbn in IH. rewrite <- app_assoc in IH. cbn in IH.
    replace (length pre + S i) with (length pre + 1 + i) by lia. cbn [decide nth_error]. apply IH; auto.
    rewrite filter_app, app_length. unfold undecided at 2, assign. cbn. destruct (s_sample x); cbn; lia.
Qed.
Lemma loop_succeeds : forall l a st, (forall s, In s l -> numElements <= length (s_perElement s)) ->
  exists st', ofold (selectOne nnp hasE hasF hasQ numElements fraction draw) (combine (seq a (length l)) l) st = Some st'.
Proof.
  induction l as [|s l IH]; intros a st H; [eexists; reflexivity|]. cbn [length seq combine ofold].
  assert (E : exists st1, selectOne nnp hasE hasF hasQ numElements fraction draw (a, s) st = Some st1).
  { unfold selectOne. destruct (assign _ _ _ _) as [t k]. destruct t; eauto.
    destruct (Nat.ltb_spec (length (s_perElement s)) numElements) as [L|L]. { specialize (H s (or_introl eq_refl)). lia. }
    unfold when. destruct (force_ok a s (ss_force st)) as (pf & -> & _). destruct (charge_ok a s (ss_charge st)) as (pq & -> & _).
    destruct hasE, hasF, hasQ; eauto. }
  destruct E as [st1 ->]. apply IH. intros. apply H. now right.
Qed.
End S.

Lemma split_partition nnp hasE hasF hasQ ne fraction draw structures st :
  selectSets nnp hasE hasF hasQ ne fraction draw structures = Some st ->
  length (ss_types st) = length structures /\
  forall i s, nth_error structures i = Some s -> exists t, nth_error (ss_types st) i = Some t /\ set_of draw fraction structures i s t.
Proof.
  intros H. unfold selectSets in H. apply loop_ok in H. cbn [ss_draws ss_types app] in H. destruct H as (T & _). rewrite T. split.
  - apply decide_length.
  - intros i s Hi. apply (decide_set fraction draw structures [] 0 eq_refl i s Hi).
Qed.
Lemma candidates nnp hasE hasF hasQ ne fraction draw structures st :
  selectSets nnp hasE hasF hasQ ne fraction draw structures = Some st ->
  let l := numbered structures (ss_types st) in
  map places (pt_cands (ss_energy st)) = (if hasE then over_training energy_places l else []) /\
  map places (pt_cands (ss_force st)) = (if hasF then over_training (force_places nnp) l else []) /\
  map places (pt_cands (ss_charge st)) = (if hasQ then over_training (charge_places nnp) l else []).
Proof.
  intros H. unfold selectSets in H. apply loop_ok in H. cbn [ss_draws ss_types ss_energy ss_force ss_charge app] in H.
  destruct H as (T & (_ & _ & A) & (_ & _ & B) & (_ & _ & C)). cbv zeta. unfold numbered. rewrite T, A, B, C. auto.
Qed.
Lemma sum_over f w (l : list tstructure) ts a : sumof f w (combine l ts)
  = list_sum (map (fun x => match x with (_, s, t) => if w t then f s else 0 end) (combine (combine (seq a (length l)) l) ts)).
Proof.
  unfold sumof. revert ts a. induction l as [|s l IH]; intros ts a; [destruct ts; reflexivity|]. destruct ts as [|t ts]; [reflexivity|].
  cbn [combine length seq map fst snd list_sum fold_right]. change (fold_right Nat.add 0) with list_sum. f_equal. apply IH.
Qed.
Lemma pattern_counts nnp hasE hasF hasQ ne fraction draw structures st :
  selectSets nnp hasE hasF hasQ ne fraction draw structures = Some st ->
  let l := numbered structures (ss_types st) in
  let train f := list_sum (over_training (fun _ s => [f s]) l) in
  let test f := list_sum (over_test (fun _ s => [f s]) l) in
  (hasE = true -> pt_train (ss_energy st) = train energy_patterns /\ pt_test (ss_energy st) = test energy_patterns) /\
  (hasF = true -> pt_train (ss_force st) = train force_patterns /\ pt_test (ss_force st) = test force_patterns) /\
  (hasQ = true -> pt_train (ss_charge st) = train (charge_patterns nnp) /\ pt_test (ss_charge st) = test (charge_patterns nnp)).
Proof.
  intros H. unfold selectSets in H. apply loop_ok in H. cbn [ss_draws ss_types ss_energy ss_force ss_charge app pt_train pt_test pt_cands Nat.add] in H.
  destruct H as (T & (A1 & A2 & _) & (B1 & B2 & _) & (C1 & C2 & _)). cbv zeta. unfold numbered. rewrite T.
  assert (G : forall f, sumof f isTrain (combine structures (decide fraction draw 0 structures)) = list_sum (over_training (fun _ s => [f s]) (combine (combine (seq 0 (length structures)) structures) (decide fraction draw 0 structures))) /\
    sumof f isTest (combine structures (decide fraction draw 0 structures)) = list_sum (over_test (fun _ s => [f s]) (combine (combine (seq 0 (length structures)) structures) (decide fraction draw 0 structures)))).
  { intros f. rewrite !(sum_over f _ structures _ 0). unfold over_training, over_test. generalize (combine (combine (seq 0 (length structures)) structures) (decide fraction draw 0 structures)).
    clear. induction l as [|[[i s] t] l [IH1 IH2]]; [auto|]. cbn [map flat_map]. rewrite !list_sum_app. 
    change (list_sum (?a :: ?b)) with (a + list_sum b). rewrite IH1, IH2. destruct t; cbn [isTrain isTest]; cbn; split; lia. }
  split; [|split]; intros ->; rewrite ?A1, ?A2, ?B1, ?B2, ?C1, ?C2; split; apply G.
Qed.
Lemma select_succeeds nnp hasE hasF hasQ ne fraction draw structures : (forall s, In s structures -> ne <= length (s_perElement s)) ->
  exists st, selectSets nnp hasE hasF hasQ ne fraction draw structures = Some st.
Proof. intros H. apply loop_succeeds. auto. Qed.

(** Different candidates are different places, and every place is there. *)
Lemma in_numbered structures types i s t : In (i, s, t) (numbered structures types) -> nth_error structures i = Some s /\ nth_error types i = Some t.
Proof.
  unfold numbered. intros H. apply In_nth_error in H. destruct H as [k H].
  assert (G : forall A B (l : list A) (l' : list B) k a b, nth_error (combine l l') k = Some (a, b) -> nth_error l k = Some a /\ nth_error l' k = Some b).
  { clear. induction l; intros l' k x y H; [destruct k; discriminate|]. destruct l'; [destruct k; discriminate|]. destruct k; cbn in *; [injection H as -> ->; auto|]. apply IHl; auto. }
  apply G in H. destruct H as [H1 H2]. apply G in H1. destruct H1 as [H0 H1].
  assert (k < length structures) by (apply nth_error_Some; congruence).
  rewrite (nth_error_nth' _ 0) in H0 by (rewrite seq_length; auto). rewrite seq_nth in H0 by auto. injection H0 as <-. auto.
Qed.

(** * Every component once *)
Lemma NoDup_app_sel {A} (l l' : list A) : NoDup l -> NoDup l' -> (forall x, In x l -> In x l' -> False) -> NoDup (l ++ l').
Proof.
  intros N N' D. induction l as [|a l IH]; [exact N'|]. inversion N as [|? ? Ha Hl]; subst. cbn. constructor.
  - intros I. apply in_app_or in I. destruct I as [I|I]; [auto|]. apply (D a); [now left|auto].
  - apply IH; auto. intros x I1 I2. apply (D x); [now right|auto].
Qed.
Lemma over_training_nodup {B} (f : nat -> tstructure -> list B) (key : B -> nat) :
  forall l ts a, (forall i s, nth_error l i = Some s -> NoDup (f (a + i) s)) -> (forall i s x, In x (f i s) -> key x = i) ->
  NoDup (over_training f (combine (combine (seq a (length l)) l) ts)).
Proof.
  induction l as [|s l IH]; intros ts a N K; [constructor|]. destruct ts as [|t ts]; [constructor|]. cbn [length seq combine]. unfold over_training. cbn [flat_map].
  assert (NR : NoDup (over_training f (combine (combine (seq (S a) (length l)) l) ts))). { apply IH; auto. intros i x Hi. replace (S a + i) with (a + S i) by lia. now apply N. }
  apply NoDup_app_sel; [|exact NR|].
  - destruct t; try constructor. specialize (N 0 s eq_refl). now rewrite Nat.add_0_r in N.
  - intros x I1 I2. destruct t; try contradiction. apply K in I1. subst.
    apply in_flat_map in I2. destruct I2 as ([[i y] t] & J1 & J2). destruct t; try contradiction. apply K in J2. subst.
    apply in_combine_l in J1. apply in_combine_l in J1. apply in_seq in J1. lia.
Qed.
Lemma in_over_training {B} (f : nat -> tstructure -> list B) structures types x : 
  In x (over_training f (numbered structures types)) <-> exists i s, in_training structures types i s /\ In x (f i s).
Proof.
  unfold over_training. rewrite in_flat_map. split.
  - intros ([[i s] t] & I1 & I2). apply in_numbered in I1. destruct t; try contradiction. exists i, s. split; [exact I1|exact I2].
  - intros (i & s & [H1 H2] & I2). exists (i, s, ST_TRAINING). split; [|exact I2]. unfold numbered.
    assert (G : forall A B (l : list A) (l' : list B) k a b, nth_error l k = Some a -> nth_error l' k = Some b -> In (a, b) (combine l l')).
    { clear. induction l; intros l' k x y H1 H2; [destruct k; discriminate|]. destruct l'; [destruct k; discriminate|]. destruct k; cbn in *; [left; congruence|]. right. eapply IHl; eauto. }
    apply (G _ _ _ _ i); [|exact H2].
    assert (L : i < length structures) by (apply nth_error_Some; congruence).
    assert (C : forall (l : list tstructure) a k x, nth_error l k = Some x -> nth_error (combine (seq a (length l)) l) k = Some (a + k, x)).
    { clear. induction l as [|y l IH]; intros a k x H; [destruct k; discriminate|]. destruct k; cbn in *; [rewrite Nat.add_0_r; congruence|]. rewrite (IH (S a) k x H). f_equal. f_equal. lia. }
    apply (C structures 0 i s H1).
Qed.
Lemma covered_flat l : covered l = flat_map (fun p => map (pair (fst p)) (snd p)) (map places l).
Proof. unfold covered. induction l as [|c l IH]; [reflexivity|]. cbn [map flat_map]. now rewrite IH. Qed.
Lemma flat_map_over {B C} (g : B -> list C) (f : nat -> tstructure -> list B) l : flat_map g (over_training f l) = over_training (fun i s => flat_map g (f i s)) l.
Proof. unfold over_training. induction l as [|[[i s] t] l IH]; [reflexivity|]. cbn [flat_map]. rewrite flat_map_app, IH. destruct t; reflexivity. Qed.
Lemma map_over {B C} (g : B -> C) (f : nat -> tstructure -> list B) l : map g (over_training f l) = over_training (fun i s => map g (f i s)) l.
Proof. unfold over_training. induction l as [|[[i s] t] l IH]; [reflexivity|]. cbn [flat_map]. rewrite map_app, IH. destruct t; reflexivity. Qed.
Lemma over_training_ext {B} (f g : nat -> tstructure -> list B) l : (forall i s, f i s = g i s) -> over_training f l = over_training g l.
Proof. intros H. unfold over_training. induction l as [|[[i s] t] l IH]; [reflexivity|]. cbn [flat_map]. rewrite IH. destruct t; rewrite ?H; reflexivity. Qed.
Lemma list_prod_NoDup {A B} (l : list A) (l' : list B) : NoDup l -> NoDup l' -> NoDup (list_prod l l').
Proof.
  intros N N'. induction l as [|a l IH]; [constructor|]. inversion N as [|? ? Ha Hl]; subst. cbn [list_prod]. apply NoDup_app_sel; [|auto|].
  - clear - N'. induction N'; cbn; constructor; auto. intros I. apply in_map_iff in I. destruct I as (y & E & I). congruence.
  - intros [x y] I1 I2. apply in_map_iff in I1. destruct I1 as (z & E & _). injection E as <- <-. apply in_prod_iff in I2. tauto.
Qed.
Lemma pair_NoDup {A B} (x : A) (l : list B) : NoDup l -> NoDup (map (pair x) l).
Proof. induction 1; cbn; constructor; auto. intros I. apply in_map_iff in I. destruct I as (y & E & I). congruence. Qed.
Lemma force_flat nnp i s : flat_map (fun p => map (pair (fst p)) (snd p)) (force_places nnp i s) = map (pair i) (components s).
Proof.
  unfold force_places. destruct nnp; cbn [flat_map fst snd]; rewrite ?app_nil_r; auto; induction (components s) as [|x l IH]; cbn [map flat_map fst snd app]; auto; now rewrite IH.
Qed.
Lemma charge_flat nnp i s : nnp <> HDNNP_4G -> flat_map (fun p => map (pair (fst p)) (snd p)) (charge_places nnp i s) = map (fun a => (i, (a, 0))) (s_atoms s).
Proof.
  intros H. unfold charge_places. destruct nnp; [|contradiction|]; induction (s_atoms s) as [|x l IH]; cbn [map flat_map fst snd app]; auto; now rewrite IH.
Qed.

Lemma force_once nnp hasE hasQ ne fraction draw structures st : selectSets nnp hasE true hasQ ne fraction draw structures = Some st -> all_indexed structures ->
  NoDup (covered (pt_cands (ss_force st))) /\
  forall i a c, In (i, (a, c)) (covered (pt_cands (ss_force st))) <-> exists s, in_training structures (ss_types st) i s /\ a < s_numAtoms s /\ c < 3.
Proof.
  intros H A. destruct (candidates _ _ _ _ _ _ _ _ _ H) as (_ & F & _). rewrite covered_flat, F, flat_map_over.
  rewrite (over_training_ext _ (fun i s => map (pair i) (components s))) by (intros; apply force_flat). split.
  - apply (over_training_nodup _ fst).
    + intros i s Hi. apply pair_NoDup. unfold components. rewrite (A s) by (eapply nth_error_In; eauto).
      apply list_prod_NoDup; [apply seq_NoDup|]. repeat constructor; cbn; intuition lia.
    + intros i s x I. apply in_map_iff in I. destruct I as (y & <- & _). reflexivity.
  - intros i a c. rewrite in_over_training. split.
    + intros (j & s & T & I). apply in_map_iff in I. destruct I as ([a' c'] & E & I). injection E as -> -> ->. exists s. split; [exact T|].
      unfold components in I. apply in_prod_iff in I. rewrite (A s) in I by (eapply nth_error_In; apply T). destruct I as [I1 I2]. apply in_seq in I1. cbn in I2. intuition lia.
    + intros (s & T & Ha & Hc). exists i, s. split; [exact T|]. apply in_map. unfold components. rewrite (A s) by (eapply nth_error_In; apply T). apply in_prod; [apply in_seq; lia|]. cbn. lia.
Qed.
Lemma charge_once nnp hasE hasF ne fraction draw structures st : selectSets nnp hasE hasF true ne fraction draw structures = Some st -> all_indexed structures -> nnp <> HDNNP_4G ->
  NoDup (covered (pt_cands (ss_charge st))) /\
  forall i a, In (i, (a, 0)) (covered (pt_cands (ss_charge st))) <-> exists s, in_training structures (ss_types st) i s /\ a < s_numAtoms s.
Proof.
  intros H A H4. destruct (candidates _ _ _ _ _ _ _ _ _ H) as (_ & _ & F). rewrite covered_flat, F, flat_map_over.
  rewrite (over_training_ext _ (fun i s => map (fun a => (i, (a, 0))) (s_atoms s))) by (intros; now apply charge_flat). split.
  - apply (over_training_nodup _ fst).
    + intros i s Hi. rewrite (A s) by (eapply nth_error_In; eauto). clear. generalize (seq_NoDup (s_numAtoms s) 0). induction 1; cbn; constructor; auto.
      intros I. apply in_map_iff in I. destruct I as (y & E & I). congruence.
    + intros i s x I. apply in_map_iff in I. destruct I as (y & <- & _). reflexivity.
  - intros i a. rewrite in_over_training. split.
    + intros (j & s & T & I). apply in_map_iff in I. destruct I as (a' & E & I). injection E as -> ->. exists s. split; [exact T|].
      rewrite (A s) in I by (eapply nth_error_In; apply T). apply in_seq in I. lia.
    + intros (s & T & Ha). exists i, s. split; [exact T|]. apply in_map_iff. exists a. split; [reflexivity|]. rewrite (A s) by (eapply nth_error_In; apply T). apply in_seq. lia.
Qed.
(** Energies (and, with 4G, forces and charges): one candidate per training structure. *)
Lemma structure_once (f : nat -> tstructure -> list (nat * list (nat * nat))) l structures types :
  (forall i s, map fst (f i s) = [i]) -> map places l = over_training f (numbered structures types) ->
  NoDup (map c_s l) /\ forall i, In i (map c_s l) <-> exists s, in_training structures types i s.
Proof.
  intros Hf H. assert (E : map c_s l = over_training (fun i _ => [i]) (numbered structures types)).
  { transitivity (map fst (map places l)). { rewrite map_map. reflexivity. } rewrite H, map_over. now apply over_training_ext. }
  rewrite E. split.
  - apply (over_training_nodup _ (fun i => i)). { intros. repeat constructor. auto. } intros i s x [<-|[]]. reflexivity.
  - intros i. rewrite in_over_training. split.
    + intros (j & s & T & [<-|[]]). eauto.
    + intros (s & T). exists i, s. split; [exact T|now left].
Qed.
Lemma energy_once nnp hasF hasQ ne fraction draw structures st : selectSets nnp true hasF hasQ ne fraction draw structures = Some st ->
  NoDup (map c_s (pt_cands (ss_energy st))) /\ forall i, In i (map c_s (pt_cands (ss_energy st))) <-> exists s, in_training structures (ss_types st) i s.
Proof. intros H. destruct (candidates _ _ _ _ _ _ _ _ _ H) as (F & _). eapply structure_once; [|exact F]. reflexivity. Qed.
Lemma global_once hasE hasF hasQ ne fraction draw structures st : selectSets HDNNP_4G hasE hasF hasQ ne fraction draw structures = Some st ->
  (hasF = true -> NoDup (map c_s (pt_cands (ss_force st))) /\ forall i, In i (map c_s (pt_cands (ss_force st))) <-> exists s, in_training structures (ss_types st) i s) /\
  (hasQ = true -> NoDup (map c_s (pt_cands (ss_charge st))) /\ forall i, In i (map c_s (pt_cands (ss_charge st))) <-> exists s, in_training structures (ss_types st) i s).
Proof.
  intros H. destruct (candidates _ _ _ _ _ _ _ _ _ H) as (_ & F & Q). split; intros ->; (eapply structure_once; [|eassumption]); reflexivity.
Qed.
