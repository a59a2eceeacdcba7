From Coq Require Import String List Ascii Arith Bool Lia Sorted.
From Verif Require Import Base.AssocMap Model.Strings Model.Settings Spec.StringSpec Spec.SettingsSpec Proofs.StringProofs.
Import ListNotations.

(** ** Comments *)
Lemma cut_at_spec d s : exists rest, s = cut_at d s ++ rest /\ ~ In d (cut_at d s) /\
  match rest with [] => True | x :: _ => x = d end.
Proof.
  induction s as [|c s (rest & Hs & Hn & Hr)]; simpl.
  - exists []. simpl; auto.
  - destruct (ch_eqb c d) eqn:E.
    + apply ch_eqb_true in E. subst. exists (d :: s). simpl; auto.
    + apply ch_eqb_false in E. exists rest. simpl. split; [f_equal; auto|]. split; auto.
      intros [H|H]; auto.
Qed.
Lemma cut_code line : code_part line (cut_at ch_bang (cut_at ch_hash line)).
Proof.
  destruct (cut_at_spec ch_hash line) as (r1 & H1 & N1 & S1).
  destruct (cut_at_spec ch_bang (cut_at ch_hash line)) as (r2 & H2 & N2 & S2).
  set (a := cut_at ch_hash line) in *. set (b := cut_at ch_bang a) in *.
  exists (r2 ++ r1). split; [|split].
  - rewrite app_assoc, <- H2. auto.
  - rewrite Forall_forall. intros x Hx [-> | ->]; [|apply N2; auto].
    apply N1. rewrite H2. apply in_or_app; auto.
  - destruct r2; simpl; [destruct r1; auto; left; auto | right; auto].
Qed.
Lemma code_part_unique line c1 c2 : code_part line c1 -> code_part line c2 -> c1 = c2.
Proof.
  intros (r1 & E1 & F1 & R1) (r2 & E2 & F2 & R2). subst line.
  revert c2 E2 F2. induction F1 as [|x c1 Hx F1 IH]; intros c2 E2 F2.
  - destruct c2 as [|y c2]; auto. simpl in E2. subst r1. inversion F2; subst. tauto.
  - destruct c2 as [|y c2].
    + simpl in E2. subst r2. tauto.
    + simpl in E2. injection E2 as -> E2. inversion F2; subst. f_equal. auto.
Qed.

(** ** One line *)
Lemma find_first_not_space_none c : find_first_not_of [ch_space] c 0 = None -> Forall (fun x => x = ch_space) c.
Proof.
  unfold find_first_not_of. generalize 0 at 1. induction c as [|x c IH]; intros n H; constructor.
  - simpl in H. destruct (ch_eqb x ch_space) eqn:E; [apply ch_eqb_true in E; auto|]. simpl in H. discriminate.
  - simpl in H. destruct (ch_eqb x ch_space) eqn:E; simpl in H; [eapply IH; eauto | discriminate].
Qed.
Lemma find_first_not_space_some c p : find_first_not_of [ch_space] c 0 = Some p -> exists x, In x c /\ x <> ch_space.
Proof.
  unfold find_first_not_of. generalize 0 at 1. induction c as [|x c IH]; intros n H; simpl in H; [discriminate|].
  destruct (ch_eqb x ch_space) eqn:E; simpl in H.
  - apply IH in H. destruct H as (y & Hy & Hn). exists y. simpl; auto.
  - apply ch_eqb_false in E. exists x. simpl; auto.
Qed.

Definition parse_code (c : str) (i : nat) : option (str * (str * nat)) :=
  match find_first_not_of [ch_space] c 0 with
  | None => None
  | Some _ => match find_first_of [ch_space] (reduce c) 0 with
        | None => Some (reduce c, ([], i))
        | Some p => Some (substr (reduce c) 0 p, (skipn (p + 1) (reduce c), i))
        end
  end.
Lemma parse_line_code line i : line <> [ch_cr] ->
  parse_line line i = parse_code (cut_at ch_bang (cut_at ch_hash line)) i.
Proof.
  intros H. destruct line as [|a line]; [reflexivity|].
  unfold parse_line. rewrite (proj2 (str_eqb_false _ _) H). reflexivity.
Qed.

Lemma find_space_word w rest : Forall (fun c => ~ blank c) w ->
  find_first_of [ch_space] (w ++ rest) 0 = find_from (in_set [ch_space]) rest (List.length w) 0.
Proof.
  intros H. unfold find_first_of. rewrite find_from_none; [f_equal|].
  eapply Forall_impl; [|exact H]. intros x Hx. unfold in_set. simpl. rewrite orb_false_r.
  apply ch_eqb_false. intros ->. apply Hx. left; auto.
Qed.
Lemma parse_code_words c i w ws : is_words c (w :: ws) -> parse_code c i = Some (w, (join [ch_space] ws, i)).
Proof.
  intros H. unfold parse_code.
  assert (Hw : w <> [] /\ Forall (fun c => ~ blank c) w).
  { apply (words_nonempty c). apply is_words_iff in H. rewrite H. left; auto. }
  destruct (find_first_not_of [ch_space] c 0) eqn:E.
  - rewrite (reduce_is_words _ _ H). destruct ws as [|v ws].
    + cbn [join]. rewrite <- (app_nil_r w) at 1. rewrite find_space_word by tauto. reflexivity.
    + rewrite join_cons_ne by discriminate. rewrite find_space_word by tauto.
      cbn [app]; rewrite find_from_hit by (auto; lia). unfold substr. cbn [skipn].
      rewrite firstn_app, Nat.sub_diag, firstn_all. cbn [firstn]. rewrite app_nil_r.
      rewrite skipn_app, skipn_all2 by lia. replace (List.length w + 1 - List.length w) with 1 by lia.
      reflexivity.
  - exfalso. apply find_first_not_space_none in E.
    assert (is_words c []) by (apply words_nil; eapply Forall_impl; [|exact E]; intros x ->; left; auto).
    apply is_words_iff in H. apply is_words_iff in H0. congruence.
Qed.
Lemma parse_code_blank c i : is_words c [] -> ~ In ch_tab c -> parse_code c i = None.
Proof.
  intros H Ht. unfold parse_code. destruct (find_first_not_of [ch_space] c 0) eqn:E; auto.
  exfalso. apply find_first_not_space_some in E. destruct E as (x & Hx & Hn).
  inversion H; subst. rewrite Forall_forall in H0. destruct (H0 x Hx); subst; auto.
Qed.

Lemma parse_line_spec line i e : regular_line line ->
  (parse_line line i = Some e <-> exists k v, e = (k, (v, i)) /\ line_entry line k v).
Proof.
  intros [Hcr Hreg]. rewrite parse_line_code by (intros ->; apply Hcr; left; auto).
  pose proof (cut_code line) as Hc. set (c := cut_at ch_bang (cut_at ch_hash line)) in *.
  assert (Hw : is_words c (words c)) by (apply is_words_iff; auto).
  destruct (words c) as [|w ws] eqn:E.
  - rewrite parse_code_blank; auto. split; [discriminate|].
    intros (k & v & _ & c' & ws & Hc' & Hw' & _).
    rewrite (code_part_unique _ _ _ Hc' Hc) in Hw'. apply is_words_iff in Hw'. congruence.
  - rewrite (parse_code_words _ _ _ _ Hw). split.
    + intros H. injection H as <-. exists w, (join [ch_space] ws). split; auto. exists c, ws. auto.
    + intros (k & v & -> & c' & ws' & Hc' & Hw' & ->).
      rewrite (code_part_unique _ _ _ Hc' Hc) in Hw'. apply is_words_iff in Hw'. rewrite E in Hw'.
      injection Hw' as -> ->. reflexivity.
Qed.

(** ** All lines *)
Lemma parse_line_index line i e : parse_line line i = Some e -> snd (snd e) = i.
Proof.
  unfold parse_line. destruct line; [discriminate|]. destruct str_eqb; [discriminate|].
  destruct find_first_not_of; [|discriminate]. destruct find_first_of; intros H; injection H as <-; auto.
Qed.
Lemma parse_loop_in ls e : forall i, In e (parse_loop ls i) <->
  exists n line, nth_error ls n = Some line /\ parse_line line (i + n) = Some e.
Proof.
  induction ls as [|l ls IH]; intros i; simpl.
  - split; [tauto|]. intros ([|n] & line & H & _); discriminate.
  - assert (Hr : In e (parse_loop ls (S i)) <-> exists n line, nth_error (l :: ls) (S n) = Some line /\ parse_line line (i + S n) = Some e).
    { rewrite IH. split; intros (n & line & H1 & H2); exists n, line; (split; [exact H1|]).
      - replace (i + S n) with (S i + n) by lia. exact H2.
      - replace (S i + n) with (i + S n) by lia. exact H2. }
    assert (H0 : (exists n line, nth_error (l :: ls) n = Some line /\ parse_line line (i + n) = Some e) <->
                 parse_line l i = Some e \/ exists n line, nth_error (l :: ls) (S n) = Some line /\ parse_line line (i + S n) = Some e).
    { split.
      - intros ([|n] & line & H1 & H2); [left; simpl in H1; injection H1 as ->; rewrite Nat.add_0_r in H2; auto|].
        right. exists n, line; auto.
      - intros [H | (n & line & H)]; [exists 0, l; simpl; rewrite Nat.add_0_r; auto | exists (S n), line; auto]. }
    rewrite H0, <- Hr. destruct (parse_line l i) as [e'|] eqn:E; simpl.
    + split; intros [H|H]; auto; left; congruence.
    + split; auto. intros [H|H]; [discriminate|auto].
Qed.
Lemma parse_loop_sorted ls : forall i,
  Forall (fun e => i <= snd (snd e)) (parse_loop ls i) /\
  StronglySorted (fun e f => snd (snd e) < snd (snd f)) (parse_loop ls i).
Proof.
  induction ls as [|l ls IH]; intros i; simpl; [split; constructor|].
  destruct (IH (S i)) as [IH1 IH2].
  assert (H : Forall (fun e => i <= snd (snd e)) (parse_loop ls (S i)))
    by (eapply Forall_impl; [|exact IH1]; simpl; intros; lia).
  destruct (parse_line l i) as [e|] eqn:E; auto.
  apply parse_line_index in E. split; constructor; auto; [lia|].
  eapply Forall_impl; [|exact IH1]. simpl; intros; lia.
Qed.

Lemma parse_contents lines : Forall regular_line lines ->
  (forall k v i, In (k, (v, i)) (parse_loop lines 0) <->
     exists line, nth_error lines i = Some line /\ line_entry line k v) /\
  StronglySorted (fun e f => snd (snd e) < snd (snd f)) (parse_loop lines 0).
Proof.
  intros Hreg. split; [|apply parse_loop_sorted].
  intros k v i. rewrite parse_loop_in. simpl. split.
  - intros (n & line & Hn & Hp). exists line.
    assert (Hl : regular_line line) by (rewrite Forall_forall in Hreg; apply Hreg; eapply nth_error_In; eauto).
    apply (parse_line_spec line n) in Hp; auto. destruct Hp as (k' & v' & He & Hent). injection He as -> -> ->. auto.
  - intros (line & Hn & Hent). exists i, line. split; auto.
    assert (Hl : regular_line line) by (rewrite Forall_forall in Hreg; apply Hreg; eapply nth_error_In; eauto).
    apply parse_line_spec; eauto.
Qed.

(** ** Lookup *)
Lemma c_find_some k c v : c_find k c = Some v ->
  exists a b, c = a ++ (k, v) :: b /\ ~ In k (map fst a).
Proof.
  unfold c_find. induction c as [|[k' v'] c IH]; simpl; [discriminate|].
  destruct (str_eqb k k') eqn:E; intros H.
  - injection H as ->. apply str_eqb_true in E. subst. exists [], c. auto.
  - apply IH in H. destruct H as (a & b & -> & Hn). exists ((k', v') :: a), b. split; auto.
    apply str_eqb_false in E. simpl. intros [H|H]; auto.
Qed.
Lemma c_has_iff k c : c_has k c = true <-> exists v, In (k, v) c.
Proof.
  unfold c_has. destruct (c_find k c) as [v|] eqn:E.
  - split; auto. intros _. exists v. apply (mget_in _ str_eqb_true) in E. auto.
  - split; [discriminate|]. intros [v Hv]. apply (mget_none _ str_eqb_true) in E. exfalso. apply E.
    change k with (fst (k, v)). apply in_map; auto.
Qed.
Lemma c_has_false k c : c_has k c = false <-> forall v, ~ In (k, v) c.
Proof.
  rewrite <- not_true_iff_false, c_has_iff. split.
  - intros H v Hv. apply H. eauto.
  - intros H [v Hv]. eapply H; eauto.
Qed.


Lemma known_self : forallb (fun p => mem (fst p) (snd p)) knownKeywords = true.
Proof. vm_compute. reflexivity. Qed.
Lemma spellings_self kw g : spellings kw g -> In kw g.
Proof.
  intros H. apply (mget_in _ str_eqb_true) in H. pose proof known_self as K.
  rewrite forallb_forall in K. specialize (K _ H). simpl in K. unfold mem in K.
  apply existsb_exists in K. destruct K as (x & Hx & E). apply str_eqb_true in E. subst; auto.
Qed.

Lemma keywordExists_spec s kw g : spellings kw g ->
  keywordExists s kw false = Some true <-> exists a v, In a g /\ In (a, v) (s_contents s).
Proof.
  intros Hg. pose proof (spellings_self _ _ Hg) as Hself. unfold keywordExists. unfold spellings in Hg. rewrite Hg.
  cbn [orb]. destruct (hasUniqueKeyword g) eqn:U.
  - unfold hasUniqueKeyword in U. apply Nat.eqb_eq in U. destruct g as [|a [|b g]]; try discriminate.
    destruct Hself as [-> | []]. split.
    + intros H. injection H as H. apply c_has_iff in H. destruct H as [v Hv]. exists kw, v. simpl; auto.
    + intros (a & v & [<- | []] & Hv). f_equal. apply c_has_iff. eauto.
  - split.
    + intros H. injection H as H. apply existsb_exists in H. destruct H as (a & Ha & H).
      apply c_has_iff in H. destruct H as [v Hv]. eauto.
    + intros (a & v & Ha & Hv). f_equal. apply existsb_exists. exists a. split; auto. apply c_has_iff; eauto.
Qed.
Lemma keywordExists_total s kw g b : spellings kw g -> exists r, keywordExists s kw b = Some r.
Proof. intros Hg. unfold keywordExists. unfold spellings in Hg. rewrite Hg. destruct (b || hasUniqueKeyword g); eauto. Qed.

(** keywordCheck returns a spelling that occurs in the file, the requested one
    if that occurs. *)
Lemma keywordCheck_spec s kw g : spellings kw g ->
  match keywordCheck s kw with
  | Some a => In a g /\ (exists v, In (a, v) (s_contents s)) /\
              ((exists v, In (kw, v) (s_contents s)) -> a = kw) /\
              (a <> kw -> exists g1 g2, g = g1 ++ a :: g2 /\ forall b v, In b g1 -> ~ In (b, v) (s_contents s))
  | None => forall a v, In a g -> ~ In (a, v) (s_contents s)
  end.
Proof.
  intros Hg. pose proof (keywordExists_spec s kw g Hg) as He. pose proof (spellings_self _ _ Hg) as Hself.
  destruct (keywordExists_total s kw g false Hg) as [r Hr]. unfold keywordCheck. rewrite Hr in *.
  unfold spellings in Hg. rewrite Hg. destruct r.
  - unfold keywordExists. rewrite Hg. cbn [orb]. destruct (c_has kw (s_contents s)) eqn:Hk.
    + apply c_has_iff in Hk. split; auto. split; auto. split; auto. congruence.
    + destruct (find (fun a => c_has a (s_contents s)) g) as [a|] eqn:F.
      * pose proof (find_some _ _ F) as [Ha Hha]. apply c_has_iff in Hha. split; auto. split; auto. split.
        { intros [v Hv]. rewrite c_has_false in Hk. exfalso. eapply Hk; eauto. }
        intros _. clear -F. induction g as [|x g IH]; simpl in F; [discriminate|].
        destruct (c_has x (s_contents s)) eqn:E.
        -- injection F as ->. exists [], g. split; auto.
        -- destruct (IH F) as (g1 & g2 & -> & H). exists (x :: g1), g2. split; auto.
           intros b v [<- | Hb]; auto. rewrite c_has_false in E. auto.
      * exfalso. destruct (proj1 He eq_refl) as (a & v & Ha & Hv).
        pose proof (find_none _ _ F a Ha) as Hn. simpl in Hn. rewrite c_has_false in Hn. eapply Hn; eauto.
  - intros a v Ha Hv. assert (Some false = Some true) by (apply He; eauto). discriminate.
Qed.

Lemma getValue_deref s kw a : keywordCheck s kw = Some a -> exists v, c_find a (s_contents s) = Some v.
Proof.
  intros H. assert (Hg : exists g, spellings kw g).
  { unfold spellings. unfold keywordCheck, keywordExists in H. destruct (mget str_eqb kw knownKeywords); eauto. discriminate. }
  destruct Hg as [g Hg]. pose proof (keywordCheck_spec s kw g Hg) as K. rewrite H in K.
  destruct K as (_ & Hv & _). apply c_has_iff in Hv. unfold c_has in Hv. destruct c_find; eauto. discriminate.
Qed.

(** Spelling by spelling: first entry in file order. *)
Lemma getValue_spec s kw : forall v, getValue s kw = Some v <->
  exists a i, keywordCheck s kw = Some a /\
    exists c1 c2, s_contents s = c1 ++ (a, (v, i)) :: c2 /\ ~ In a (map fst c1).
Proof.
  intros v. unfold getValue. destruct (keywordCheck s kw) as [a|] eqn:E.
  - destruct (getValue_deref _ _ _ E) as [[v' i'] Hv]. rewrite Hv. simpl.
    destruct (c_find_some _ _ _ Hv) as (c1 & c2 & Hc & Hn). split.
    + intros H. injection H as ->. exists a, i'. split; auto. exists c1, c2; auto.
    + intros (a' & i & Ha & d1 & d2 & Hd & Hnd). injection Ha as <-. f_equal.
      assert (c_find a (s_contents s) = Some (v, i)); [|congruence].
      unfold c_find. rewrite Hd. clear -Hnd. induction d1 as [|[k w] d1 IH]; simpl.
      * rewrite str_eqb_refl. auto.
      * simpl in Hnd. rewrite (proj2 (str_eqb_false a k)) by intuition. apply IH. tauto.
  - split; [discriminate|]. intros (a & i & H & _). discriminate.
Qed.

Lemma getValues_spec s kw l : getValues s kw = Some l <->
  exists a, keywordCheck s kw = Some a /\ l = map snd (filter (fun e => str_eqb a (fst e)) (s_contents s)).
Proof.
  unfold getValues, c_range. destruct (keywordCheck s kw) as [a|].
  - split; [intros H; injection H as <-; eauto | intros (b & Hb & ->); injection Hb as <-; reflexivity].
  - split; [discriminate | intros (a & H & _); discriminate].
Qed.
Lemma keywordCheck_unknown s kw : mget str_eqb kw knownKeywords = None -> keywordCheck s kw = None.
Proof. intros H. unfold keywordCheck, keywordExists. rewrite H. reflexivity. Qed.

(** ** Sanity check *)
Lemma filter_length_zero {A} (f : A -> bool) l : List.length (filter f l) = 0 <-> forall x, In x l -> f x = false.
Proof.
  rewrite length_zero_iff_nil. split.
  - intros H x Hx. destruct (f x) eqn:E; auto. assert (In x (filter f l)) by (apply filter_In; auto). rewrite H in H0. destruct H0.
  - intros H. induction l; simpl; auto. rewrite H by (left; auto). apply IHl. intros; apply H; right; auto.
Qed.
Lemma filter_length_le {A} (f : A -> bool) l : List.length (filter f l) <= List.length l.
Proof. induction l; simpl; auto. destruct (f a); simpl; lia. Qed.
Lemma count_gt1 k c : 1 < c_count k c <->
  exists a b d v w, c = a ++ (k, v) :: b ++ (k, w) :: d.
Proof.
  unfold c_count, c_range. split.
  - induction c as [|[k' v] c IH]; simpl; [lia|].
    destruct (str_eqb k k') eqn:E; simpl; intros H.
    + apply str_eqb_true in E. subst k'.
      assert (Hh : 0 < List.length (filter (fun e => str_eqb k (fst e)) c)) by lia.
      destruct (filter (fun e => str_eqb k (fst e)) c) as [|[k2 w] t] eqn:F; [simpl in Hh; lia|].
      assert (In (k2, w) c /\ str_eqb k (fst (k2, w)) = true) as [Hin Hk].
      { apply (filter_In (fun e => str_eqb k (fst e))). rewrite F. left; auto. }
      simpl in Hk. apply str_eqb_true in Hk. subst k2. apply in_split in Hin. destruct Hin as (b & d & ->).
      exists [], b, d, v, w. reflexivity.
    + destruct (IH H) as (a & b & d & v' & w & ->). exists ((k', v) :: a), b, d, v', w. reflexivity.
  - intros (a & b & d & v & w & ->). rewrite filter_app, app_length. simpl. rewrite str_eqb_refl. simpl.
    rewrite filter_app, app_length. simpl. rewrite str_eqb_refl. simpl. lia.
Qed.

Lemma two_of_list (f : str -> bool) g : NoDup g ->
  (1 < List.length (filter f g) <-> exists a b, a <> b /\ In a g /\ In b g /\ f a = true /\ f b = true).
Proof.
  intros Hn. split.
  - intros H. destruct (filter f g) as [|a [|b t]] eqn:F; try (simpl in H; lia).
    assert (Hf : NoDup (filter f g)) by (apply NoDup_filter; auto). rewrite F in Hf.
    assert (In a (filter f g)) by (rewrite F; left; auto).
    assert (In b (filter f g)) by (rewrite F; right; left; auto).
    apply filter_In in H0. apply filter_In in H1. exists a, b. inversion Hf; subst.
    repeat split; try tauto. intros ->. apply H4. left; auto.
  - intros (a & b & Hab & Ha & Hb & Fa & Fb).
    assert (Hx : incl [a; b] (filter f g)) by (intros x [<- | [<- | []]]; apply filter_In; auto).
    apply NoDup_incl_length in Hx; [simpl in Hx; lia|].
    constructor; [simpl; intros [H|[]]; auto | constructor; [simpl; tauto | constructor]].
Qed.
Lemma known_groups_nodup : forallb (fun p => (fix go l := match l with [] => true | x :: r => negb (mem x r) && go r end) (snd p)) knownKeywords = true.
Proof. vm_compute. reflexivity. Qed.
Lemma known_keys_nodup : (fix go l := match l with [] => true | x :: r => negb (mem x r) && go r end) (map fst knownKeywords) = true.
Proof. vm_compute. reflexivity. Qed.
Lemma nodupb_nodup (l : list str) :
  (fix go l := match l with [] => true | x :: r => negb (mem x r) && go r end) l = true -> NoDup l.
Proof.
  induction l as [|x l IH]; intros H; constructor.
  - apply andb_true_iff in H. destruct H as [H _]. intros Hi. unfold mem in H.
    assert (existsb (str_eqb x) l = true) by (apply existsb_exists; exists x; split; auto; apply str_eqb_refl).
    rewrite H0 in H. discriminate.
  - apply andb_true_iff in H. apply IH; tauto.
Qed.
Lemma spellings_in kw g : spellings kw g <-> In (kw, g) knownKeywords.
Proof.
  split.
  - apply (mget_in _ str_eqb_true).
  - apply (in_mget _ str_eqb_true). apply nodupb_nodup. exact known_keys_nodup.
Qed.
Lemma spellings_nodup kw g : spellings kw g -> NoDup g.
Proof.
  rewrite spellings_in. intros H. pose proof known_groups_nodup as K. rewrite forallb_forall in K.
  apply nodupb_nodup. apply (K _ H).
Qed.
Lemma mem_true s l : mem s l = true <-> In s l.
Proof.
  unfold mem. rewrite existsb_exists. split.
  - intros (x & Hx & E). apply str_eqb_true in E. subst; auto.
  - intros H. exists s. split; auto. apply str_eqb_refl.
Qed.


Lemma sanity_critical c : snd (sanityCheck c) = 0 <->
  (forall k g, spellings k g -> ~ In k repeat_exceptions -> ~ repeated k c) /\
  (forall k g a b, spellings k g -> In a g -> In b g -> a <> b ->
     ~ ((exists v, In (a, v) c) /\ (exists v, In (b, v) c))).
Proof.
  unfold sanityCheck. cbn [snd]. rewrite Nat.eq_add_0, !filter_length_zero. split.
  - intros [H1 H2]. split.
    + intros k g Hs Hx Hr. apply spellings_in in Hs. specialize (H1 _ Hs). cbn [fst] in H1.
      apply count_gt1 in Hr. rewrite (proj2 (Nat.ltb_lt _ _) Hr) in H1. cbn [andb] in H1.
      apply Hx. apply mem_true. destruct (mem k repeat_exceptions); auto.
    + intros k g a b Hs Ha Hb Hab [Hva Hvb]. pose proof (spellings_nodup _ _ Hs) as Hn.
      apply spellings_in in Hs. specialize (H2 _ Hs). cbn [snd] in H2.
      assert (L : 1 < List.length (filter (fun k => c_has k c) g)).
      { apply two_of_list; auto. exists a, b. repeat split; auto; apply c_has_iff; auto. }
      rewrite (proj2 (Nat.ltb_lt _ _) L), andb_true_r in H2. apply negb_false_iff in H2.
      unfold hasUniqueKeyword in H2. apply Nat.eqb_eq in H2.
      pose proof (filter_length_le (fun k => c_has k c) g). lia.
  - intros [H1 H2]. split.
    + intros [k g] Hin. cbn [fst]. apply spellings_in in Hin. destruct (Nat.ltb_spec 1 (c_count k c)); auto.
      cbn [andb]. apply negb_false_iff. apply mem_true. apply count_gt1 in H.
      destruct (in_dec (list_eq_dec ascii_dec) k repeat_exceptions); auto. exfalso. eapply H1; eauto.
    + intros [k g] Hin. cbn [snd]. apply spellings_in in Hin.
      destruct (Nat.ltb_spec 1 (List.length (filter (fun k => c_has k c) g))); [|apply andb_false_r].
      exfalso. apply two_of_list in H; [|eapply spellings_nodup; eauto].
      destruct H as (a & b & Hab & Ha & Hb & Fa & Fb). apply (H2 k g a b); auto.
      split; apply c_has_iff; auto.
Qed.
Lemma sanity_problems c : fst (sanityCheck c) = 0 <->
  snd (sanityCheck c) = 0 /\ forall k v, In (k, v) c -> exists g, spellings k g.
Proof.
  unfold sanityCheck. cbn [fst snd]. rewrite <- Nat.add_assoc, Nat.eq_add_0, filter_length_zero.
  split; intros [H1 H2]; split; auto.
  - intros k v Hin. specialize (H1 _ Hin). cbn [fst] in H1. unfold spellings.
    destruct (mget str_eqb k knownKeywords); eauto. discriminate.
  - intros [k v] Hin. cbn [fst]. destruct (H2 _ _ Hin) as [g Hg]. unfold spellings in Hg. rewrite Hg. auto.
Qed.
Lemma filter_length_app {A} (f : A -> bool) l1 l2 : List.length (filter f (l1 ++ l2)) = List.length (filter f l1) + List.length (filter f l2).
Proof. rewrite filter_app, app_length. auto. Qed.

(** ** Writing *)
Lemma split_lines ls : Forall (fun l => ~ In ch_lf l) ls ->
  split (List.concat (map (fun l => l ++ [ch_lf]) ls)) ch_lf = ls.
Proof.
  unfold split. induction 1 as [|l ls Hl _ IH]; [reflexivity|].
  cbn [map List.concat]. rewrite <- app_assoc. rewrite split_go_nodelim by auto. rewrite app_nil_r.
  cbn [app split_go]. rewrite (proj2 (ch_eqb_true ch_lf ch_lf) eq_refl). rewrite rev_involutive. f_equal. exact IH.
Qed.
Lemma read_no_lf text : Forall (fun l => ~ In ch_lf l) (readFile text).
Proof. rewrite Forall_forall. intros l. apply (split_parts_nodelim ch_lf text []). simpl; auto. Qed.

Definition prune_line (prune : list nat) (i : nat) (l : str) : str :=
  if existsb (Nat.eqb i) prune then lit "# " ++ l else l.
Fixpoint mapi {A B} (f : nat -> A -> B) (i : nat) (l : list A) : list B :=
  match l with [] => [] | x :: r => f i x :: mapi f (S i) r end.
Lemma pruned_lines_eq prune ls : forall i,
  pruned_lines ls i prune = List.concat (map (fun l => l ++ [ch_lf]) (mapi (prune_line prune) i ls)).
Proof.
  induction ls as [|l ls IH]; intros i; [reflexivity|].
  cbn [pruned_lines mapi map List.concat]. rewrite IH. unfold prune_line.
  destruct (existsb (Nat.eqb i) prune); rewrite <- ?app_assoc; reflexivity.
Qed.
Lemma mapi_length {A B} (f : nat -> A -> B) l : forall i, List.length (mapi f i l) = List.length l.
Proof. induction l; intros; simpl; auto. Qed.
Lemma mapi_nth {A B} (f : nat -> A -> B) l : forall i n, nth_error (mapi f i l) n = option_map (f (i + n)) (nth_error l n).
Proof.
  induction l as [|x l IH]; intros i [|n]; simpl; auto.
  - now rewrite Nat.add_0_r.
  - rewrite IH. do 2 f_equal. lia.
Qed.
Lemma prune_no_lf prune ls : forall i, Forall (fun l => ~ In ch_lf l) ls -> Forall (fun l => ~ In ch_lf l) (mapi (prune_line prune) i ls).
Proof.
  intros i H; revert i; induction H as [|l ls Hl H IH]; intros i; simpl; constructor; auto.
  unfold prune_line. destruct existsb; auto. simpl. intros [E|[E|E]]; try discriminate; auto.
Qed.
Lemma existsb_eqb_in i prune : existsb (Nat.eqb i) prune = true <-> In i prune.
Proof.
  rewrite existsb_exists. split.
  - intros (x & Hx & E). apply Nat.eqb_eq in E. subst; auto.
  - intros H. exists i. split; auto. apply Nat.eqb_refl.
Qed.
Lemma read_pruned ls prune : Forall (fun l => ~ In ch_lf l) ls ->
  readFile (pruned_lines ls 0 prune) = mapi (prune_line prune) 0 ls.
Proof. intros H. unfold readFile. rewrite pruned_lines_eq. apply split_lines, prune_no_lf; auto. Qed.

Lemma parse_hash_line l i : parse_line (lit "# " ++ l) i = None.
Proof. reflexivity. Qed.

Lemma parse_loop_pruned prune ls : forall i,
  parse_loop (mapi (prune_line prune) i ls) i = filter (fun e => negb (existsb (Nat.eqb (snd (snd e))) prune)) (parse_loop ls i).
Proof.
  induction ls as [|l ls IH]; intros i; [reflexivity|].
  cbn [mapi parse_loop]. rewrite IH. unfold prune_line at 1.
  destruct (existsb (Nat.eqb i) prune) eqn:E.
  - rewrite parse_hash_line. destruct (parse_line l i) as [e|] eqn:P; [|reflexivity].
    cbn [filter]. rewrite (parse_line_index _ _ _ P), E. reflexivity.
  - destruct (parse_line l i) as [e|] eqn:P; [|reflexivity].
    cbn [filter]. rewrite (parse_line_index _ _ _ P), E. reflexivity.
Qed.

Lemma write_lines_nil ls : forall i, write_lines ls i [] = List.concat (map (fun l => l ++ [ch_lf]) ls).
Proof. induction ls; intros; simpl; auto. rewrite IHls. reflexivity. Qed.

(** ** Summary lemmas *)
Lemma load_inv text s n : loadFile settings_init text = (s, n) ->
  s = mkSettings (readFile text) (parse_loop (readFile text) 0) /\ n = snd (sanityCheck (s_contents s)).
Proof.
  intros H. assert (Hs : s = mkSettings (readFile text) (parse_loop (readFile text) 0)).
  { transitivity (fst (loadFile settings_init text)); [rewrite H; reflexivity | reflexivity]. }
  split; auto. transitivity (snd (loadFile settings_init text)); [rewrite H; reflexivity|]. rewrite Hs. reflexivity.
Qed.
Lemma load_contents text s n : Forall regular_line (readFile text) ->
  loadFile settings_init text = (s, n) ->
  s_lines s = readFile text /\
  (forall k v i, In (k, (v, i)) (s_contents s) <->
     exists line, nth_error (readFile text) i = Some line /\ line_entry line k v) /\
  StronglySorted (fun e f => snd (snd e) < snd (snd f)) (s_contents s) /\
  n = snd (sanityCheck (s_contents s)).
Proof.
  intros H E. apply load_inv in E. destruct E as [Hs Hn]. split; [rewrite Hs; reflexivity|].
  destruct (parse_contents _ H). split; [|split; [|exact Hn]]; rewrite Hs; cbn [s_contents]; assumption.
Qed.

Lemma comment_irrelevant line1 line2 c i : code_part line1 c -> code_part line2 c ->
  ~ In ch_cr line1 -> ~ In ch_cr line2 -> parse_line line1 i = parse_line line2 i.
Proof.
  intros H1 H2 N1 N2. rewrite !parse_line_code.
  - rewrite (code_part_unique _ _ _ (cut_code line1) H1), (code_part_unique _ _ _ (cut_code line2) H2). reflexivity.
  - intros ->. apply N2. left; auto.
  - intros ->. apply N1. left; auto.
Qed.

Lemma value_lookup s kw g : spellings kw g ->
  match getValue s kw with
  | Some v => exists a i c1 c2, In a g /\ s_contents s = c1 ++ (a, (v, i)) :: c2 /\
       ~ In a (map fst c1) /\
       (occurs kw (s_contents s) -> a = kw) /\
       (a <> kw -> exists g1 g2, g = g1 ++ a :: g2 /\
                   forall b, In b g1 -> ~ occurs b (s_contents s))
  | None => forall a, In a g -> ~ occurs a (s_contents s)
  end.
Proof.
  intros Hg. destruct (getValue s kw) as [v|] eqn:E.
  - apply getValue_spec in E. destruct E as (a & i & Ha & c1 & c2 & Hc & Hn).
    pose proof (keywordCheck_spec s kw g Hg) as K. rewrite Ha in K. destruct K as (K1 & K2 & K3 & K4).
    exists a, i, c1, c2. repeat split; auto.
    intros Hne. destruct (K4 Hne) as (g1 & g2 & Hg12 & Hb). exists g1, g2. split; auto.
    intros b Hbi [w Hw]. exact (Hb b w Hbi Hw).
  - pose proof (keywordCheck_spec s kw g Hg) as K. unfold getValue in E.
    destruct (keywordCheck s kw) as [a|] eqn:Ek.
    + destruct (getValue_deref _ _ _ Ek) as [v Hv]. rewrite Hv in E. discriminate.
    + intros a Ha [v Hv]. eapply K; eauto.
Qed.

Lemma values_lookup s kw g l : spellings kw g -> getValues s kw = Some l ->
  exists a, In a g /\ occurs a (s_contents s) /\ (occurs kw (s_contents s) -> a = kw) /\
    l = map snd (filter (fun e => str_eqb a (fst e)) (s_contents s)) /\
    (forall v i, In (v, i) l <-> In (a, (v, i)) (s_contents s)).
Proof.
  intros Hg H. apply getValues_spec in H. destruct H as (a & Ha & ->).
  pose proof (keywordCheck_spec s kw g Hg) as K. rewrite Ha in K. destruct K as (K1 & K2 & K3 & K4).
  exists a. repeat split; auto.
  - intros H. apply in_map_iff in H. destruct H as ([k [v' i']] & He & Hf). cbn in He. injection He as -> ->.
    apply filter_In in Hf. destruct Hf as [Hf E]. cbn in E. apply str_eqb_true in E. subst; auto.
  - intros H. apply in_map_iff. exists (a, (v, i)). split; auto. apply filter_In. split; auto. apply str_eqb_refl.
Qed.
Lemma lookup_unknown s kw b : (forall g, ~ spellings kw g) ->
  keywordExists s kw b = None /\ getValue s kw = None /\ getValues s kw = None.
Proof.
  intros H. assert (E : mget str_eqb kw knownKeywords = None).
  { destruct (mget str_eqb kw knownKeywords) eqn:E; auto. exfalso. eapply H. unfold spellings. eauto. }
  unfold keywordExists, getValue, getValues. rewrite E, (keywordCheck_unknown s kw E). auto.
Qed.
Lemma exists_spec s kw g : spellings kw g ->
  (keywordExists s kw false = Some true <-> exists a, In a g /\ occurs a (s_contents s)) /\
  (keywordExists s kw true = Some true <-> occurs kw (s_contents s)) /\
  (forall b, exists r, keywordExists s kw b = Some r).
Proof.
  intros Hg. split; [|split].
  - rewrite (keywordExists_spec s kw g Hg). unfold occurs. firstorder.
  - unfold keywordExists. unfold spellings in Hg. rewrite Hg. cbn [orb]. unfold occurs. rewrite <- c_has_iff.
    split; [intros H; injection H; auto | intros ->; auto].
  - intros b. eapply keywordExists_total; eauto.
Qed.

Lemma tab_line : exists line, Forall blank line /\
  exists e, parse_line line 0 = Some e /\ fst e = [].
Proof.
  exists [ch_tab]. split; [constructor; [right; auto | constructor]|]. eexists. split; reflexivity.
Qed.
Lemma windows_line : exists line e, line = lit "elements H" ++ [ch_cr] /\
  parse_line line 0 = Some e /\ fst (snd e) <> lit "H".
Proof. eexists; eexists. split; [reflexivity|]. split; [reflexivity|]. discriminate. Qed.

Lemma reload_accumulates : exists text s, loadFile settings_init text = (s, 0) /\
  snd (loadFile s text) <> 0.
Proof.
  exists (lit "elements H"). eexists. split; [vm_compute; reflexivity|]. vm_compute. discriminate.
Qed.

Lemma prune_reload text prune s n s' n' :
  loadFile settings_init text = (s, n) ->
  loadFile settings_init (writePrunedSettingsFile s prune) = (s', n') ->
  List.length (s_lines s') = List.length (s_lines s) /\
  (forall i line, nth_error (s_lines s) i = Some line ->
     nth_error (s_lines s') i = Some (if existsb (Nat.eqb i) prune then lit "# " ++ line else line)) /\
  s_contents s' = filter (fun e => negb (existsb (Nat.eqb (snd (snd e))) prune)) (s_contents s).
Proof.
  intros H1 H2. apply load_inv in H1. destruct H1 as [-> _]. apply load_inv in H2. destruct H2 as [-> _].
  unfold writePrunedSettingsFile. cbn [s_lines s_contents].
  rewrite read_pruned by apply read_no_lf. split; [apply mapi_length|]. split.
  - intros i line Hi. rewrite mapi_nth, Hi. reflexivity.
  - apply parse_loop_pruned.
Qed.
Lemma write_reload text s n :
  loadFile settings_init text = (s, n) ->
  loadFile settings_init (writeSettingsFile s []) = (s, n).
Proof.
  intros H. pose proof (load_inv _ _ _ H) as [Hs _]. rewrite <- H. unfold loadFile.
  assert (E : readFile (writeSettingsFile s []) = readFile text).
  { unfold writeSettingsFile. rewrite Hs. cbn [s_lines]. rewrite write_lines_nil. unfold readFile at 1.
    apply split_lines, read_no_lf. }
  rewrite E. reflexivity.
Qed.
Lemma sanity_problems_occurs c : fst (sanityCheck c) = 0 <->
  snd (sanityCheck c) = 0 /\ (forall k, occurs k c -> exists g, spellings k g).
Proof.
  rewrite sanity_problems. unfold occurs. split; intros [H1 H2]; (split; [exact H1|]).
  - intros k [v Hv]. exact (H2 k v Hv).
  - intros k v Hv. apply H2. exists v. exact Hv.
Qed.
Lemma unknown_counted c bad :
  NoDup bad -> (forall e, In e bad -> In e c /\ forall g, ~ spellings (fst e) g) ->
  List.length bad <= fst (sanityCheck c).
Proof.
  intros Hn H. unfold sanityCheck. cbn [fst].
  assert (Hi : incl bad (filter (fun e => match mget str_eqb (fst e) knownKeywords with
                                               | None => true | Some _ => false end) c)).
  { intros e He. apply filter_In. destruct (H e He) as [Hc Hu]. split; auto.
    destruct (mget str_eqb (fst e) knownKeywords) eqn:E; auto. exfalso. eapply Hu. unfold spellings; eauto. }
  apply NoDup_incl_length in Hi; auto. lia.
Qed.
Lemma prune_text_go prune ls : forall i, pruned_lines ls i prune =
  List.concat (map (fun il => (if existsb (Nat.eqb (fst il)) prune then lit "# " else []) ++ snd il ++ [ch_lf])
                   (combine (seq i (List.length ls)) ls)).
Proof.
  induction ls as [|l ls IH]; intros i; [reflexivity|].
  cbn [pruned_lines List.length seq combine map List.concat fst snd]. rewrite IH, <- !app_assoc. reflexivity.
Qed.
Lemma prune_text s prune : writePrunedSettingsFile s prune =
  List.concat (map (fun il => (if existsb (Nat.eqb (fst il)) prune then lit "# " else []) ++ snd il ++ [ch_lf])
                   (combine (seq 0 (List.length (s_lines s))) (s_lines s))).
Proof. apply prune_text_go. Qed.
