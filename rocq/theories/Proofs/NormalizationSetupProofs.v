(** Normalization constants from training to later runs (C92). *)
From Coq Require Import Reals Lra ZArith List Ascii String Bool Arith Lia.
From Verif Require Import Base.AssocMap Model.Strings Model.Settings Model.Printf Model.SymLines Model.Normalization Model.NormalizationSetup
  Spec.StringSpec Spec.SettingsSpec Spec.PrintfSpec Spec.NormalizationSpec Spec.NormalizationSetupSpec
  Proofs.StringProofs Proofs.SettingsProofs Proofs.PrintfProofs Proofs.NormalizationFile Proofs.StructureFileText.
From Coq Require Import List.
Import ListNotations.
Local Open Scope R_scope.

(** ** Keywords with one spelling *)
Lemma unique_exists s k b : spellings k [k] -> keywordExists s k b = Some (c_has k (s_contents s)).
Proof. unfold spellings. intros H. unfold keywordExists. rewrite H. cbn [hasUniqueKeyword List.length Nat.eqb]. now rewrite orb_true_r. Qed.
Lemma unique_value s k : spellings k [k] -> getValue s k = option_map fst (c_find k (s_contents s)).
Proof.
  intros H. unfold getValue, keywordCheck. rewrite !(unique_exists s k _ H). unfold spellings in H. rewrite H.
  unfold c_has. destruct (c_find k (s_contents s)) as [v|] eqn:E; [|reflexivity]. now rewrite E.
Qed.
Lemma four k : In k [kME; kCE; kCL; kCQ] -> spellings k [k].
Proof. intros [<-|[<-|[<-|[<-|[]]]]]; reflexivity. Qed.
Lemma c_find_first k s v i : c_find k (s_contents s) = Some (v, i) -> first_value k s v.
Proof. intros H. apply c_find_some in H as (a & b & E & N). exists a, i, b. auto. Qed.
Lemma c_has_occurs k c : c_has k c = true <-> occurs k c.
Proof. apply c_has_iff. Qed.
Lemma c_has_none k c : c_has k c = false <-> ~ occurs k c.
Proof. rewrite <- c_has_occurs. destruct (c_has k c); split; congruence. Qed.

Theorem setup_spec s m : match setupNormalization s m with
  | Done n =>
      (nm_use n = true /\ (exists v, first_value kME s v /\ nm_mean n = atof v) /\ (exists v, first_value kCE s v /\ nm_cE n = atof v) /\
       (exists v, first_value kCL s v /\ nm_cL n = atof v) /\ charge_factor s (nm_cQ m) (nm_cQ n)) \/
      ((forall k, In k [kME; kCE; kCL; kCQ] -> ~ occurs k (s_contents s)) /\ nm_use n = false /\
       nm_mean n = nm_mean m /\ nm_cE n = nm_cE m /\ nm_cL n = nm_cL m /\ nm_cQ n = nm_cQ m)
  | Thrown => (exists k, In k [kME; kCE; kCL; kCQ] /\ occurs k (s_contents s)) /\ (exists k, In k [kME; kCE; kCL] /\ ~ occurs k (s_contents s))
  | Undefined => False
  end.
Proof.
  unfold setupNormalization. fold kME kCE kCL kCQ.
  rewrite !unique_exists by (apply four; cbn; tauto). rewrite !unique_value by (apply four; cbn; tauto). cbn [throwing bindo].
  assert (V : forall k, c_has k (s_contents s) = true -> exists v, option_map fst (c_find k (s_contents s)) = Some v /\ first_value k s v).
  { intros k. unfold c_has. destruct (c_find k (s_contents s)) as [[v i]|] eqn:E; [|discriminate]. intros _. exists v. split; auto. eapply c_find_first; eauto. }
  destruct (c_has kME (s_contents s)) eqn:E1; destruct (c_has kCE (s_contents s)) eqn:E2; destruct (c_has kCL (s_contents s)) eqn:E3; cbn [andb negb];
    try (destruct (c_has kCQ (s_contents s)) eqn:E4);
    try (destruct (V _ E1) as (v1 & -> & F1)); try (destruct (V _ E2) as (v2 & -> & F2)); try (destruct (V _ E3) as (v3 & -> & F3));
    try (destruct (V _ E4) as (v4 & W4 & F4); rewrite ?W4); cbn [throwing bindo andb negb nm_use nm_mean nm_cE nm_cL nm_cQ];
    try (left; split; [reflexivity|]; split; [eauto|]; split; [eauto|]; split; [eauto|];
         first [left; solve [eauto] | right; split; [now apply c_has_none|reflexivity]]);
    try (split;
      [first [exists kME; split; [cbn; tauto|now apply c_has_occurs] | exists kCE; split; [cbn; tauto|now apply c_has_occurs]
             | exists kCL; split; [cbn; tauto|now apply c_has_occurs] | exists kCQ; split; [cbn; tauto|now apply c_has_occurs]]
      |first [exists kME; split; [cbn; tauto|now apply c_has_none] | exists kCE; split; [cbn; tauto|now apply c_has_none]
             | exists kCL; split; [cbn; tauto|now apply c_has_none]]]).
  right. split; [|auto]. intros k [<-|[<-|[<-|[<-|[]]]]]; now apply c_has_none.
Qed.

(** ** Entries of lines *)
Definition ent (l : str) : option (str * str) := option_map (fun e => (fst e, fst (snd e))) (parse_line l 0).
Lemma ent_index l i : parse_line l i = option_map (fun p => (fst p, (snd p, i))) (ent l).
Proof.
  unfold ent, parse_line. destruct l as [|c l]; [reflexivity|]. destruct (str_eqb _ _); [reflexivity|].
  destruct (find_first_not_of _ _ _); [|reflexivity]. destruct (find_first_of _ _ _); reflexivity.
Qed.
Definition kv (c : contents) : list (str * str) := map (fun e => (fst e, fst (snd e))) c.
Definition opt {A} (x : option A) : list A := match x with Some a => [a] | None => [] end.
Lemma kv_loop ls : forall i, kv (parse_loop ls i) = flat_map (fun l => opt (ent l)) ls.
Proof.
  induction ls as [|l ls IH]; intros i; [reflexivity|]. cbn [parse_loop flat_map]. rewrite ent_index.
  destruct (ent l) as [[k v]|]; cbn [option_map opt app]; [cbn [kv map fst snd]; f_equal|]; apply IH.
Qed.
Lemma keys_kv c : map fst (kv c) = map fst c.
Proof. unfold kv. rewrite map_map. reflexivity. Qed.
Lemma find_kv k c : option_map fst (c_find k c) = mget str_eqb k (kv c).
Proof. unfold c_find. induction c as [|[k' [v i]] c IH]; [reflexivity|]. cbn. destruct (str_eqb k k'); [reflexivity|exact IH]. Qed.
Lemma has_keys k c : c_has k c = true <-> In k (map fst c).
Proof. rewrite c_has_iff, in_map_iff. split; [intros [v H]; now exists (k, v)|intros ([k' v] & <- & H); eauto]. Qed.
Fixpoint tally (k : str) (l : list str) : nat := match l with [] => 0 | x :: l => (if str_eqb k x then 1 else 0) + tally k l end.
Lemma count_keys k c : c_count k c = tally k (map fst c).
Proof. unfold c_count, c_range. induction c as [|[k' v] c IH]; [reflexivity|]. cbn. destruct (str_eqb k k'); cbn; now rewrite IH. Qed.
Lemma tally_none k l : ~ In k l -> tally k l = 0%nat.
Proof. induction l as [|x l IH]; intros H; [reflexivity|]. cbn. destruct (str_eqb k x) eqn:E; [apply str_eqb_true in E; subst; exfalso; apply H; now left|]. apply IH. intros X. apply H. now right. Qed.
Lemma sanity_iff c : snd (sanityCheck c) = 0%nat <->
  (forall k g, spellings k g -> ~ In k repeat_exceptions -> (tally k (map fst c) <= 1)%nat) /\
  (forall k g a b, spellings k g -> In a g -> In b g -> a <> b -> ~ (In a (map fst c) /\ In b (map fst c))).
Proof.
  rewrite sanity_critical. split; intros [A B]; split.
  - intros k g Hs Hr. rewrite <- count_keys. destruct (Nat.leb_spec (c_count k c) 1) as [L|L]; [exact L|]. exfalso. apply (A k g Hs Hr). now apply count_gt1.
  - intros k g a b Hs Ha Hb Hab [Xa Xb]. apply (B k g a b Hs Ha Hb Hab). rewrite <- !c_has_iff, !has_keys. auto.
  - intros k g Hs Hr X. apply count_gt1 in X. rewrite count_keys in X. specialize (A k g Hs Hr). lia.
  - intros k g a b Hs Ha Hb Hab. rewrite <- !c_has_iff, !has_keys. eapply B; eauto.
Qed.

(** ** Lines written *)
Lemma cut_app d a b : ~ In d a -> cut_at d (a ++ b) = a ++ cut_at d b.
Proof.
  induction a as [|c a IH]; intros H; [reflexivity|]. cbn [app cut_at]. destruct (ch_eqb c d) eqn:E.
  - apply ch_eqb_true in E. subst. exfalso. apply H. now left.
  - f_equal. apply IH. intros X. apply H. now right.
Qed.
Definition no_comment (s : str) : Prop := ~ In ch_hash s /\ ~ In ch_bang s.
Lemma nc_app a b : no_comment a -> no_comment b -> no_comment (a ++ b).
Proof. intros [A1 A2] [B1 B2]. split; rewrite in_app_iff; tauto. Qed.
Ltac nc_lit := split; cbn; intros H; repeat (destruct H as [H|H]; [discriminate|]); exact H.
Lemma nc_decimals k z : no_comment (decimals k z).
Proof.
  split; intros H; destruct (decimals_digits k z _ H) as (d & Hd & E); assert (N := nat_of_digit d Hd); rewrite <- E in N; cbn in N; lia.
Qed.
Lemma nc_print v : no_comment (print_E 16 v).
Proof.
  unfold print_E. destruct (sci 16 v) as [m e]. apply nc_app; [destruct (Rlt_dec v 0); nc_lit|]. apply nc_app; [apply nc_decimals|]. apply nc_app; [nc_lit|].
  apply nc_app; [apply nc_decimals|]. apply nc_app; [nc_lit|]. unfold exponent_text. apply nc_app; [destruct (Z.ltb e 0); nc_lit|apply nc_decimals].
Qed.
Lemma nc_fmt v : no_comment (fmt24 v).
Proof.
  unfold fmt24. destruct (pad_left (print_E 16 v) 24) as (b & A & -> & _). apply nc_app; [|apply nc_print].
  rewrite Forall_forall in A. split; intros H; apply A in H; discriminate.
Qed.
Lemma key_props k : In k [kME; kCE; kCL] -> no_comment k /\ plain k /\ k <> [] /\ spellings k [k].
Proof.
  intros [<-|[<-|[<-|[]]]]; (split; [nc_lit|split; [plain_lit|split; [discriminate|reflexivity]]]).
Qed.
Lemma ent_line k v : In k [kME; kCE; kCL] -> ent (norm_line k v) = Some (k, print_E 16 v) /\ ~ In ch_lf (norm_line k v).
Proof.
  intros Hk. destruct (key_props k Hk) as (N & P & E & _). destruct (number_field v) as (F & _).
  assert (L : norm_line k v = (k ++ (lit " " ++ fmt24 v)) ++ lit " " ++ lit "# nnp-train") by (unfold norm_line; now rewrite <- !app_assoc).
  assert (NC : no_comment (k ++ lit " " ++ fmt24 v)) by (repeat apply nc_app; auto using nc_fmt; nc_lit).
  split.
  - unfold ent. rewrite parse_line_code.
    + assert (C : cut_at ch_bang (cut_at ch_hash (norm_line k v)) = (k ++ lit " " ++ fmt24 v) ++ lit " ").
      { rewrite L, cut_app by apply NC. cbn [lit list_ascii_of_string app cut_at]. change (ch_eqb " "%char ch_hash) with false. cbn [ch_eqb].
        change (cut_at ch_hash (lit " " ++ lit "# nnp-train")) with (lit " "). rewrite cut_app by apply NC. reflexivity. }
      rewrite C. rewrite (parse_code_words _ 0 k [print_E 16 v]); [reflexivity|].
      apply is_words_iff. unfold words. rewrite words_go_blank_tail by (constructor; [left; reflexivity|constructor]). fold (words (k ++ lit " " ++ fmt24 v)).
      apply is_words_iff. destruct F as (b & B1 & B2 & -> & B3 & B4).
      assert (W := fields_words k [(b, print_E 16 v)]). cbn [map List.concat fst snd] in W. rewrite app_nil_r in W. apply W.
      * split; auto. eapply Forall_impl; [|exact P]. intros c Hc. apply Hc.
      * intros p [<-|[]]. cbn [fst snd]. split; [eapply Forall_impl; [|exact B2]; intros c ->; now left|]. split; auto. split; auto.
        eapply Forall_impl; [|exact B3]. intros c Hc. apply Hc.
    + intros X. rewrite L in X. apply (f_equal (@List.length _)) in X. rewrite !app_length in X. cbn in X. lia.
  - destruct F as (b & B1 & B2 & EF & B3 & B4). rewrite L, EF, !in_app_iff. unfold plain in P, B3. rewrite Forall_forall in P, B2, B3.
    intros [[X|[X|X]]|[X|X]].
    + apply P in X. tauto.
    + apply B2 in X. discriminate.
    + apply B3 in X. tauto.
    + destruct X as [X|[]]. discriminate.
    + revert X. clear. cbn. intros H; repeat (destruct H as [H|H]; [discriminate|]); exact H.
Qed.

(** ** The new file *)
Lemma write_replaced n1 n2 n3 ls : forall i rest, (forall j r, In (j, r) rest -> (j < i)%nat) ->
  write_lines ls i (rest ++ replace_map n1 n2 n3 ls i) =
  List.concat (map (fun l => l ++ [ch_lf]) (map (fun l => match replacement n1 n2 n3 l with Some r => r | None => l end) ls)).
Proof.
  assert (G : forall i (rest m : list (nat * str)), (forall j r, In (j, r) rest -> (j < i)%nat) -> mget Nat.eqb i (rest ++ m) = mget Nat.eqb i m).
  { intros i rest m. induction rest as [|[j r] rest IH]; intros H; [reflexivity|]. cbn [app mget fst]. 
    assert (j < i)%nat by (eapply H; left; reflexivity). destruct (Nat.eqb_spec i j); [lia|]. apply IH. intros. eapply H. right; eauto. }
  assert (T : forall ls i j r, In (j, r) (replace_map n1 n2 n3 ls i) -> (i <= j)%nat).
  { induction ls0 as [|l ls0 IH]; intros i j r H; [destruct H|]. cbn in H. destruct (replacement n1 n2 n3 l); [destruct H as [H|H]; [injection H as <- <-; lia|]|]; apply IH in H; lia. }
  assert (M : forall i (m : list (nat * str)), (forall j r, In (j, r) m -> (i < j)%nat) -> mget Nat.eqb i m = None).
  { intros i m. induction m as [|[j r] m IH]; intros H; [reflexivity|]. cbn. assert (i < j)%nat by (eapply H; left; reflexivity). destruct (Nat.eqb_spec i j); [lia|]. apply IH. intros. eapply H. right; eauto. }
  induction ls as [|l ls IH]; intros i rest H; [reflexivity|]. cbn [write_lines replace_map map List.concat]. rewrite G by exact H.
  destruct (replacement n1 n2 n3 l) as [r|].
  - cbn [mget]. rewrite Nat.eqb_refl. f_equal.
    change (rest ++ (i, r ++ [ch_lf]) :: replace_map n1 n2 n3 ls (S i)) with (rest ++ [(i, r ++ [ch_lf])] ++ replace_map n1 n2 n3 ls (S i)).
    rewrite app_assoc. apply IH. intros j q Hj. apply in_app_iff in Hj as [Hj|[Hj|[]]]; [apply H in Hj; lia|injection Hj as <- _; lia].
  - rewrite M by (intros j q Hj; apply T in Hj; lia). f_equal. apply IH. intros j q Hj. apply H in Hj. lia.
Qed.
Lemma replace_empty n1 n2 n3 ls : forall i, (replace_map n1 n2 n3 ls i = [] <-> forallb (fun l => match replacement n1 n2 n3 l with Some _ => false | None => true end) ls = true).
Proof.
  induction ls as [|l ls IH]; intros i; [cbn; tauto|]. cbn [replace_map forallb]. destruct (replacement n1 n2 n3 l); cbn [andb]; [split; discriminate|apply IH].
Qed.
Lemma newInput_lines m e l s : newInput m e l s =
  List.concat (map (fun x => x ++ [ch_lf]) (writeNormalized (norm_line kME m) (norm_line kCE e) (norm_line kCL l) (s_lines s))).
Proof.
  unfold newInput, writeNormalized. fold kME kCE kCL. set (n1 := norm_line kME m). set (n2 := norm_line kCE e). set (n3 := norm_line kCL l).
  unfold writeSettingsFile. assert (W := write_replaced n1 n2 n3 (s_lines s) 0 [] ltac:(intros ? ? [])). cbn [app] in W. rewrite W.
  assert (X := replace_empty n1 n2 n3 (s_lines s) 0).
  destruct (replace_map n1 n2 n3 (s_lines s) 0) as [|p q] eqn:E; destruct (forallb _ (s_lines s)) eqn:F.
  - rewrite map_app, concat_app. reflexivity.
  - destruct X as [X _]. discriminate (X eq_refl).
  - destruct X as [_ X]. discriminate (X eq_refl).
  - reflexivity.
Qed.
