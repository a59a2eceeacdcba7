(** Settings read back from a pruned file (C73). *)
From Coq Require Import String Ascii Arith Bool Lia Sorted.
From Coq Require Import List.
From Verif Require Import Base.AssocMap Model.Strings Model.Settings Spec.StringSpec Spec.SettingsSpec
  Proofs.StringProofs Proofs.SettingsProofs.
Import ListNotations.

Definition sym_short : str := lit "symfunction_short".
Definition sym_names : list str := [lit "symfunction_short"; lit "symfunction"].
Definition kept (prune : list nat) (l : nat) : bool := negb (existsb (Nat.eqb l) prune).
Lemma kept_iff prune l : kept prune l = true <-> ~ In l prune.
Proof. unfold kept. rewrite negb_true_iff, <- not_true_iff_false. now rewrite existsb_eqb_in. Qed.
Lemma sym_spellings : spellings sym_short sym_names.
Proof. vm_compute. reflexivity. Qed.
Lemma other_spellings kw g a : spellings kw g -> ~ In kw sym_names -> In a g -> ~ In a sym_names.
Proof.
  intros Hg Hk Ha Hs. apply spellings_in in Hg.
  assert (C : forallb (fun p => mem (fst p) sym_names || negb (existsb (fun a => mem a sym_names) (snd p))) knownKeywords = true)
    by (vm_compute; reflexivity).
  rewrite forallb_forall in C. specialize (C _ Hg). cbn [fst snd] in C. apply orb_true_iff in C. destruct C as [C|C].
  - apply mem_true in C. auto.
  - apply negb_true_iff in C. assert (existsb (fun a => mem a sym_names) g = true); [|congruence].
    apply existsb_exists. exists a. split; auto. now apply mem_true.
Qed.

Lemma sorted_unique_line (c : contents) : StronglySorted (fun e f => snd (snd e) < snd (snd f)) c ->
  forall e f, In e c -> In f c -> snd (snd e) = snd (snd f) -> e = f.
Proof.
  induction 1 as [|x c S IH F]; [easy|]. rewrite Forall_forall in F.
  intros e f [<-|He] [<-|Hf] E; auto; [specialize (F f Hf)|specialize (F e He)]; lia.
Qed.
Lemma load_sorted text s n : loadFile settings_init text = (s, n) ->
  StronglySorted (fun e f => snd (snd e) < snd (snd f)) (s_contents s).
Proof. intros H. apply load_inv in H. destruct H as (-> & _). apply parse_loop_sorted. Qed.
Lemma sorted_values (P : str * (str * nat) -> bool) c : StronglySorted (fun e f => snd (snd e) < snd (snd f)) c ->
  NoDup (map snd (map snd (filter P c))).
Proof.
  induction 1 as [|x c S IH F]; cbn; [constructor|]. destruct (P x); auto. cbn. constructor; auto.
  intros H. rewrite map_map in H. apply in_map_iff in H. destruct H as (y & E & Hy). apply filter_In in Hy.
  rewrite Forall_forall in F. specialize (F y (proj1 Hy)). lia.
Qed.
Lemma values_lines text s n values : loadFile settings_init text = (s, n) -> getValues s sym_short = Some values ->
  NoDup (map snd values).
Proof.
  intros H E. apply getValues_spec in E. destruct E as (a & _ & ->). apply sorted_values. eapply load_sorted; eauto.
Qed.

Lemma filter_filter {A} (P Q : A -> bool) l : filter P (filter Q l) = filter Q (filter P l).
Proof. induction l as [|x l IH]; cbn; auto. destruct (P x) eqn:A1, (Q x) eqn:A2; cbn; rewrite ?A1, ?A2, IH; auto. Qed.
Lemma map_filter {A B} (f : A -> B) (P : B -> bool) l : filter P (map f l) = map f (filter (fun x => P (f x)) l).
Proof. induction l as [|x l IH]; cbn; auto. destruct (P (f x)); cbn; now rewrite IH. Qed.
Lemma filter_ext_in' {A} (P Q : A -> bool) l : (forall x, In x l -> P x = Q x) -> filter P l = filter Q l.
Proof. induction l as [|x l IH]; intros H; cbn; auto. rewrite (H x), IH; auto; [intros; apply H; now right|now left]. Qed.
Lemma filter_true {A} (P : A -> bool) l : (forall x, In x l -> P x = true) -> filter P l = l.
Proof. induction l as [|x l IH]; intros H; cbn; auto. rewrite (H x), IH; auto; [intros; apply H; now right|now left]. Qed.

Lemma c_find_range k c : c_find k c = match c_range k c with [] => None | e :: _ => Some (snd e) end.
Proof.
  unfold c_find, c_range. induction c as [|[k' v] c IH]; cbn; auto. destruct (str_eqb k k'); auto.
Qed.
Lemma repeated_filter P k c : repeated k (filter P c) -> repeated k c.
Proof.
  intros H. apply count_gt1. apply count_gt1 in H. unfold c_count, c_range in *. rewrite filter_filter in H.
  pose proof (filter_length_le P (filter (fun e => str_eqb k (fst e)) c)). lia.
Qed.

Theorem pruned_settings text s values prune :
  loadFile settings_init text = (s, 0) -> getValues s sym_short = Some values ->
  (forall l, In l prune -> In l (map snd values)) -> (exists v, In v values /\ ~ In (snd v) prune) ->
  exists s', loadFile settings_init (writePrunedSettingsFile s prune) = (s', 0) /\
    getValues s' sym_short = Some (filter (fun v => kept prune (snd v)) values) /\
    forall kw, ~ In kw sym_names ->
      getValue s' kw = getValue s kw /\ getValues s' kw = getValues s kw /\
      forall b, keywordExists s' kw b = keywordExists s kw b.
Proof.
  intros H E Hp (v & Hv & Hk). destruct (loadFile settings_init (writePrunedSettingsFile s prune)) as (s' & n') eqn:H'.
  destruct (prune_reload _ _ _ _ _ _ H H') as (_ & _ & C). pose proof (load_sorted _ _ _ H) as So.
  destruct (load_inv _ _ _ H) as (_ & N). destruct (load_inv _ _ _ H') as (_ & N').
  pose proof (proj1 (sanity_critical _) (eq_sym N)) as (N1 & N2).
  assert (Z : n' = 0).
  { rewrite N'. apply sanity_critical. rewrite C. split.
    - intros k g Hg Hr R. exact (N1 k g Hg Hr (repeated_filter _ _ _ R)).
    - intros k g a b Hg Ha Hb Hab ((x & Hx) & (y & Hy)). apply filter_In in Hx, Hy. apply (N2 k g a b Hg Ha Hb Hab). split; eexists; [apply Hx|apply Hy]. }
  subst n'. exists s'. split; auto.
  pose proof (values_lookup s sym_short sym_names values sym_spellings E) as (a & Ha & Oa & _ & Va & Ia).
  split.
  - pose proof (keywordCheck_spec s' sym_short sym_names sym_spellings) as K.
    assert (Oa' : In (a, v) (s_contents s')).
    { rewrite C. apply filter_In. destruct v as [v i]. split; [now apply Ia|]. apply (proj2 (kept_iff prune i)). exact Hk. }
    destruct (keywordCheck s' sym_short) as [a'|] eqn:Kc; [|exfalso; exact (K a v Ha Oa')].
    destruct K as (Ka & (x & Kx) & _).
    assert (a' = a). { destruct (str_eqb a' a) eqn:Q; [now apply str_eqb_true|]. apply str_eqb_false in Q. exfalso.
      apply (N2 _ _ a' a sym_spellings Ka Ha Q). split; [|destruct v as [v i]; exists (v, i); now apply Ia]. exists x. rewrite C in Kx. apply filter_In in Kx. exact (proj1 Kx). }
    subst a'. apply getValues_spec. exists a. split; auto. rewrite C, filter_filter, Va, map_filter. f_equal.
  - intros kw Hkw.
    assert (Rg : forall b, ~ In b sym_names -> c_range b (s_contents s') = c_range b (s_contents s)).
    { intros b Hb. rewrite C. unfold c_range. rewrite filter_filter. apply filter_true. intros (k & (w & i)) Hx. apply filter_In in Hx.
      destruct Hx as (Hx & Ek). apply str_eqb_true in Ek. cbn in Ek. subst k. cbn [snd]. apply (proj2 (kept_iff prune i)). intros Hi.
      apply Hp in Hi. apply in_map_iff in Hi. destruct Hi as ((w' & i') & <- & Hi). cbn [snd] in Hx, Hi. apply Ia in Hi.
      pose proof (sorted_unique_line _ So _ _ Hx Hi eq_refl) as Q. injection Q as -> _. contradiction. }
    assert (Fd : forall b, ~ In b sym_names -> c_find b (s_contents s') = c_find b (s_contents s)).
    { intros b Hb. now rewrite !c_find_range, (Rg b Hb). }
    assert (Hh : forall b, ~ In b sym_names -> c_has b (s_contents s') = c_has b (s_contents s)).
    { intros b Hb. unfold c_has. now rewrite (Fd b Hb). }
    destruct (mget str_eqb kw knownKeywords) as [g|] eqn:G.
    + pose proof (fun a => other_spellings kw g a G Hkw) as Og.
      assert (Ex : forall b, keywordExists s' kw b = keywordExists s kw b).
      { intros b. unfold keywordExists. rewrite G. destruct (b || hasUniqueKeyword g); [now rewrite Hh|]. f_equal.
        clear - Og Hh. induction g as [|x g IH]; cbn; auto. rewrite Hh, IH; auto; [intros; apply Og; now right|apply Og; now left]. }
      assert (Ck : keywordCheck s' kw = keywordCheck s kw).
      { unfold keywordCheck. rewrite !Ex, G. destruct (keywordExists s kw false) as [[|]|]; auto.
        destruct (keywordExists s kw true) as [[|]|]; auto.
        replace (find (fun a => c_has a (s_contents s')) g) with (find (fun a => c_has a (s_contents s)) g); auto.
        clear - Og Hh. induction g as [|x g IH]; cbn; auto. rewrite Hh by (apply Og; now left). rewrite IH; auto. intros; apply Og; now right. }
      unfold getValue, getValues. rewrite Ck. destruct (keywordCheck s kw) as [k|] eqn:Kk; auto.
      assert (Ok : ~ In k sym_names). { pose proof (keywordCheck_spec s kw g G) as K. rewrite Kk in K. apply Og, K. }
      rewrite (Fd k Ok), (Rg k Ok). auto.
    + unfold getValue, getValues. rewrite !(keywordCheck_unknown _ kw G). repeat split. intros b. unfold keywordExists. now rewrite G.
Qed.
