From Coq Require Import Reals Lra ZArith Ascii String Bool Arith Lia List Permutation.
From Verif Require Import Base.AssocMap Model.Strings Model.Printf Model.SymLines Model.ElementMap Model.DataFiles Model.LammpsInterface Model.LammpsSetup
  Spec.StringSpec Spec.ElementSpec Spec.LammpsSetupSpec Spec.LammpsSpec Spec.DataFilesSpec Proofs.StringProofs Proofs.ElementMapProofs Proofs.SymLineProofs Proofs.PrintfProofs Proofs.DataFilesText
  Proofs.LammpsSetupProofs Spec.LammpsSetupSpec.
Import ListNotations.

Definition used (e : nat * str) : bool := negb (str_eqb (snd e) null_name).

Lemma join_snoc sep (l : list str) x : l <> [] -> join sep (l ++ [x]) = join sep l ++ sep ++ x.
Proof.
  induction l as [|w l IH]; [congruence|]. intros _. destruct l as [|w2 l]; [reflexivity|].
  change ((w :: w2 :: l) ++ [x]) with (w :: ((w2 :: l) ++ [x])). rewrite (join_cons_ne sep w (w2 :: l)), join_cons_ne by discriminate. rewrite IH by discriminate.
  now rewrite <- !app_assoc.
Qed.

Lemma names_text l : forall es m, fst (fold_left addName l (join [ch_comma] (map entry_text es), m)) =
  join [ch_comma] (map entry_text (es ++ filter used l)).
Proof.
  induction l as [|[i s] l IH]; intros es m; cbn [fold_left filter]; [now rewrite app_nil_r|].
  unfold addName at 2, used at 1. cbn [snd]. destruct (str_eqb s null_name) eqn:E; cbn [negb]; [apply IH|].
  replace (es ++ (i, s) :: filter used l) with ((es ++ [(i, s)]) ++ filter used l) by now rewrite <- app_assoc.
  rewrite <- IH with (m := firstn i m ++ Some 1%Z :: skipn (S i) m). do 3 f_equal.
  rewrite map_app. cbn [map].
  destruct es as [|e es]; [reflexivity|].
  pose proof (join_entries_ne (e :: es) ltac:(discriminate)) as N.
  rewrite join_snoc by discriminate. destruct (join [ch_comma] (map entry_text (e :: es))); [congruence|].
  unfold entry_text. cbn [fst snd]. now rewrite <- !app_assoc.
Qed.

Lemma set_nth {A} (l : list A) i x j : i < length l -> nth_error (firstn i l ++ x :: skipn (S i) l) j = if Nat.eqb i j then Some x else nth_error l j.
Proof.
  revert i j. induction l as [|y l IH]; intros i j L; [cbn in L; lia|].
  destruct i as [|i], j as [|j]; try reflexivity. cbn [length] in L. cbn [firstn skipn app nth_error Nat.eqb]. apply IH. lia.
Qed.
Lemma set_len {A} (l : list A) i x : i < length l -> length (firstn i l ++ x :: skipn (S i) l) = length l.
Proof. intros L. rewrite app_length. cbn [length]. rewrite firstn_length, skipn_length. lia. Qed.

Lemma names_map l : forall emap m, (forall e, In e l -> fst e < length m) -> NoDup (map fst l) -> forall j,
  nth_error (snd (fold_left addName l (emap, m))) j = if existsb (fun e => Nat.eqb (fst e) j && used e)%bool l then Some (Some 1%Z) else nth_error m j.
Proof.
  induction l as [|[i s] l IH]; intros emap m B N j; cbn [fold_left existsb]; auto.
  cbn [map fst] in N. inversion N as [|? ? Ni Nl]; subst. cbn [fst].
  unfold addName at 2, used at 1. cbn [snd]. destruct (str_eqb s null_name) eqn:E; cbn [negb].
  - rewrite andb_false_r. cbn [orb]. apply IH; auto. intros; apply B; now right.
  - assert (L : i < length m) by (apply (B (i, s)); now left).
    rewrite IH; auto; [|intros e H; rewrite set_len by auto; apply B; now right].
    rewrite andb_true_r, set_nth by auto. destruct (Nat.eqb i j); cbn [orb]; auto. now destruct (existsb _ l).
Qed.

Definition numbered (names : list str) : list (nat * str) := combine (seq 1 (length names)) names.
Lemma in_numbered names t s : In (t, s) (numbered names) <-> 1 <= t <= length names /\ nth_error names (t - 1) = Some s.
Proof.
  unfold numbered. assert (G : forall names k, In (t, s) (combine (seq k (length names)) names) <-> k <= t < k + length names /\ nth_error names (t - k) = Some s).
  { clear names. induction names as [|x names IH]; intros k; cbn [length seq combine In].
    - split; [tauto|]. intros [H _]. lia.
    - rewrite IH. split.
      + intros [H | [H1 H2]].
        * injection H as <- <-. rewrite Nat.sub_diag. split; [lia|auto].
        * split; [lia|]. replace (t - k) with (S (t - S k)) by lia. exact H2.
      + intros [H1 H2]. destruct (Nat.eq_dec t k) as [-> | D].
        * rewrite Nat.sub_diag in H2. cbn in H2. left. congruence.
        * right. split; [lia|]. replace (t - k) with (S (t - S k)) in H2 by lia. exact H2. }
  rewrite G. split; intros [H1 H2]; split; auto; lia.
Qed.
Lemma numbered_fst names : map fst (numbered names) = seq 1 (length names).
Proof.
  unfold numbered. generalize 1. induction names as [|x names IH]; intros k; auto. cbn [length seq combine map fst]. now rewrite IH.
Qed.
Lemma numbered_snd names : map snd (filter used (numbered names)) = used_names names.
Proof.
  unfold numbered, used_names. generalize 1. induction names as [|x names IH]; intros k; auto. cbn [length seq combine filter].
  specialize (IH (S k)). unfold used at 1, str_eqb. cbn [snd]. fold null_name. unfold str in *. destruct (list_eq_dec ascii_dec x null_name); cbn [negb map snd]; rewrite ?IH; auto.
Qed.
Lemma named_spec names t s : 1 <= t -> (named names t = Some s <-> In (t, s) (filter used (numbered names))).
Proof.
  intros T. rewrite filter_In, in_numbered. unfold named, used, str_eqb. cbn [snd]. fold null_name.
  destruct (nth_error names (t - 1)) as [x|] eqn:E.
  - assert (t - 1 < length names) by (apply nth_error_Some; congruence).
    split.
    + destruct (list_eq_dec ascii_dec x null_name); [discriminate|]. intros H'. injection H' as <-. split; [split; [lia|auto]|].
      destruct (list_eq_dec ascii_dec x null_name); [contradiction|auto].
    + intros [[_ H1] H2]. injection H1 as <-. destruct (list_eq_dec ascii_dec x null_name); [discriminate|auto].
  - split; [discriminate|]. intros [[_ H] _]. discriminate.
Qed.
Lemma existsb_named names t : 1 <= t -> existsb (fun e => Nat.eqb (fst e) t && used e)%bool (numbered names) = match named names t with Some _ => true | None => false end.
Proof.
  intros T. destruct (named names t) as [s|] eqn:E.
  - apply existsb_exists. apply named_spec in E; auto. apply filter_In in E. exists (t, s). cbn [fst]. rewrite Nat.eqb_refl. tauto.
  - destruct (existsb _ _) eqn:X; auto. apply existsb_exists in X. destruct X as ([t' s] & I & H). apply andb_true_iff in H. destruct H as [H1 H2].
    apply Nat.eqb_eq in H1. cbn in H1. subst t'. assert (named names t = Some s) by (apply named_spec; auto; apply filter_In; auto). congruence.
Qed.
Lemma assigned_named names t : 1 <= t -> assigned (filter used (numbered names)) t = named names t.
Proof.
  intros T. destruct (assigned (filter used (numbered names)) t) as [s|] eqn:E.
  - symmetry. apply named_spec; auto. now apply assigned_in.
  - destruct (named names t) as [s|] eqn:F; auto. exfalso. apply named_spec in F; auto.
    revert E F. generalize (filter used (numbered names)). unfold assigned. clear.
    intros l. induction l as [|e l IH] using rev_ind; [auto|]. rewrite fold_left_app, in_app_iff. cbn [fold_left].
    destruct (Nat.eqb_spec (fst e) t) as [D|D]; [discriminate|]. intros H [F | [-> | []]]; auto.
Qed.

(** ** Flags *)
Lemma in_flag_pairs n i j : In (i, j) (flag_pairs n) <-> 1 <= i <= j /\ j <= n.
Proof.
  unfold flag_pairs. rewrite in_flat_map. split.
  - intros (k & K & H). apply in_seq in K. apply in_map_iff in H. destruct H as (l & E & H). injection E as -> ->. apply in_seq in H. lia.
  - intros [H1 H2]. exists i. split; [apply in_seq; lia|]. apply in_map_iff. exists j. split; auto. apply in_seq. lia.
Qed.
Definition result_of (names : list str) : str * list (option Z) := fold_left addName (numbered names) ([], fresh_map (length names)).
Definition map_of (names : list str) : list (option Z) := snd (fold_left addName (numbered names) ([], fresh_map (length names))).
Lemma fresh_length n : length (fresh_map n) = S n.
Proof. unfold fresh_map. rewrite app_length, repeat_length. cbn. lia. Qed.
Lemma map_nth names t : 1 <= t <= length names ->
  nth_error (map_of names) t = match named names t with Some _ => Some (Some 1%Z) | None => if Nat.eqb t (length names) then Some None else Some (Some 0%Z) end.
Proof.
  intros T. unfold map_of. rewrite names_map.
  - rewrite existsb_named by lia. destruct (named names t); auto. unfold fresh_map. destruct (Nat.eqb_spec t (length names)) as [-> | D].
    + rewrite nth_error_app2; rewrite repeat_length; auto. now rewrite Nat.sub_diag.
    + rewrite nth_error_app1 by (rewrite repeat_length; lia). apply nth_error_repeat. lia.
  - intros e I. rewrite fresh_length. destruct e as [t' s]. apply in_numbered in I. cbn. lia.
  - rewrite numbered_fst. apply seq_NoDup.
Qed.
Definition names_type (names : list str) (t : nat) : bool := match named names t with Some _ => true | None => false end.
Lemma read_ok names t : 1 <= t <= length names -> named names (length names) <> None ->
  read_map (map_of names) t = Done (if names_type names t then 1 else 0)%Z.
Proof.
  intros T L. unfold read_map, names_type. rewrite map_nth by auto. destruct (named names t) eqn:E; auto.
  destruct (Nat.eqb_spec t (length names)); [subst; congruence|auto].
Qed.
Lemma flags_ok names l : named names (length names) <> None -> (forall i j, In (i, j) l -> 1 <= i <= j /\ j <= length names) -> forall acc,
  foldo (fun ij set => flagPair (map_of names) set ij) l acc = Done (acc ++ filter (fun ij => names_type names (fst ij) && names_type names (snd ij))%bool l).
Proof.
  intros L. induction l as [|[i j] l IH]; intros B acc; cbn [foldo filter]; [now rewrite app_nil_r|].
  destruct (B i j (or_introl eq_refl)) as [B1 B2]. unfold flagPair. cbn [fst snd].
  rewrite read_ok by (auto; lia). cbn [bindo]. destruct (names_type names i); cbn [Z.ltb Z.compare andb].
  - rewrite read_ok by (auto; lia). cbn [bindo]. rewrite IH by (intros; apply B; now right). destruct (names_type names j); cbn [Z.ltb Z.compare]; auto.
    now rewrite <- app_assoc.
  - cbn [bindo]. apply IH. intros; apply B; now right.
Qed.
Lemma last_named names : names <> [] -> (last names [] <> null_name <-> named names (length names) <> None).
Proof.
  intros N. unfold named. destruct (exists_last N) as (l & x & ->). rewrite last_last, app_length. cbn [length].
  replace (length l + 1 - 1) with (length l) by lia. rewrite nth_error_app2, Nat.sub_diag by lia. cbn [nth_error]. fold null_name.
  destruct (list_eq_dec ascii_dec x null_name); intuition congruence.
Qed.

Lemma coeff_ok names : names <> [] -> last names [] <> lit "NULL" ->
  coeff (length names) (lit "*" :: lit "*" :: names) =
  Done (join [ch_comma] (map entry_text (filter used (numbered names))),
        filter (fun ij => names_type names (fst ij) && names_type names (snd ij))%bool (flag_pairs (length names))).
Proof.
  intros N L. fold null_name in L. apply last_named in L; auto. unfold coeff. cbn [length]. rewrite Nat.eqb_refl. cbn [negb]. rewrite str_eqb_refl. cbn [negb orb].
  match goal with |- (let '(_, _) := ?X in _) = _ => change X with (result_of names) end.
  pose proof (names_text (numbered names) [] (fresh_map (length names))) as T. cbn [map join app] in T.
  pose proof (flags_ok names (flag_pairs (length names)) L) as F.
  change (fst (result_of names) = join [ch_comma] (map entry_text (filter used (numbered names)))) in T.
  assert (MP : map_of names = snd (result_of names)) by reflexivity. rewrite MP in F.
  destruct (result_of names) as [emap mp]. cbn [fst snd] in T, F.
  rewrite F by (intros i j; apply in_flag_pairs). cbn [bindo app]. rewrite T.
  destruct (Nat.eqb_spec (length (filter (fun ij => names_type names (fst ij) && names_type names (snd ij))%bool (flag_pairs (length names)))) 0) as [Z|Z]; auto.
  exfalso. assert (I : In (length names, length names) (filter (fun ij => names_type names (fst ij) && names_type names (snd ij))%bool (flag_pairs (length names)))).
  { apply filter_In. split.
    - apply in_flag_pairs. destruct names; [congruence|]. cbn [length]. lia.
    - cbn [fst snd]. unfold names_type. destruct (named names (length names)); auto. }
  apply length_zero_iff_nil in Z. rewrite Z in I. destruct I.
Qed.
Lemma coeff_last_null names : names <> [] -> last names [] = lit "NULL" -> coeff (length names) (lit "*" :: lit "*" :: names) = Undefined.
Proof.
  intros N L. fold null_name in L. assert (U : named names (length names) = None).
  { pose proof (last_named names N) as H. destruct (named names (length names)); auto. exfalso. apply H; auto. discriminate. }
  unfold coeff. cbn [length]. rewrite Nat.eqb_refl. cbn [negb]. rewrite str_eqb_refl. cbn [negb orb].
  match goal with |- (let '(_, _) := ?X in _) = _ => change X with (result_of names) end.
  assert (LN : 1 <= length names) by (destruct names; [congruence|cbn; lia]).
  pose proof (fun t => map_nth names t) as M.
  assert (MP : map_of names = snd (result_of names)) by reflexivity. rewrite MP in M.
  destruct (result_of names) as [emap mp]. cbn [snd] in M.
  assert (R : read_map mp (length names) = Undefined).
  { unfold read_map. rewrite M by (unfold str in *; lia). rewrite U, Nat.eqb_refl. reflexivity. }
  assert (R' : forall t, 1 <= t <= length names -> exists z, read_map mp t = Done z \/ read_map mp t = Undefined).
  { intros t T. unfold read_map. destruct (nth_error mp t) as [[z|]|]; [exists z | exists 0%Z | exists 0%Z]; auto. }
  assert (G : forall l acc, In (length names, length names) l -> (forall i j, In (i, j) l -> 1 <= i <= j /\ j <= length names) ->
    foldo (fun ij set => flagPair mp set ij) l acc = Undefined).
  { induction l as [|[i j] l IH]; intros acc H B; [destruct H|]. cbn [foldo]. destruct (B i j (or_introl eq_refl)) as [B1 B2].
    unfold flagPair. cbn [fst snd]. destruct (R' i) as (z & [Z | Z]); [lia| |rewrite Z; reflexivity].
    assert (H' : In (length names, length names) l).
    { destruct H as [H|H]; auto. injection H as -> ->. congruence. }
    rewrite Z. cbn [bindo]. assert (Q : forall a, foldo (fun ij set => flagPair mp set ij) l a = Undefined) by (intros; apply IH; auto; intros; apply B; now right).
    destruct (Z.ltb 0 z).
    - destruct (R' j) as (y & [Y | Y]); [lia| |rewrite Y; reflexivity]. rewrite Y. cbn [bindo]. apply Q.
    - cbn [bindo]. apply Q. }
  rewrite G; auto; [apply in_flag_pairs; unfold str in *; lia|intros i j; apply in_flag_pairs].
Qed.

(** ** The theorem *)
Lemma text_of_entries es : (forall e, In e es -> name_ok (snd e)) -> mapping_text es (join [ch_comma] (map entry_text es)).
Proof.
  intros K. unfold mapping_text. fold nonblank. change [","%char] with [ch_comma].
  assert (A : forall c, In c (join [ch_comma] (map entry_text es)) -> nonblank c = true).
  { induction es as [|e es IH]; [intros c []|]. assert (E : forall c, In c (entry_text e) -> nonblank c = true).
    { intros c. unfold entry_text. rewrite !in_app_iff. intros [I | [[<- | []] | I]]; [now apply (print_d_clean (fst e)) in I | reflexivity |].
      destruct (K e (or_introl eq_refl)) as (_ & _ & _ & K1 & K2). apply nonblank_spec. intros [-> | ->]; auto. }
    intros c. cbn [map]. destruct es as [|e2 es]; [cbn [map join]; apply E|]. rewrite join_cons_ne by (cbn; discriminate). rewrite !in_app_iff.
    intros [I | [[<- | []] | I]]; auto. apply IH; auto. intros; apply K; now right. }
  revert A. generalize (join [ch_comma] (map entry_text es)). intros l. induction l as [|c l IH]; intros A; auto. cbn [filter]. rewrite A by now left. f_equal. apply IH. intros; apply A; now right.
Qed.

Theorem pair_coeff_theorem m ws names cf ce rc :
  elements_of m ws -> good_units m cf -> names <> [] -> (Z.of_nat (length names) < 2 ^ 31)%Z -> (forall s, In s names -> name_ok s) ->
  last names [] <> lit "NULL" ->
  exists emap set, coeff (length names) (lit "*" :: lit "*" :: names) = Done (emap, set) /\
    (forall i j, In (i, j) set <-> 1 <= i <= j /\ j <= length names /\ named names i <> None /\ named names j <> None) /\
    match init_style m emap cf ce rc (length names) with
    | Done itf => covers m cf rc /\ length (used_names names) <= length ws /\ (forall s, In s (used_names names) -> In s ws) /\
                  same_potential m cf ce itf /\ forall t, 1 <= t <= length names -> treats m itf t (named names t)
    | Thrown => ~ covers m cf rc \/ length ws < length (used_names names) \/ exists s, In s (used_names names) /\ ~ In s ws
    | Undefined => False
    end.
Proof.
  intros E G N F K L. eexists _, _. split; [apply coeff_ok; auto|]. split.
  { intros i j. rewrite filter_In, in_flag_pairs. cbn [fst snd]. unfold names_type. rewrite andb_true_iff.
    destruct (named names i), (named names j); intuition congruence. }
  assert (LN : 1 <= length names) by (destruct names; [now exfalso; apply N|cbn; lia]).
  rewrite init_style_same. set (es := filter used (numbered names)).
  assert (I : forall t s, In (t, s) es -> 1 <= t <= length names /\ nth_error names (t - 1) = Some s) by (intros t s H; apply filter_In in H; now apply in_numbered).
  assert (U : map snd es = used_names names) by apply numbered_snd.
  assert (K' : forall t s, In (t, s) es -> name_ok s /\ (Z.of_nat t < 2 ^ 31)%Z).
  { intros t s H. destruct (I t s H) as [A B]. split; [|lia]. apply K. eapply nth_error_In. eassumption. }
  assert (NE : es <> []).
  { pose proof (proj1 (last_named names N) L) as X. destruct (named names (length names)) as [s|] eqn:Y; [|contradiction].
    apply named_spec in Y; [|exact LN]. fold es in Y. intros Z. rewrite Z in Y. destruct Y. }
  pose proof (mapping_theorem m ws (join [ch_comma] (map entry_text es)) es cf ce rc (length names) E G NE K') as M.
  specialize (M ltac:(apply text_of_entries; intros [t s] H; apply (K' t s H))).
  assert (LE : length es = length (used_names names)) by (rewrite <- U; now rewrite map_length). rewrite LE in M.
  destruct (initialize m _ cf ce rc (length names)) as [itf| |]; auto.
  - destruct M as (M1 & M2 & M3 & M4 & M5). split; auto. split; auto. split; [|split; auto].
    + intros s H. rewrite <- U in H. apply in_map_iff in H. destruct H as ([t s'] & <- & H). now apply (M3 t s').
    + intros t T. specialize (M5 t T). unfold es in M5. now rewrite assigned_named in M5 by lia.
  - destruct M as [M | [M | (t & s & H & [B | B])]]; auto.
    + destruct (I t s H). lia.
    + right. right. exists s. split; auto. rewrite <- U. apply in_map_iff. exists (t, s). auto.
Qed.
