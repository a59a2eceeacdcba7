From Coq Require Import Reals Lra ZArith Ascii String Bool Arith Lia List Permutation.
From Verif Require Import Base.AssocMap Model.Strings Model.Printf Model.SymLines Model.ElementMap Model.DataFiles Model.LammpsInterface Model.LammpsSetup
  Spec.StringSpec Spec.ElementSpec Spec.LammpsSetupSpec Spec.LammpsSpec Spec.DataFilesSpec Proofs.StringProofs Proofs.ElementMapProofs Proofs.SymLineProofs Proofs.PrintfProofs Proofs.DataFilesText.
Import ListNotations.

(** ** Removing blanks *)
Definition nonblank (c : ascii) : bool := negb (Ascii.eqb c " " || Ascii.eqb c (ascii_of_nat 9)).
Lemma nonblank_spec c : nonblank c = true <-> ~ blank c.
Proof.
  unfold nonblank, blank, ch_space, ch_tab.
  destruct (Ascii.eqb_spec c " "), (Ascii.eqb_spec c (ascii_of_nat 9)); cbn; intuition congruence.
Qed.
Lemma filter_blank b : Forall blank b -> filter nonblank b = [].
Proof.
  induction 1 as [|c b H F IH]; auto. cbn [filter]. destruct (nonblank c) eqn:E; auto.
  apply nonblank_spec in E. tauto.
Qed.
Lemma filter_nonblank w : Forall (fun c => ~ blank c) w -> filter nonblank w = w.
Proof.
  induction 1 as [|c b H F IH]; auto. cbn [filter]. apply nonblank_spec in H. rewrite H. now f_equal.
Qed.
Lemma filter_words s ws : is_words s ws -> filter nonblank s = List.concat ws.
Proof.
  induction 1 as [s F|b w rest ws Fb N Fw Sb W IH].
  - now apply filter_blank.
  - rewrite !filter_app, filter_blank, filter_nonblank, IH; auto.
Qed.
Lemma join_nil ws : join [] ws = List.concat ws.
Proof.
  induction ws as [|w ws IH]; auto. destruct ws as [|w2 ws].
  - cbn. now rewrite app_nil_r.
  - rewrite join_cons_ne by discriminate. cbn [List.concat]. now rewrite IH.
Qed.
Lemma reduce_opt_empty s : reduce_opt s ws_default [] = Some (filter nonblank s).
Proof.
  unfold reduce_opt. destruct (decompose s) as [Hb | (b & w & rest & t & Hb & Hw & Hwn & Hr & Ht & He & ->)].
  - rewrite trim_blank, (filter_blank s) by auto. reflexivity.
  - rewrite trim_spec by auto. cbv zeta.
    assert (A := reduce_loop_spec [] (words rest) (S (List.length (w ++ rest))) [] w rest).
    rewrite join_nil in A. cbn [List.concat app List.length] in A. rewrite A; auto.
    + f_equal.
      rewrite !filter_app, (filter_blank b), (filter_blank t), (filter_nonblank w), app_nil_r by auto. cbn [app].
      f_equal. symmetry. apply filter_words. now apply is_words_iff.
    + rewrite app_length. lia.
    + apply is_words_iff; auto.
Qed.
Lemma filter_trim s : filter nonblank (trim s ws_default) = filter nonblank s.
Proof.
  destruct (decompose s) as [Hb | (b & w & rest & t & Hb & Hw & Hwn & Hr & Ht & He & ->)].
  - rewrite trim_blank, (filter_blank s) by auto. reflexivity.
  - rewrite trim_spec by auto. rewrite !filter_app, (filter_blank b), (filter_blank t), app_nil_r by auto. reflexivity.
Qed.
Lemma without_blanks_filter s : without_blanks s = filter nonblank s.
Proof. unfold without_blanks. rewrite reduce_opt_empty. apply filter_trim. Qed.

(** ** Entries *)
Lemma print_d_digit n c : In c (print_d n) -> exists d, (0 <= d < 10)%Z /\ c = digit d.
Proof. unfold print_d. apply decimals_digits. Qed.
Lemma print_d_clean n c : In c (print_d n) -> c <> ","%char /\ c <> ":"%char /\ nonblank c = true.
Proof.
  intros H. destruct (print_d_digit n c H) as (d & D & ->).
  assert (d = 0 \/ d = 1 \/ d = 2 \/ d = 3 \/ d = 4 \/ d = 5 \/ d = 6 \/ d = 7 \/ d = 8 \/ d = 9)%Z as X by lia.
  repeat destruct X as [-> | X]; try subst; repeat split; try (vm_compute; discriminate).
Qed.
Lemma stoi_print n : fits n -> stoi (print_d n) = Done (Z.of_nat n).
Proof.
  intros F. destruct (digits_of n) as (k & -> & L & Hk & _). unfold stoi.
  destruct k as [|k]; [lia|].
  assert (exists d s, decimals (S k) (Z.of_nat n) = digit d :: s /\ (0 <= d < 10)%Z) as (d & s & E & D).
  { destruct (decimals (S k) (Z.of_nat n)) as [|c s] eqn:E.
    - apply (f_equal (@List.length _)) in E. rewrite decimals_length in E. discriminate.
    - destruct (decimals_digits (S k) (Z.of_nat n) c) as (d & D & ->); [rewrite E; now left|]. eauto. }
  destruct (digit_not_sign d s D) as [A B]. rewrite E, B, A, <- E.
  rewrite <- (app_nil_r (decimals (S k) (Z.of_nat n))), scan_decimals by (auto; lia).
  rewrite Z.mod_small by lia. cbn [Z.mul Z.add Nat.eqb]. replace (in_int (Z.of_nat n)) with true; auto.
  symmetry. unfold in_int. unfold fits in F. destruct (Z.leb_spec (- 2 ^ 31) (Z.of_nat n)); [|lia]. destruct (Z.ltb_spec (Z.of_nat n) (2 ^ 31)); [auto|lia].
Qed.
Lemma entry_split e : name_ok (snd e) -> split (entry_text e) ch_colon = [print_d (fst e); snd e].
Proof.
  intros (N & _ & C & _). unfold entry_text. change (print_d (fst e) ++ [":"%char] ++ snd e) with (join [ch_colon] [print_d (fst e); snd e]).
  apply split_join; [discriminate| |exact N].
  intros w [<- | [<- | []]]; [|exact C]. intros I. apply print_d_clean in I. destruct I as (_ & I & _). now apply I.
Qed.
Lemma entry_nocomma e : name_ok (snd e) -> ~ In ch_comma (entry_text e) /\ entry_text e <> [].
Proof.
  intros (N & C & _). unfold entry_text. split.
  - rewrite !in_app_iff. intros [I | [[I | []] | I]].
    + apply print_d_clean in I. destruct I as (I & _). now apply I.
    + discriminate.
    + now apply C.
  - intros H. apply app_eq_nil in H. destruct H as [_ H]. discriminate.
Qed.
Lemma entries_split es : es <> [] -> (forall e, In e es -> name_ok (snd e)) ->
  split (join [ch_comma] (map entry_text es)) ch_comma = map entry_text es.
Proof.
  intros N K. apply split_join.
  - destruct es; [congruence|discriminate].
  - intros w I. apply in_map_iff in I. destruct I as (e & <- & I). apply entry_nocomma. auto.
  - assert (L : In (last (map entry_text es) []) (map entry_text es)) by (apply last_in; destruct es; [congruence|discriminate]).
    apply in_map_iff in L. destruct L as (e & L & I). unfold str in *. rewrite <- L. apply entry_nocomma. auto.
Qed.

Definition index_of (em : element_map) (s : str) : nat := match em_index em s with Some i => i | None => 0 end.
Definition entry_fine (em : element_map) (n : nat) (e : nat * str) : bool :=
  (Nat.leb (fst e) n && match em_index em (snd e) with Some _ => true | None => false end)%bool.
Definition put (em : element_map) (m : type_map) (e : nat * str) : type_map := map_type (Z.of_nat (fst e)) (index_of em (snd e)) m.
Lemma addEntry_text em n e m : name_ok (snd e) -> fits (fst e) ->
  addEntry em n (entry_text e) m = if entry_fine em n e then Done (put em m e) else Thrown.
Proof.
  intros K F. unfold addEntry. rewrite entry_split by auto. cbn [List.length Nat.eqb negb]. unfold at_. cbn [nth_error throwing bindo].
  rewrite stoi_print by auto. cbn [bindo]. unfold entry_fine, put, index_of, element_at, at_. cbn [nth_error throwing bindo].
  destruct (Z.ltb_spec (Z.of_nat n) (Z.of_nat (fst e))), (Nat.leb_spec (fst e) n); try lia; cbn [andb]; auto.
  destruct (em_index em (snd e)); reflexivity.
Qed.
Lemma fold_entries em n es : forall m, (forall e, In e es -> name_ok (snd e) /\ fits (fst e)) ->
  foldo (addEntry em n) (map entry_text es) m = if forallb (entry_fine em n) es then Done (fold_left (put em) es m) else Thrown.
Proof.
  induction es as [|e es IH]; intros m K; auto. cbn [map foldo forallb fold_left].
  destruct (K e (or_introl eq_refl)) as [K1 K2]. rewrite addEntry_text by auto.
  destruct (entry_fine em n e); cbn [bindo andb]; auto. apply IH. intros; apply K; now right.
Qed.
Lemma fold_put em es t : forall m, mget Z.eqb (Z.of_nat t) (fst (fold_left (put em) es m)) =
  match fold_left (fun a e => if Nat.eqb (fst e) t then Some (snd e) else a) es None with
  | Some s => Some (index_of em s) | None => mget Z.eqb (Z.of_nat t) (fst m) end.
Proof.
  induction es as [|e es IH] using rev_ind; intros m; auto.
  rewrite !fold_left_app. cbn [fold_left]. unfold put at 1. unfold map_type. cbn [fst].
  destruct (Nat.eqb_spec (fst e) t) as [<- | D].
  - apply mget_mset_same. exact Z.eqb_eq.
  - rewrite mget_mset_other; [apply IH | exact Z.eqb_eq | lia].
Qed.

(** ** The table *)
Definition valid_types (em : element_map) (tm : type_map) : Prop :=
  forall t e, mget Z.eqb t (fst tm) = Some e -> exists s z, em_symbol em e = Some s /\ atomicNumber s = Some z.
Definition ignores (tm : type_map) (t : Z) : bool := match mget Z.eqb t (fst tm) with Some _ => false | None => true end.
Lemma table_ok em tm : valid_types em tm -> forall l acc, NoDup l ->
  exists ig, foldo (tableLine em tm) l acc = Done ig /\
    forall t, mget Z.eqb (Z.of_nat t) ig = if in_dec Nat.eq_dec t l then Some (ignores tm (Z.of_nat t)) else mget Z.eqb (Z.of_nat t) acc.
Proof.
  intros V. induction l as [|i l IH]; intros acc N; [exists acc; split; [reflexivity | intros t; now destruct (in_dec Nat.eq_dec t [])]|]. inversion N as [|? ? Ni Nl]; subst. cbn [foldo].
  assert (T : tableLine em tm i acc = Done (mset Z.eqb (Z.of_nat i) (ignores tm (Z.of_nat i)) acc)).
  { unfold tableLine, ignores. destruct (mget Z.eqb (Z.of_nat i) (fst tm)) as [e|] eqn:E; auto.
    destruct (V _ _ E) as (s & z & -> & A). cbn [throwing bindo]. now rewrite A. }
  rewrite T. cbn [bindo]. destruct (IH (mset Z.eqb (Z.of_nat i) (ignores tm (Z.of_nat i)) acc) Nl) as (ig & E & G).
  exists ig. split; auto. intros t. rewrite G. clear G E IH.
  destruct (in_dec Nat.eq_dec t l), (in_dec Nat.eq_dec t (i :: l)) as [J|J]; auto; cbn in J.
  - tauto.
  - destruct J as [<- | J]; [|tauto]. apply mget_mset_same. exact Z.eqb_eq.
  - apply mget_mset_other; [exact Z.eqb_eq|]. intros Q. apply J. left. lia.
Qed.

(** ** Elements *)
Lemma elements_spec m ws : elements_of m ws ->
  em_size (md_em m) = List.length ws /\
  (forall s i, em_index (md_em m) s = Some i <-> em_symbol (md_em m) i = Some s) /\
  (forall s, In s ws <-> exists i, em_index (md_em m) s = Some i) /\
  (forall i, i < List.length ws <-> exists s, em_symbol (md_em m) i = Some s) /\
  (forall i j s t a b, em_symbol (md_em m) i = Some s -> em_symbol (md_em m) j = Some t -> element_Z s a -> element_Z t b -> (i < j <-> a < b)) /\
  (forall i s, em_symbol (md_em m) i = Some s -> exists z, atomicNumber s = Some z).
Proof.
  intros (line & W & N & K & R). destruct (register_bijection line ws W N K) as (em & R' & A & B & C & D & E).
  assert (md_em m = em) as -> by congruence.
  split; [exact A|]. split; [exact B|]. split; [exact C|]. split; [exact D|]. split; [exact E|].
  intros i s H. assert (In s ws) as I by (apply C; exists i; now apply B).
  destruct (K s I) as (z & Z). exists z. now apply atomicNumber_iff.
Qed.
Lemma elements_known m ws s : elements_of m ws -> In s ws -> exists i, em_index (md_em m) s = Some i /\ em_symbol (md_em m) i = Some s.
Proof.
  intros E I. destruct (elements_spec m ws E) as (_ & B & C & _). apply C in I. destruct I as (i & I). exists i. split; auto. now apply B.
Qed.

(** ** Cutoff radii *)
Lemma cutoff_covers m cf rc : good_units m cf -> (~ (rc < getMaxCutoffRadius m cf)%R <-> covers m cf rc).
Proof.
  intros [C L]. unfold getMaxCutoffRadius, covers. destruct (md_normalize m) eqn:E.
  - specialize (L eq_refl). rewrite <- (Rmult_comm (md_convLength m)).
    assert (H : (md_cutoff m / md_convLength m / cf * (md_convLength m * cf) = md_cutoff m)%R) by (field; lra).
    assert (P : (0 < md_convLength m * cf)%R) by now apply Rmult_lt_0_compat.
    split; intros G.
    + apply Rnot_lt_le in G. rewrite <- H at 1. apply Rmult_le_compat_r; lra.
    + apply Rle_not_lt. rewrite <- H in G at 1. apply Rmult_le_reg_r in G; auto.
  - rewrite Rmult_1_r. assert (H : (md_cutoff m / cf * cf = md_cutoff m)%R) by (field; lra).
    split; intros G.
    + apply Rnot_lt_le in G. rewrite <- H at 1. apply Rmult_le_compat_r; lra.
    + apply Rle_not_lt. rewrite <- H in G at 1. apply Rmult_le_reg_r in G; auto.
Qed.

(** ** initialize *)
Definition mapping (m : mode) (emap : str) (n : nat) : outcome type_map :=
  match emap with [] => defaultMapping (md_em m) n | _ => readMapping (md_em m) n emap end.
Definition finish (m : mode) (cf ce : R) (ignore : list (Z * bool)) (tm : type_map) : interface :=
  mkInterface (fun t => match mget Z.eqb (Z.of_nat t) ignore with Some b => b | None => false end)
    (fun t => match mget Z.eqb (Z.of_nat t) (fst tm) with Some e => e | None => 0%nat end)
    (em_size (md_em m)) (md_offsets m) (md_normalize m) cf ce (md_convLength m) (md_convEnergy m) (md_mean m).
Definition uses (tm : type_map) (n : nat) (I : interface) : Prop :=
  forall t, 1 <= t <= n -> if_ignore I t = ignores tm (Z.of_nat t) /\
    if_element I t = match mget Z.eqb (Z.of_nat t) (fst tm) with Some e => e | None => 0%nat end.
Lemma initialize_ok m emap cf ce rc n tm : good_units m cf -> covers m cf rc -> mapping m emap n = Done tm -> valid_types (md_em m) tm ->
  exists I, initialize m emap cf ce rc n = Done I /\ same_potential m cf ce I /\ uses tm n I.
Proof.
  intros G C M V. unfold initialize. cbv zeta.
  destruct (Rlt_dec rc (getMaxCutoffRadius m cf)) as [L|L]; [exfalso; now apply (cutoff_covers m cf rc G) in C|].
  fold (mapping m emap n). rewrite M. cbn [bindo].
  destruct (table_ok (md_em m) tm V (seq 1 n) [] (seq_NoDup n 1)) as (ig & -> & T). cbn [bindo].
  eexists. split; [reflexivity|]. split; [repeat split|]. intros t H. cbn [if_ignore if_element]. rewrite T.
  destruct (in_dec Nat.eq_dec t (seq 1 n)) as [J|J]; auto. exfalso. apply J. apply in_seq. lia.
Qed.
Lemma initialize_short m emap cf ce rc n : good_units m cf -> ~ covers m cf rc -> initialize m emap cf ce rc n = Thrown.
Proof.
  intros G C. unfold initialize. destruct (Rlt_dec rc (getMaxCutoffRadius m cf)) as [L|L]; auto.
  exfalso. apply C. now apply cutoff_covers.
Qed.
Lemma initialize_bad m emap cf ce rc n : mapping m emap n = Thrown -> initialize m emap cf ce rc n = Thrown.
Proof.
  intros M. unfold initialize. cbv zeta. fold (mapping m emap n). rewrite M. cbn [bindo]. now destruct Rlt_dec.
Qed.
Lemma covers_dec m cf rc : covers m cf rc \/ ~ covers m cf rc.
Proof. unfold covers. destruct (Rle_dec (md_cutoff m) (rc * (cf * (if md_normalize m then md_convLength m else 1)))); auto. Qed.

Lemma init_style_same m emap cf ce rc n : init_style m emap cf ce rc n = initialize m emap cf ce rc n.
Proof.
  unfold init_style, initialize. cbv zeta. destruct (Rlt_dec rc (getMaxCutoffRadius m cf)) as [L|L]; auto.
  destruct (match emap with [] => _ | _ => _ end); cbn [bindo]; auto. destruct (foldo _ _ _); cbn [bindo]; auto.
Qed.

(** Mapping by entries. *)
Lemma join_entries_ne es : es <> [] -> join [ch_comma] (map entry_text es) <> [].
Proof.
  destruct es as [|e es]; [congruence|]. intros _ H. cbn [map] in H.
  assert (entry_text e = []) as E.
  { destruct es; cbn [map join] in H; auto. apply app_eq_nil in H. tauto. }
  unfold entry_text in E. apply app_eq_nil in E. destruct E as [_ E]. discriminate.
Qed.
Lemma mapping_entries m text es n : mapping_text es text -> es <> [] -> (forall e, In e es -> name_ok (snd e) /\ fits (fst e)) ->
  mapping m text n = if Nat.ltb (em_size (md_em m)) (List.length es) then Thrown
                     else if forallb (entry_fine (md_em m) n) es then Done (fold_left (put (md_em m)) es ([], [])) else Thrown.
Proof.
  intros T N K. unfold mapping_text in T. fold nonblank in T. unfold mapping.
  destruct text as [|c text]; [exfalso; apply (join_entries_ne es N); symmetry; exact T|].
  unfold readMapping. rewrite without_blanks_filter, T. change ","%char with ch_comma.
  rewrite entries_split by (auto; intros e I; apply K, I). rewrite map_length.
  destruct (Nat.ltb_spec (em_size (md_em m)) (List.length es)); auto. apply fold_entries. auto.
Qed.
Lemma put_valid m ws es : elements_of m ws -> forall n, forallb (entry_fine (md_em m) n) es = true ->
  valid_types (md_em m) (fold_left (put (md_em m)) es ([], [])).
Proof.
  intros E n F. destruct (elements_spec m ws E) as (_ & B & C & _ & _ & Z).
  assert (G : forall es tm, (forall e, In e es -> exists i, em_index (md_em m) (snd e) = Some i) -> valid_types (md_em m) tm ->
              valid_types (md_em m) (fold_left (put (md_em m)) es tm)).
  { clear es F. induction es as [|e es IH]; intros tm K V; auto. cbn [fold_left]. apply IH; [intros; apply K; now right|].
    intros t x. unfold put, map_type. cbn [fst]. destruct (Z.eq_dec t (Z.of_nat (fst e))) as [-> | D].
    - rewrite mget_mset_same by exact Z.eqb_eq. intros H. injection H as <-. destruct (K e (or_introl eq_refl)) as (i & Hi).
      unfold index_of. rewrite Hi. apply B in Hi. destruct (Z i _ Hi) as (z & Hz). eauto.
    - rewrite mget_mset_other; [apply V | exact Z.eqb_eq | exact D]. }
  apply G; [|intros t x H; discriminate]. intros e I. rewrite forallb_forall in F. specialize (F e I). unfold entry_fine in F.
  apply andb_true_iff in F. destruct F as [_ F]. destruct (em_index (md_em m) (snd e)); [eauto|discriminate].
Qed.
Lemma assigned_in es t s : assigned es t = Some s -> In (t, s) es.
Proof.
  unfold assigned. induction es as [|e es IH] using rev_ind; [discriminate|].
  rewrite fold_left_app. cbn [fold_left]. rewrite in_app_iff. destruct (Nat.eqb_spec (fst e) t) as [<- | D].
  - intros H. injection H as <-. right. left. now destruct e.
  - auto.
Qed.
Lemma fine_iff m ws n e : elements_of m ws -> (entry_fine (md_em m) n e = true <-> fst e <= n /\ In (snd e) ws).
Proof.
  intros E. destruct (elements_spec m ws E) as (_ & B & C & _). unfold entry_fine. rewrite andb_true_iff, Nat.leb_le, C.
  destruct (em_index (md_em m) (snd e)); intuition eauto; try discriminate. destruct H1; discriminate.
Qed.

Theorem mapping_theorem m ws text es cf ce rc n :
  elements_of m ws -> good_units m cf -> es <> [] -> (forall t s, In (t, s) es -> name_ok s /\ (Z.of_nat t < 2 ^ 31)%Z) -> mapping_text es text ->
  match initialize m text cf ce rc n with
  | Done itf => covers m cf rc /\ List.length es <= List.length ws /\ (forall t s, In (t, s) es -> t <= n /\ In s ws) /\
                same_potential m cf ce itf /\ forall t, 1 <= t <= n -> treats m itf t (assigned es t)
  | Thrown => ~ covers m cf rc \/ List.length ws < List.length es \/ exists t s, In (t, s) es /\ (n < t \/ ~ In s ws)
  | Undefined => False
  end.
Proof.
  intros E G N K T. destruct (elements_spec m ws E) as (Sz & B & C & _).
  assert (K' : forall e, In e es -> name_ok (snd e) /\ fits (fst e)) by (intros [t s] I; apply (K t s I)).
  destruct (covers_dec m cf rc) as [V|V]; [|rewrite initialize_short by auto; auto].
  pose proof (mapping_entries m text es n T N K') as M. rewrite Sz in M.
  destruct (Nat.ltb_spec (List.length ws) (List.length es)) as [L|L]; [rewrite initialize_bad by auto; auto|].
  destruct (forallb (entry_fine (md_em m) n) es) eqn:F.
  - destruct (initialize_ok m text cf ce rc n _ G V M (put_valid m ws es E n F)) as (I & -> & P & U).
    rewrite forallb_forall in F. split; auto. split; [lia|]. split; [|split; auto].
    + intros t s H. specialize (F _ H). apply (fine_iff m ws n (t, s) E) in F. exact F.
    + intros t H. destruct (U t H) as [U1 U2]. unfold ignores in U1. rewrite fold_put in U1, U2. fold (assigned es t) in U1, U2.
      destruct (assigned es t) as [s|] eqn:A; cbn [treats]; [|exact U1]. split; auto. rewrite U2.
      apply assigned_in in A. specialize (F _ A). apply (fine_iff m ws n (t, s) E) in F. destruct F as [_ F]. cbn in F.
      destruct (elements_known m ws s E F) as (i & I1 & I2). unfold index_of. now rewrite I1.
  - rewrite initialize_bad by auto. right. right.
    assert (X : exists e, In e es /\ entry_fine (md_em m) n e = false).
    { clear - F. induction es as [|e es IH]; [discriminate|]. cbn [forallb] in F. destruct (entry_fine (md_em m) n e) eqn:Q.
      - destruct (IH F) as (x & X1 & X2). exists x. split; auto. now right.
      - exists e. split; auto. now left. }
    destruct X as ([t s] & I & X). exists t, s. split; auto.
    destruct (le_lt_dec t n) as [Y|Y]; auto. right. intros J.
    assert (entry_fine (md_em m) n (t, s) = true) by (apply (fine_iff m ws n (t, s) E); auto). congruence.
Qed.
