(** Architecture of the networks (C74): what a successful set-up has made. *)
From Coq Require Import ZArith Ascii String Bool Arith Lia.
From Coq Require Import List.
From Verif Require Import Base.AssocMap Model.Strings Model.ElementMap Model.NeuralNetwork Model.Printf Model.Settings Model.SymLines Model.NetworkSetup
  Spec.StringSpec Spec.SymLineSpec Spec.NetworkSetupSpec Proofs.StringProofs Proofs.SymLineProofs Proofs.SymLineMode Proofs.NetworkSetupProofs.
Import ListNotations.
Local Open Scope Z_scope.

(** ** Conversions *)
Lemma to_size_id z : 0 <= z < 2 ^ 64 -> to_size z = z.
Proof. apply Z.mod_small. Qed.
Lemma to_int_id z : - 2 ^ 31 <= z < 2 ^ 31 -> to_int z = z.
Proof. intros H. unfold to_int. rewrite Z.mod_small; lia. Qed.
Lemma to_int_bound z : - 2 ^ 31 <= to_int z < 2 ^ 31.
Proof. unfold to_int. pose proof (Z.mod_pos_bound (z + 2 ^ 31) (2 ^ 32) ltac:(lia)). lia. Qed.
Lemma to_int_size z : to_int (to_size z) = to_int z.
Proof.
  unfold to_int, to_size. f_equal. rewrite <- Z.add_mod_idemp_l by lia. rewrite <- (Z.add_mod_idemp_l z) by lia. f_equal. f_equal.
  symmetry. apply Znumtheory.Zmod_div_mod; [lia|lia|]. exists (2 ^ 32). reflexivity.
Qed.
Lemma to_size_add z k : to_size (to_size z + k) = to_size (z + k).
Proof. unfold to_size. now rewrite Z.add_mod_idemp_l by lia. Qed.
Lemma wrap2 z : - 2 ^ 31 <= z < 2 ^ 31 -> to_int (to_size (to_size z + 2)) = if Z.ltb z (2 ^ 31 - 2) then z + 2 else z + 2 - 2 ^ 32.
Proof.
  intros H. rewrite to_size_add, to_int_size. unfold to_int. destruct (Z.ltb z (2 ^ 31 - 2)) eqn:Q.
  - apply Z.ltb_lt in Q. rewrite Z.mod_small; lia.
  - apply Z.ltb_ge in Q. replace (z + 2 + 2 ^ 31) with (z + 2 - 2 ^ 31 + 1 * 2 ^ 32) by lia. rewrite Z.mod_add by lia. rewrite Z.mod_small; lia.
Qed.
Lemma atoi_bound w z : atoi w = Done z -> - 2 ^ 31 <= z < 2 ^ 31.
Proof.
  unfold atoi. destruct (scan_sign _) as (neg, r). destruct (scan_digits r 0) as ((v, k), r'). unfold in_int.
  destruct (_ && _)%bool eqn:Q; [|discriminate]. intros H. injection H as <-. apply andb_true_iff in Q. destruct Q as (A & B).
  apply Z.leb_le in A. apply Z.ltb_lt in B. lia.
Qed.

(** ** One element *)
Lemma upd_seq PN PA (SN SA : nat -> Prop) (j : nat) b b' t t1 t2 :
  upd PN PA (fun i => i = j /\ b = true) (fun i => i = j /\ false = true) t t1 ->
  upd PN PA (fun i => i = j /\ false = true) (fun i => i = j /\ b' = true) t1 t2 ->
  upd PN PA (fun i => i = j /\ b = true) (fun i => i = j /\ b' = true) t t2.
Proof.
  intros [A1 A2 A3 A4 A5 A6 A7] [B1 B2 B3 B4 B5 B6 B7]. split; try congruence.
  - intros i Hi. rewrite B5 by (intros (_ & X); discriminate). auto.
  - intros i Hi. rewrite B5 by (intros (_ & X); discriminate). auto.
  - auto.
  - intros i Hi. rewrite B7 by auto. apply A7. intros (_ & X); discriminate.
Qed.
Lemma upd_none PN PA j t : upd PN PA (fun i => i = j /\ false = true) (fun i => i = j /\ false = true) t t.
Proof. split; auto; intros i (_ & X); discriminate. Qed.
Definition bNodes L (nodes acts : list str) (j : nat) : bool := (nonempty nodes && negb (Z.eqb (Z.of_nat j) (L - 1) && nonempty acts))%bool.
Lemma global_layer nodes acts L j t t2 : 1 <= Z.of_nat j < L -> tp_layers t = L -> globalLayer nodes acts j t = Done t2 ->
  upd (fun j => node_value nodes (j - 1)) (fun j => act_value acts (j - 1))
    (fun i => i = j /\ bNodes L nodes acts j = true) (fun i => i = j /\ nonempty acts = true) t t2.
Proof.
  unfold globalLayer, bNodes. intros Hj HL. rewrite HL. destruct (Z.eqb (Z.of_nat j) (L - 1) && nonempty acts)%bool eqn:Q; intros H.
  - rewrite andb_false_r. apply andb_true_iff in Q. destruct Q as (Q & ->). apply Z.eqb_eq in Q.
    apply bindo_done in H. destruct H as (w & W & H). apply throwing_done in W. apply bindo_done in H. destruct H as (a & A & H). apply throwing_done in A.
    eapply act_upd; [exact H|]. exists w. split; auto. replace (j - 1)%nat with (Z.to_nat (L - 2)) by lia. exact W.
  - rewrite andb_true_r. apply bindo_done in H. destruct H as (t1 & H1 & H).
    apply (upd_seq _ _ (fun _ => True) (fun _ => True) j _ _ t t1 t2).
    + destruct (nonempty nodes); [|injection H1 as <-; apply upd_none].
      apply bindo_done in H1. destruct H1 as (w & W & H1). apply throwing_done in W. apply bindo_done in H1. destruct H1 as (n & Nn & H1).
      eapply neurons_upd; [exact H1|]. exists w. auto.
    + destruct (nonempty acts); [|injection H as <-; apply upd_none].
      apply bindo_done in H. destruct H as (w & W & H). apply throwing_done in W. apply bindo_done in H. destruct H as (a & A & H). apply throwing_done in A.
      eapply act_upd; [exact H|]. exists w. auto.
Qed.
Definition allocated (L : Z) (t : topology) : Prop :=
  tp_layers t = L /\ tp_neurons t = repeat 0 (Z.to_nat L) /\ tp_acts t = repeat AF_UNSET (Z.to_nat L).
Lemma global_topology g nodes acts inp L t t' : 3 <= L -> allocated L t -> globalTopology g nodes acts inp t = Done t' ->
  tp_layers t' = L /\ List.length (tp_neurons t') = Z.to_nat L /\ List.length (tp_acts t') = Z.to_nat L /\
  nth_error (tp_neurons t') 0 = Some (to_int (Z.of_nat inp)) /\ nth_error (tp_acts t') 0 = Some AF_IDENTITY /\
  (to_size L = to_size (g + 2) -> forall j, 1 <= Z.of_nat j < L ->
     (if bNodes L nodes acts j then exists n, nth_error (tp_neurons t') j = Some n /\ node_value nodes (j - 1) n
      else nth_error (tp_neurons t') j = Some (if Z.eqb (Z.of_nat j) (L - 1) then 1 else 0)) /\
     (if nonempty acts then exists a, nth_error (tp_acts t') j = Some a /\ act_value acts (j - 1) a
      else nth_error (tp_acts t') j = Some AF_UNSET)) /\
  (to_size L <> to_size (g + 2) -> forall j, 1 <= Z.of_nat j < L ->
     nth_error (tp_neurons t') j = Some (if Z.eqb (Z.of_nat j) (L - 1) then 1 else 0) /\ nth_error (tp_acts t') j = Some AF_UNSET).
Proof.
  intros HL (E0 & EN & EA) H. unfold globalTopology in H.
  apply bindo_done in H. destruct H as (t1 & H1 & H). apply bindo_done in H. destruct H as (t2 & H2 & H). apply bindo_done in H. destruct H as (t3 & H3 & H).
  pose proof (neurons_upd _ _ _ _ (fun _ n => n = to_int (Z.of_nat inp)) (fun _ _ => True) H1 eq_refl) as [A1 A2 A3 A4 A5 A6 A7].
  pose proof (act_upd _ _ _ _ (fun _ _ => True) (fun _ a => a = AF_IDENTITY) H2 eq_refl) as [B1 B2 B3 B4 B5 B6 B7].
  pose proof (neurons_upd _ _ _ _ (fun _ n => n = 1) (fun _ _ => True) H3 eq_refl) as [C1 C2 C3 C4 C5 C6 C7].
  assert (L2 : tp_layers t2 = L) by congruence. assert (L3 : tp_layers t3 = L) by congruence. rewrite L2 in *.
  assert (N : forall i b, ~ ((i : nat) = b /\ false = true)) by (intros i b (_ & X); discriminate).
  assert (Rn : forall j, (j < Z.to_nat L)%nat -> nth_error (tp_neurons t) j = Some 0).
  { intros j Hj. rewrite EN. rewrite (nth_error_nth' _ 0) by (rewrite repeat_length; auto). now rewrite nth_repeat. }
  assert (Ra : forall j, (j < Z.to_nat L)%nat -> nth_error (tp_acts t) j = Some AF_UNSET).
  { intros j Hj. rewrite EA. rewrite (nth_error_nth' _ AF_UNSET) by (rewrite repeat_length; auto). now rewrite nth_repeat. }
  assert (S3 : List.length (tp_neurons t3) = Z.to_nat L /\ List.length (tp_acts t3) = Z.to_nat L /\
    nth_error (tp_neurons t3) 0 = Some (to_int (Z.of_nat inp)) /\ nth_error (tp_acts t3) 0 = Some AF_IDENTITY /\
    forall j, 1 <= Z.of_nat j < L -> nth_error (tp_neurons t3) j = Some (if Z.eqb (Z.of_nat j) (L - 1) then 1 else 0) /\ nth_error (tp_acts t3) j = Some AF_UNSET).
  { split. { rewrite C2, B2, A2, EN. apply repeat_length. } split. { rewrite C3, B3, A3, EA. apply repeat_length. }
    split. { rewrite C5 by lia. rewrite B5 by auto. destruct (A4 0%nat) as (x & X & ->); auto. }
    split. { rewrite C7 by auto. destruct (B6 0%nat) as (x & X & ->); auto. }
    intros j Hj. split.
    - destruct (Z.eqb_spec (Z.of_nat j) (L - 1)) as [Q|Q].
      + destruct (C4 j) as (x & X & ->); [split; auto; lia|]. exact X.
      + rewrite C5 by lia. rewrite B5 by auto. rewrite A5 by lia. apply Rn. lia.
    - rewrite C7 by auto. rewrite B7 by lia. rewrite A7 by auto. apply Ra. lia. }
  rewrite L3 in H. destruct S3 as (S1 & S2 & S3 & S4 & S5).
  destruct (Z.eqb_spec (to_size L) (to_size (g + 2))) as [Q|Q].
  - assert (U : upd (fun j => node_value nodes (j - 1)) (fun j => act_value acts (j - 1))
      (fun i => In i (range 1 L) /\ bNodes L nodes acts i = true) (fun i => In i (range 1 L) /\ nonempty acts = true) t3 t').
    { refine (upd_loop _ _ (bNodes L nodes acts) (fun _ => nonempty acts) _ _ (range_nodup _ _) _ _ _ H).
      intros j ta tb Hj E F. apply in_range in Hj; [|lia]. apply (global_layer nodes acts L j ta tb); auto. congruence. }
    destruct U as [D1 D2 D3 D4 D5 D6 D7].
    assert (Z0 : ~ In 0%nat (range 1 L)) by (rewrite in_range by lia; lia).
    split; [congruence|]. split; [congruence|]. split; [congruence|]. split; [rewrite D5 by tauto; auto|]. split; [rewrite D7 by tauto; auto|].
    split; [|congruence]. intros _ j Hj. assert (In j (range 1 L)) by (apply in_range; lia). split.
    + destruct (bNodes L nodes acts j) eqn:B; [apply D4; auto|]. rewrite D5 by (intros (_ & X); congruence). now apply S5.
    + destruct (nonempty acts) eqn:B; [apply D6; auto|]. rewrite D7 by (intros (_ & X); discriminate). now apply S5.
  - injection H as <-. split; auto. split; auto. split; auto. split; auto. split; auto. split; [congruence|]. intros _. exact S5.
Qed.

(** Frames of the loops over lines. *)
Definition FrN (t t' : topology) : Prop := tp_layers t' = tp_layers t /\ List.length (tp_neurons t') = List.length (tp_neurons t) /\
  List.length (tp_acts t') = List.length (tp_acts t) /\
  (forall j, nth_error (tp_acts t') j = nth_error (tp_acts t) j) /\
  forall j, ~ 1 <= Z.of_nat j < tp_layers t - 2 -> nth_error (tp_neurons t') j = nth_error (tp_neurons t) j.
Definition FrA (t t' : topology) : Prop := tp_layers t' = tp_layers t /\ List.length (tp_neurons t') = List.length (tp_neurons t) /\
  List.length (tp_acts t') = List.length (tp_acts t) /\
  (forall j, nth_error (tp_neurons t') j = nth_error (tp_neurons t) j) /\
  forall j, ~ 1 <= Z.of_nat j < tp_layers t - 1 -> nth_error (tp_acts t') j = nth_error (tp_acts t) j.
Lemma FrN_refl t : FrN t t. Proof. repeat split; auto. Qed.
Lemma FrA_refl t : FrA t t. Proof. repeat split; auto. Qed.
Lemma FrN_trans a b c : FrN a b -> FrN b c -> FrN a c.
Proof.
  intros (A1 & A2 & A3 & A4 & A5) (B1 & B2 & B3 & B4 & B5). split; [congruence|]. split; [congruence|]. split; [congruence|]. split; [intros j; now rewrite B4|].
  intros j H. rewrite B5 by (rewrite A1; auto). auto.
Qed.
Lemma FrA_trans a b c : FrA a b -> FrA b c -> FrA a c.
Proof.
  intros (A1 & A2 & A3 & A4 & A5) (B1 & B2 & B3 & B4 & B5). split; [congruence|]. split; [congruence|]. split; [congruence|]. split; [intros j; now rewrite B4|].
  intros j H. rewrite B5 by (rewrite A1; auto). auto.
Qed.
Lemma FrN_step ws t t' : nodesStep ws t = Done t' -> FrN t t'.
Proof. intros H. apply nodes_step in H. destruct H as (_ & [A1 A2 A3 A4 A5 A6 A7]). split; [auto|]. split; [auto|]. split; [auto|]. split; auto. Qed.
Lemma FrA_step ws t t' : actsStep ws t = Done t' -> FrA t t'.
Proof. intros H. apply acts_step in H. destruct H as (_ & [A1 A2 A3 A4 A5 A6 A7]). split; [auto|]. split; [auto|]. split; [auto|]. split; auto. Qed.

Definition FrL (t t' : topology) : Prop := - 2 ^ 31 <= tp_layers t < 2 ^ 31 -> - 2 ^ 31 <= tp_layers t' < 2 ^ 31.
Lemma FrL_step ws t t' : layersStep ws t = Done t' -> FrL t t'.
Proof.
  unfold layersStep. intros H _. apply bindo_done in H. destruct H as (w & _ & H). apply bindo_done in H. destruct H as (n & _ & H). injection H as <-.
  cbn [tp_layers]. apply to_int_bound.
Qed.

(** ** Lines and values *)
Lemma lines_inv s kw ls : lines_of s kw = Done ls -> (getValues s kw = Some ls) \/ (ls = [] /\ getValues s kw = None).
Proof.
  unfold lines_of. intros H. apply bindo_done in H. destruct H as (b & E & H). apply throwing_done in E. destruct b.
  - apply throwing_done in H. auto.
  - injection H as <-. right. split; auto. unfold getValues, keywordCheck. now rewrite E.
Qed.
Lemma value_inv s kw v : value_of s kw = Done (Some v) -> getValue s kw = Some v.
Proof.
  unfold value_of. intros H. apply bindo_done in H. destruct H as (b & E & H). apply throwing_done in E. destruct b; [|discriminate].
  apply bindo_done in H. destruct H as (v' & V & H). apply throwing_done in V. congruence.
Qed.
Lemma own_of_lines em s kw ls e before v after : lines_of s kw = Done ls -> ls = before ++ v :: after -> about em e v ->
  (forall v', In v' after -> ~ about em e v') -> own_line em s kw e (words_of (fst v)).
Proof.
  intros H E A N. destruct (lines_inv _ _ _ H) as [G|(-> & _)]; [|destruct before; discriminate].
  exists ls, before, v, after. split; auto. split; auto. split; [apply words_of_is|]. split.
  - destruct A as (ws & W & A). now rewrite (words_of_unique _ _ W).
  - intros v' ws' Hv W X. apply (N v' Hv). exists ws'. auto.
Qed.
Lemma no_own_of_lines em s kw ls e : lines_of s kw = Done ls -> (forall v, In v ls -> ~ about em e v) -> forall ws, ~ own_line em s kw e ws.
Proof.
  intros H N ws (values & before & v & after & G & E & W & A & _). destruct (lines_inv _ _ _ H) as [G'|(_ & G')]; [|congruence].
  rewrite G in G'. injection G' as <-. apply (N v); [rewrite E; apply in_elt|]. exists ws. auto.
Qed.
Lemma own_line_unique em s kw e ws ws' : own_line em s kw e ws -> own_line em s kw e ws' -> ws = ws'.
Proof.
  intros (vs & b & v & a & G & E & W & A & N) (vs' & b' & v' & a' & G' & E' & W' & A' & N'). rewrite G in G'. injection G' as <-. rewrite E in E'. clear E G.
  assert (X : forall (b b' a a' : list (str * nat)) v v', b ++ v :: a = b' ++ v' :: a' -> (b = b' /\ v = v' /\ a = a') \/ In v' a \/ In v a').
  { clear. induction b as [|x b IH]; intros [|y b'] a a' v v' E; cbn in E; injection E as -> E; auto.
    - right. left. rewrite E. apply in_elt.
    - right. right. rewrite <- E. apply in_elt.
    - destruct (IH b' a a' v v' E) as [(-> & -> & ->)|[X|X]]; auto. }
  destruct (X _ _ _ _ _ _ E') as [(_ & <- & _)|[Y|Y]].
  - destruct (words_exist_unique (fst v)) as (u & _ & Uu). rewrite <- (Uu _ W), <- (Uu _ W'). reflexivity.
  - exfalso. eapply N; eauto.
  - exfalso. eapply N'; eauto.
Qed.

(** ** The final network of an element *)
Lemma complete_neurons t j n : complete t = true -> nth_error (tp_neurons t) j = Some n -> n <> 0.
Proof.
  unfold complete. intros H E ->. apply andb_true_iff in H. destruct H as (H & _). apply negb_true_iff in H.
  assert (X : existsb (Z.eqb 0) (tp_neurons t) = true) by (apply existsb_exists; exists 0; split; [eapply nth_error_In; eauto|reflexivity]). congruence.
Qed.
Lemma complete_acts t j a : complete t = true -> nth_error (tp_acts t) j = Some a -> a <> AF_UNSET.
Proof.
  unfold complete. intros H E ->. apply andb_true_iff in H. destruct H as (_ & H). apply negb_true_iff in H.
  assert (X : existsb unset (tp_acts t) = true) by (apply existsb_exists; exists AF_UNSET; split; [eapply nth_error_In; eauto|reflexivity]). congruence.
Qed.
Lemma construct_inv b t net : construct b t = Done net -> 3 <= tp_layers t /\ (forall j n, nth_error (tp_neurons t) j = Some n -> 0 <= n) /\
  numLayers net = Z.to_nat (tp_layers t) /\ (forall j n, nth_error (tp_neurons t) j = Some n -> numNeurons net j = Z.to_nat n) /\
  (forall j a, nth_error (tp_acts t) j = Some a -> actFun net j = a) /\ normalizeNeurons net = b.
Proof.
  unfold construct. destruct (existsb _ _) eqn:Q; [discriminate|]. intros H. apply bindo_done in H. destruct H as (net0 & E & H). apply throwing_done in E.
  injection H as <-. unfold new_network in E. destruct (Nat.ltb _ 3) eqn:Q2; [discriminate|]. apply Nat.ltb_ge in Q2. injection E as <-.
  cbn [numLayers numNeurons actFun normalizeNeurons]. split; [lia|]. split.
  { intros j n E. apply nth_error_In in E. destruct (Z.ltb_spec n 0) as [L|L]; auto. exfalso.
    assert (X : existsb (fun n => Z.ltb n 0) (tp_neurons t) = true) by (apply existsb_exists; exists n; split; auto; now apply Z.ltb_lt). congruence. }
  split; auto. split; [intros j n E; now rewrite (nth_error_nth _ _ _ E)|]. split; auto. intros j a E. now rewrite (nth_error_nth _ _ _ E).
Qed.

(** ** The whole set-up *)
Lemma mapo_nth {A B} (f : A -> outcome B) l : forall l', mapo f l = Done l' -> List.length l' = List.length l /\
  forall e y, nth_error l' e = Some y -> exists x, nth_error l e = Some x /\ f x = Done y.
Proof.
  induction l as [|x l IH]; cbn [mapo]; intros l' H.
  - injection H as <-. split; auto. intros [|e] y E; discriminate.
  - apply bindo_done in H. destruct H as (y & Y & H). apply bindo_done in H. destruct H as (ys & Ys & H). injection H as <-.
    destruct (IH _ Ys) as (L & N). split; [cbn; congruence|]. intros [|e] y' E; cbn in *; [injection E as <-; eauto|auto].
Qed.
Lemma nth_combine {A B} (l : list A) : forall (l' : list B) e x, nth_error (List.combine l l') e = Some x -> nth_error l e = Some (fst x) /\ nth_error l' e = Some (snd x).
Proof. induction l as [|a l IH]; intros [|b l'] [|e] x E; cbn in *; try discriminate; [injection E as <-; auto|auto]. Qed.
Lemma nth_map {A B} (f : A -> B) l e y : nth_error (map f l) e = Some y -> exists x, nth_error l e = Some x /\ y = f x.
Proof. rewrite nth_error_map. destruct (nth_error l e); cbn; [intros E; injection E as <-; eauto|discriminate]. Qed.
Lemma nonempty_iff l : nonempty l = true <-> l <> [].
Proof. unfold nonempty. destruct l; cbn; split; congruence. Qed.

Theorem setup_sound s em suffix inputs nets : sizes_int inputs -> inputs <> [] -> setupNeuralNetworks s em suffix inputs = Done nets ->
  exists n, (1 <= n)%nat /\ hidden_layers s suffix n /\ List.length nets = List.length inputs /\
  forall e inp net, nth_error inputs e = Some inp -> nth_error nets e = Some net ->
    numLayers net = (n + 2)%nat /\ numNeurons net 0 = inp /\ (0 < inp)%nat /\ numNeurons net (n + 1) = 1%nat /\ actFun net 0%nat = AF_IDENTITY /\
    (forall j, (1 <= j <= n)%nat -> (0 < numNeurons net j)%nat) /\
    (forall j, (1 <= j < n)%nat -> exists w, layer_word em s (lit "element_nodes" ++ suffix) (lit "global_nodes" ++ suffix) e j w /\
       atoi w = Done (Z.of_nat (numNeurons net j))) /\
    (exists ws w, global_line s (lit "global_nodes" ++ suffix) ws /\ has_words ws n /\ word ws (n - 1) w /\ atoi w = Done (Z.of_nat (numNeurons net n))) /\
    (forall j, (1 <= j <= n)%nat -> exists w, layer_word em s (lit "element_activation" ++ suffix) (lit "global_activation" ++ suffix) e j w /\
       activationFromString w = Some (actFun net j)) /\
    (exists ws w, global_line s (lit "global_activation" ++ suffix) ws /\ has_words ws (n + 1) /\ word ws n w /\ activationFromString w = Some (actFun net (n + 1)%nat)) /\
    (forall ws, own_line em s (lit "element_nodes" ++ suffix) e ws -> has_words ws (n + 1)) /\
    (forall ws, own_line em s (lit "element_activation" ++ suffix) e ws -> has_words ws (n + 2)) /\
    (forall ws, own_line em s (lit "element_hidden_layers" ++ suffix) e ws -> exists w, word ws 1 w /\ atoi w = Done (Z.of_nat n)) /\
    keywordExists s (lit "normalize_nodes") false = Some (normalizeNeurons net).
Proof.
  intros HI HN H. unfold setupNeuralNetworks in H. apply bindo_done in H. destruct H as (tops & HT & H). apply bindo_done in H. destruct H as (b & Hb & H).
  apply throwing_done in Hb. unfold setupTopologies in HT.
  apply bindo_done in HT. destruct HT as (v0 & V0 & HT). apply bindo_done in HT. destruct HT as (g & G & HT).
  apply bindo_done in HT. destruct HT as (ls0 & L0 & HT). apply bindo_done in HT. destruct HT as (tops0 & T0 & HT).
  destruct (existsb _ tops0) eqn:Qz; [discriminate|].
  apply bindo_done in HT. destruct HT as (tops1 & T1 & HT). cbv zeta in HT. set (g0 := match g with None => 0 | Some g => g end) in HT.
  apply bindo_done in HT. destruct HT as (vn & Vn & HT). apply bindo_done in HT. destruct HT as (nodes & Nd & HT).
  apply bindo_done in HT. destruct HT as (va & Va & HT). apply bindo_done in HT. destruct HT as (acts & Ac & HT).
  apply bindo_done in HT. destruct HT as (tops2 & T2 & HT).
  apply bindo_done in HT. destruct HT as (ls1 & L1 & HT). apply bindo_done in HT. destruct HT as (tops3 & T3 & HT).
  apply bindo_done in HT. destruct HT as (ls2 & L2 & HT). apply bindo_done in HT. destruct HT as (tops4 & T4 & HT).
  destruct (forallb complete tops4) eqn:Qc; [|discriminate]. apply done_inj in HT. subst tops4.
  assert (T0' : foldo (lineStep em layersStep) ls0 (map (fun _ => initLayers g) inputs) = Done tops0) by (apply (foldo_ext _ _ _ (layers_line em)); exact T0).
  apply (lines_loop em layersStep FrL (fun t X => X) (fun a b c A B X => B (A X)) FrL_step) in T0'. destruct T0' as (K0 & T0').
  apply (lines_loop em nodesStep FrN FrN_refl FrN_trans FrN_step) in T3. destruct T3 as (K3 & T3).
  apply (lines_loop em actsStep FrA FrA_refl FrA_trans FrA_step) in T4. destruct T4 as (K4 & T4).
  apply mapo_nth in H. destruct H as (K5 & H). apply mapo_nth in T1. destruct T1 as (K1 & T1). apply mapo_nth in T2. destruct T2 as (K2 & T2).
  rewrite map_length in K0. rewrite combine_length in K2.
  assert (gb : 0 <= g0 < 2 ^ 64).
  { unfold g0, globalLayers in *. destruct v0; [|injection G as <-; lia]. apply bindo_done in G. destruct G as (z & _ & G). injection G as <-.
    apply Z.mod_pos_bound. lia. }
  (* one element *)
  assert (ONE : forall e inp net, nth_error inputs e = Some inp -> nth_error nets e = Some net ->
    exists n, (1 <= n)%nat /\ hidden_layers s suffix n /\
    (numLayers net = (n + 2)%nat /\ numNeurons net 0 = inp /\ (0 < inp)%nat /\ numNeurons net (n + 1) = 1%nat /\ actFun net 0%nat = AF_IDENTITY /\
    (forall j, (1 <= j <= n)%nat -> (0 < numNeurons net j)%nat) /\
    (forall j, (1 <= j < n)%nat -> exists w, layer_word em s (lit "element_nodes" ++ suffix) (lit "global_nodes" ++ suffix) e j w /\
       atoi w = Done (Z.of_nat (numNeurons net j))) /\
    (exists ws w, global_line s (lit "global_nodes" ++ suffix) ws /\ has_words ws n /\ word ws (n - 1) w /\ atoi w = Done (Z.of_nat (numNeurons net n))) /\
    (forall j, (1 <= j <= n)%nat -> exists w, layer_word em s (lit "element_activation" ++ suffix) (lit "global_activation" ++ suffix) e j w /\
       activationFromString w = Some (actFun net j)) /\
    (exists ws w, global_line s (lit "global_activation" ++ suffix) ws /\ has_words ws (n + 1) /\ word ws n w /\ activationFromString w = Some (actFun net (n + 1)%nat)) /\
    (forall ws, own_line em s (lit "element_nodes" ++ suffix) e ws -> has_words ws (n + 1)) /\
    (forall ws, own_line em s (lit "element_activation" ++ suffix) e ws -> has_words ws (n + 2)) /\
    (forall ws, own_line em s (lit "element_hidden_layers" ++ suffix) e ws -> exists w, word ws 1 w /\ atoi w = Done (Z.of_nat n)) /\
    keywordExists s (lit "normalize_nodes") false = Some (normalizeNeurons net))).
  { intros e inp net Ei En. destruct (H e net En) as (t4 & E4 & C4). destruct (T4 e t4 E4) as (t3 & E3 & F4 & O4).
    destruct (T3 e t3 E3) as (t2 & E2 & F3 & O3). destruct (T2 e t2 E2) as ((inp' & t1) & E1 & S2). apply nth_combine in E1. cbn [fst snd] in *.
    destruct E1 as (Ei' & E1). rewrite Ei in Ei'. injection Ei' as <-. destruct (T1 e t1 E1) as (t0 & E0 & S1). destruct (T0' e t0 E0) as (ti & Eti & F0 & O0).
    apply nth_map in Eti. destruct Eti as (inp' & _ & ->). clear inp'.
    assert (bound : - 2 ^ 31 <= tp_layers t0 < 2 ^ 31).
    { apply F0. unfold initLayers. destruct g; cbn [tp_layers topology_init]; [apply to_int_bound|lia]. }
    assert (Cmp : complete t4 = true) by (apply (proj1 (forallb_forall _ _) Qc); eapply nth_error_In; eauto).
    apply construct_inv in C4. destruct C4 as (HL & Hpos & NL & NN & AA & Hnorm).
    destruct F4 as (F41 & F42 & F43 & F44 & F45). destruct F3 as (F31 & F32 & F33 & F34 & F35).
    unfold allocateTopology in S1. destruct (Z.ltb (tp_layers t0) 0) eqn:Qn; [discriminate|]. apply Z.ltb_ge in Qn. apply done_inj in S1.
    set (L := tp_layers t0) in *.
    assert (Hal : allocated L t1) by (subst t1; split; [|split]; reflexivity). clear S1.
    assert (HL3 : 3 <= L).
    { assert (X : tp_layers t2 = L).
      { destruct Hal as (X & _). unfold globalTopology in S2. apply bindo_done in S2. destruct S2 as (u1 & U1 & S2). apply bindo_done in S2. destruct S2 as (u2 & U2 & S2).
        apply bindo_done in S2. destruct S2 as (u3 & U3 & S2).
        pose proof (u_layers _ _ _ _ _ _ (neurons_upd _ _ _ _ (fun _ _ => True) (fun _ _ => True) U1 I)).
        pose proof (u_layers _ _ _ _ _ _ (act_upd _ _ _ _ (fun _ _ => True) (fun _ _ => True) U2 I)).
        pose proof (u_layers _ _ _ _ _ _ (neurons_upd _ _ _ _ (fun _ _ => True) (fun _ _ => True) U3 I)).
        destruct (Z.eqb _ _); [|injection S2 as <-; congruence].
        assert (U : upd (fun j => node_value nodes (j - 1)) (fun j => act_value acts (j - 1))
          (fun i => In i (range 1 L) /\ bNodes L nodes acts i = true) (fun i => In i (range 1 L) /\ nonempty acts = true) u3 t2).
        { replace (tp_layers u3) with L in S2 by congruence.
          refine (upd_loop _ _ (bNodes L nodes acts) (fun _ => nonempty acts) _ _ (range_nodup _ _) _ _ _ S2).
          intros j ta tb Hj E F. apply in_range in Hj; [|lia]. apply (global_layer nodes acts L j ta tb); auto. congruence. }
        rewrite (u_layers _ _ _ _ _ _ U). congruence. }
      lia. }
    destruct (global_topology g0 nodes acts inp L t1 t2 HL3 Hal S2) as (M1 & M2 & M3 & M4 & M5 & M6 & M7).
    assert (LL : L = tp_layers t4) by congruence.
    set (nz := Z.to_nat (L - 2)).
    assert (Hnz : Z.of_nat nz = L - 2) by (unfold nz; lia).
    assert (last : nth_error (tp_neurons t4) nz = nth_error (tp_neurons t2) nz) by (rewrite F44; apply F35; rewrite M1; lia).
    assert (lastA : nth_error (tp_acts t4) (nz + 1) = nth_error (tp_acts t2) (nz + 1)) by (rewrite F45 by (rewrite F31, M1; lia); apply F34).
    assert (Nq : Z.of_nat nz <> L - 1) by lia.
    destruct (Z.eq_dec (to_size L) (to_size (g0 + 2))) as [Eg|Eg].
    2: { exfalso. destruct (M7 Eg nz ltac:(lia)) as (X & _). rewrite (proj2 (Z.eqb_neq _ _) Nq) in X. rewrite X in last.
         apply (complete_neurons _ _ _ Cmp last). reflexivity. }
    specialize (M6 Eg). clear M7.
    assert (nN : nonempty nodes = true).
    { destruct (nonempty nodes) eqn:Q; auto. exfalso. destruct (M6 nz ltac:(lia)) as (X & _). unfold bNodes in X. rewrite Q in X. cbn [andb] in X.
      rewrite (proj2 (Z.eqb_neq _ _) Nq) in X. rewrite X in last. apply (complete_neurons _ _ _ Cmp last). reflexivity. }
    assert (nA : nonempty acts = true).
    { destruct (nonempty acts) eqn:Q; auto. exfalso. destruct (M6 (nz + 1)%nat ltac:(lia)) as (_ & X). rewrite X in lastA.
      apply (complete_acts _ _ _ Cmp lastA). reflexivity. }
    assert (Eg' : g0 = L - 2).
    { rewrite to_size_id in Eg by lia. unfold to_size in Eg. destruct (Z.lt_ge_cases (g0 + 2) (2 ^ 64)) as [X|X].
      - rewrite Z.mod_small in Eg; lia.
      - replace (g0 + 2) with (g0 + 2 - 2 ^ 64 + 1 * 2 ^ 64) in Eg by lia. rewrite Z.mod_add in Eg by lia. rewrite Z.mod_small in Eg; lia. }
    exists nz. split; [lia|]. split.
    { unfold g0 in Eg'. destruct g as [z|]; [|lia]. destruct v0 as [v|]; [|discriminate]. cbn in G. apply bindo_done in G. destruct G as (z' & Zv & G). injection G as <-.
      apply value_inv in V0. exists v. split; auto. rewrite Zv. f_equal. apply atoi_bound in Zv. rewrite Hnz. unfold to_size in Eg'.
      destruct (Z.lt_ge_cases z' 0) as [X|X]; [|rewrite Z.mod_small in Eg'; lia].
      replace z' with (z' + 2 ^ 64 + (-1) * 2 ^ 64) in Eg' by lia. rewrite Z.mod_add in Eg' by lia. rewrite Z.mod_small in Eg'; lia. }
    assert (bn : forall j, 1 <= Z.of_nat j < L - 1 -> bNodes L nodes acts j = true).
    { intros j Hj. unfold bNodes. rewrite nN. rewrite (proj2 (Z.eqb_neq _ _)) by lia. reflexivity. }
    assert (GN : global_line s (lit "global_nodes" ++ suffix) nodes /\ has_words nodes nz).
    { unfold globalNodes in Nd. destruct vn as [v|]; [|injection Nd as <-; discriminate]. cbv zeta in Nd. destruct (Z.eqb_spec g0 (to_size (Z.of_nat (List.length (words_of v))))) as [Q|Q]; [|discriminate].
      injection Nd as <-. split; [exists v; split; [now apply value_inv|]; apply (words_of_is (v, 0%nat))|].
      intros B. rewrite to_size_id in Q by lia. lia. }
    destruct GN as (GN & CN).
    assert (GA : global_line s (lit "global_activation" ++ suffix) acts /\ has_words acts (nz + 1)).
    { unfold globalActivations in Ac. destruct va as [v|]; [|injection Ac as <-; discriminate]. cbv zeta in Ac. destruct (Z.eqb_spec g0 (to_size (Z.of_nat (List.length (words_of v)) - 1))) as [Q|Q]; [|discriminate].
      injection Ac as <-. split; [exists v; split; [now apply value_inv|]; apply (words_of_is (v, 0%nat))|].
      intros B. apply nonempty_iff in nA. destruct (words_of v); [congruence|]. cbn [List.length] in *. rewrite to_size_id in Q by lia. lia. }
    destruct GA as (GA & CA).
    assert (VN : forall j, 1 <= Z.of_nat j < L - 1 -> exists k, nth_error (tp_neurons t2) j = Some k /\ node_value nodes (j - 1) k).
    { intros j Hj. destruct (M6 j ltac:(lia)) as (X & _). now rewrite (bn j Hj) in X. }
    assert (VA : forall j, 1 <= Z.of_nat j < L -> exists a, nth_error (tp_acts t2) j = Some a /\ act_value acts (j - 1) a).
    { intros j Hj. destruct (M6 j ltac:(lia)) as (_ & X). now rewrite nA in X. }
    assert (len4 : List.length (tp_neurons t4) = Z.to_nat L) by congruence.
    assert (pos : forall j k, nth_error (tp_neurons t4) j = Some k -> numNeurons net j = Z.to_nat k /\ 0 < k).
    { intros j k E. split; [auto|]. pose proof (Hpos _ _ E). pose proof (complete_neurons _ _ _ Cmp E). lia. }
    assert (in0 : nth_error (tp_neurons t4) 0 = Some (Z.of_nat inp)).
    { rewrite F44. rewrite F35 by lia. rewrite M4. f_equal. apply to_int_id. pose proof (HI inp (nth_error_In _ _ Ei)). lia. }
    split; [lia|]. destruct (pos _ _ in0) as (P0 & P0').
    split; [rewrite P0; lia|]. split; [lia|].
    split. { destruct (M6 (nz + 1)%nat ltac:(lia)) as (X & _). unfold bNodes in X. rewrite nN, nA in X.
      rewrite (proj2 (Z.eqb_eq (Z.of_nat (nz + 1)) (L - 1))) in X by lia. cbn [andb negb] in X.
      assert (Y : nth_error (tp_neurons t4) (nz + 1) = Some 1) by (rewrite F44; rewrite F35 by (rewrite M1; lia); exact X). now rewrite (NN _ _ Y). }
    split. { apply AA. rewrite F45 by lia. now rewrite F34. }
    split. { intros j Hj. destruct (nth_error (tp_neurons t4) j) as [k|] eqn:E; [|apply nth_error_None in E; lia]. destruct (pos _ _ E) as (P & P'). lia. }
    split.
    { intros j Hj. assert (J : 1 <= Z.of_nat j < L - 2) by lia.
      destruct O3 as [(No & E32)|(before & v & after & t2' & -> & Ab & Na & (Fa & _) & St)].
      - subst t3. destruct (VN j ltac:(lia)) as (k & Ek & w & W & Kw). rewrite <- F44 in Ek. destruct (pos _ _ Ek) as (P & P').
        exists w. split; [|rewrite P, Z2Nat.id by lia; exact Kw]. right. split; [eapply no_own_of_lines; eauto|]. exists nodes. split; auto.
      - apply nodes_step in St. destruct St as (_ & [A1 A2 A3 A4 A5 A6 A7]). rewrite Fa, M1 in A4. destruct (A4 j J) as (k & Ek & w & W & Kw).
        rewrite <- F44 in Ek. destruct (pos _ _ Ek) as (P & P'). exists w. split; [|rewrite P, Z2Nat.id by lia; exact Kw]. left.
        exists (words_of (fst v)). split; [eapply own_of_lines; eauto|exact W]. }
    split. { destruct (VN nz ltac:(lia)) as (k & Ek & w & W & Kw). rewrite <- last in Ek. destruct (pos _ _ Ek) as (P & P').
      exists nodes, w. split; auto. split; auto. split; auto. rewrite P, Z2Nat.id by lia. exact Kw. }
    split.
    { intros j Hj. assert (J : 1 <= Z.of_nat j < L - 1) by lia.
      destruct O4 as [(No & E43)|(before & v & after & t3' & -> & Ab & Na & (Fa & _) & St)].
      - destruct (VA j ltac:(lia)) as (k & Ek & w & W & Kw). rewrite <- F34 in Ek. rewrite <- E43 in Ek.
        exists w. split; [|rewrite (AA _ _ Ek); exact Kw]. right. split; [eapply no_own_of_lines; eauto|]. exists acts. split; auto.
      - apply acts_step in St. destruct St as (_ & [A1 A2 A3 A4 A5 A6 A7]). rewrite Fa, F31, M1 in A6. destruct (A6 j J) as (k & Ek & w & W & Kw).
        exists w. split; [|rewrite (AA _ _ Ek); exact Kw]. left. exists (words_of (fst v)). split; [eapply own_of_lines; eauto|exact W]. }
    split. { destruct (VA (nz + 1)%nat ltac:(lia)) as (k & Ek & w & W & Kw). rewrite <- lastA in Ek. exists acts, w. split; auto. split; auto.
      split; [unfold word; now replace nz with (nz + 1 - 1)%nat by lia|]. rewrite (AA _ _ Ek). exact Kw. }
    assert (to_size L = L) as SL by (apply to_size_id; lia).
    split. { intros ws Ow. destruct O3 as [(No & _)|(before & v & after & t2' & -> & Ab & Na & (Fa & _) & St)]; [exfalso; exact (no_own_of_lines em s _ ls1 e L1 No ws Ow)|].
      assert (Ow' : own_line em s (lit "element_nodes" ++ suffix) e (words_of (fst v))) by (exact (own_of_lines em s _ _ e before v after L1 eq_refl Ab Na)).
      rewrite (own_line_unique _ _ _ _ _ _ Ow Ow'). apply nodes_step in St. destruct St as (Q & _). rewrite Fa, M1, SL in Q. intros B.
      destruct Ab as (ws' & Ws & w' & Ew & _). rewrite <- (words_of_unique _ _ Ws) in Ew. destruct (words_of (fst v)) as [|w0 l]; [discriminate|]. cbn [List.length] in *.
      destruct (Z.eq_dec (Z.of_nat (S (List.length l)) - 1 + 2) (2 ^ 64)) as [Q'|Q']; [rewrite Q' in Q; change (to_size (2 ^ 64)) with 0 in Q; lia|].
      rewrite to_size_id in Q by lia. lia. }
    split. { intros ws Ow. destruct O4 as [(No & _)|(before & v & after & t2' & -> & Ab & Na & (Fa & _) & St)]; [exfalso; exact (no_own_of_lines em s _ ls2 e L2 No ws Ow)|].
      assert (Ow' : own_line em s (lit "element_activation" ++ suffix) e (words_of (fst v))) by (exact (own_of_lines em s _ _ e before v after L2 eq_refl Ab Na)).
      rewrite (own_line_unique _ _ _ _ _ _ Ow Ow'). apply acts_step in St. destruct St as (Q & _). rewrite Fa, F31, M1, SL in Q. intros B.
      rewrite to_size_id in Q by lia. lia. }
    split; [|congruence].
    intros ws Ow. destruct O0 as [(No & _)|(before & v & after & t2' & E & Ab & Na & _ & St)].
    - exfalso. exact (no_own_of_lines em s _ ls0 e L0 No ws Ow).
    - assert (Ow' : own_line em s (lit "element_hidden_layers" ++ suffix) e (words_of (fst v))) by (exact (own_of_lines em s _ ls0 e before v after L0 E Ab Na)).
      rewrite (own_line_unique _ _ _ _ _ _ Ow Ow'). unfold layersStep in St. apply bindo_done in St. destruct St as (w & W & St). apply throwing_done in W.
      apply bindo_done in St. destruct St as (m & Mm & St). apply done_inj in St. exists w. split; auto. rewrite Mm. f_equal.
      assert (X : L = to_int (to_size (to_size m + 2))) by (unfold L; rewrite <- St; reflexivity). pose proof (atoi_bound _ _ Mm) as Bm.
      rewrite wrap2 in X by auto. rewrite Hnz. destruct (Z.ltb m (2 ^ 31 - 2)) eqn:Q; lia. }
  assert (K : List.length nets = List.length inputs).
  { rewrite K5, K4, K3, K2, K1, K0. lia. }
  destruct inputs as [|i0 inputs]; [congruence|]. destruct nets as [|net0 nets]; [discriminate|].
  destruct (ONE 0%nat i0 net0 eq_refl eq_refl) as (n & Hn & HH & _).
  exists n. split; auto. split; auto. split; auto. intros e inp net Ei En. destruct (ONE e inp net Ei En) as (n' & Hn' & HH' & R).
  assert (n' = n); [|subst; exact R]. destruct HH as (v & Gv & Av), HH' as (v' & Gv' & Av'). rewrite Gv in Gv'. injection Gv' as <-. rewrite Av in Av'. injection Av' as Av'. lia.
Qed.
