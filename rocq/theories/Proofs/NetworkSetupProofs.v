(** Architecture of the networks (C74). *)
From Coq Require Import ZArith Ascii String Bool Arith Lia.
From Coq Require Import List.
From Verif Require Import Base.AssocMap Model.Strings Model.ElementMap Model.NeuralNetwork Model.Settings Model.SymLines Model.NetworkSetup
  Spec.StringSpec Spec.SymLineSpec Spec.NetworkSetupSpec Proofs.StringProofs Proofs.SymLineProofs Proofs.SymLineMode.
Import ListNotations.
Local Open Scope Z_scope.

Lemma done_inj {A} (a b : A) : Done a = Done b -> a = b.
Proof. congruence. Qed.
Lemma set_done {A} i (x : A) l l' : set_at i x l = Done l' ->
  (i < List.length l)%nat /\ List.length l' = List.length l /\ nth_error l' i = Some x /\ forall j, j <> i -> nth_error l' j = nth_error l j.
Proof.
  unfold set_at. destruct (Nat.ltb i (List.length l)) eqn:Q; [|discriminate]. apply Nat.ltb_lt in Q. intros H. apply done_inj in H. subst l'.
  split; auto. split. { rewrite app_length, firstn_length. cbn [List.length]. rewrite skipn_length. lia. }
  split. { rewrite nth_error_app2; rewrite firstn_length; [|lia]. now replace (i - Nat.min i (List.length l))%nat with 0%nat by lia. }
  intros j Hj. destruct (Nat.lt_ge_cases j i) as [L|L].
  - rewrite nth_error_app1 by (rewrite firstn_length; lia). clear - L. revert i L l. induction j as [|j IH]; intros [|i] L [|y l]; cbn; auto; try lia. apply IH. lia.
  - rewrite nth_error_app2; rewrite firstn_length; [|lia]. replace (j - Nat.min i (List.length l))%nat with (S (j - S i))%nat by lia. cbn [nth_error].
    clear - Hj L. assert (L' : (i < j)%nat) by lia. clear Hj L. revert i L' l. induction j as [|j IH]; intros i L [|y l]; try lia.
    + rewrite skipn_nil. now destruct (S j - S i)%nat.
    + cbn. destruct i as [|i]; [now rewrite Nat.sub_0_r|]. apply IH. lia.
Qed.
Lemma set_some {A} i (x : A) l : (i < List.length l)%nat -> exists l', set_at i x l = Done l'.
Proof. intros H. unfold set_at. rewrite (proj2 (Nat.ltb_lt _ _) H). eauto. Qed.

(** ** Changes of single layers *)
Record upd (PN : nat -> Z -> Prop) (PA : nat -> activation -> Prop) (SN SA : nat -> Prop) (t t' : topology) : Prop := mkUpd {
  u_layers : tp_layers t' = tp_layers t;
  u_lenN : List.length (tp_neurons t') = List.length (tp_neurons t);
  u_lenA : List.length (tp_acts t') = List.length (tp_acts t);
  u_N : forall j, SN j -> exists x, nth_error (tp_neurons t') j = Some x /\ PN j x;
  u_N' : forall j, ~ SN j -> nth_error (tp_neurons t') j = nth_error (tp_neurons t) j;
  u_A : forall j, SA j -> exists x, nth_error (tp_acts t') j = Some x /\ PA j x;
  u_A' : forall j, ~ SA j -> nth_error (tp_acts t') j = nth_error (tp_acts t) j }.
Lemma upd_refl PN PA t : upd PN PA (fun _ => False) (fun _ => False) t t.
Proof. split; auto; intros j []. Qed.
Lemma upd_loop PN PA (bN bA : nat -> bool) f js : NoDup js -> forall t t',
  (forall j t1 t2, In j js -> tp_layers t1 = tp_layers t -> f j t1 = Done t2 ->
     upd PN PA (fun i => i = j /\ bN j = true) (fun i => i = j /\ bA j = true) t1 t2) ->
  foldo f js t = Done t' -> upd PN PA (fun i => In i js /\ bN i = true) (fun i => In i js /\ bA i = true) t t'.
Proof.
  induction js as [|j js IH]; intros N t t' Hf H.
  - cbn in H. injection H as <-. split; auto; intros i (X & _); destruct X.
  - cbn [foldo] in H. apply bindo_done in H. destruct H as (t1 & H1 & H). inversion N as [|? ? Nj Njs]; subst.
    pose proof (Hf j t t1 (or_introl eq_refl) eq_refl H1) as U1.
    assert (U2 : upd PN PA (fun i => In i js /\ bN i = true) (fun i => In i js /\ bA i = true) t1 t').
    { apply IH; auto. intros i t2 t3 Hi E. apply Hf; [now right|]. rewrite E. apply U1. }
    clear IH Hf H1 H. destruct U1 as [A1 A2 A3 A4 A5 A6 A7], U2 as [B1 B2 B3 B4 B5 B6 B7]. split; try congruence.
    + intros i (Hi & Hb). destruct (in_dec Nat.eq_dec i js) as [X|X]; [auto|]. destruct Hi as [->|Hi]; [|easy].
      rewrite B5 by tauto. apply A4. auto.
    + intros i Hi. cbn [In] in Hi. rewrite B5 by tauto. apply A5. intros (-> & Q). tauto.
    + intros i (Hi & Hb). destruct (in_dec Nat.eq_dec i js) as [X|X]; [auto|]. destruct Hi as [->|Hi]; [|easy].
      rewrite B7 by tauto. apply A6. auto.
    + intros i Hi. cbn [In] in Hi. rewrite B7 by tauto. apply A7. intros (-> & Q). tauto.
Qed.
Lemma neurons_upd j n t t' (PN : nat -> Z -> Prop) PA : set_neurons j n t = Done t' -> PN j n ->
  upd PN PA (fun i => i = j /\ true = true) (fun i => i = j /\ false = true) t t'.
Proof.
  unfold set_neurons. intros H P. apply bindo_done in H. destruct H as (l & H & E). injection E as <-. apply set_done in H. destruct H as (_ & L & Hn & Ho).
  split; cbn [tp_layers tp_neurons tp_acts]; auto.
  all: try (intros i (_ & X); discriminate); try (intros i (-> & _); eauto); intros i Hi; apply Ho; tauto.
Qed.
Lemma act_upd j a t t' PN (PA : nat -> activation -> Prop) : set_act j a t = Done t' -> PA j a ->
  upd PN PA (fun i => i = j /\ false = true) (fun i => i = j /\ true = true) t t'.
Proof.
  unfold set_act. intros H P. apply bindo_done in H. destruct H as (l & H & E). injection E as <-. apply set_done in H. destruct H as (_ & L & Hn & Ho).
  split; cbn [tp_layers tp_neurons tp_acts]; auto.
  all: try (intros i (_ & X); discriminate); try (intros i (-> & _); eauto); intros i Hi; apply Ho; tauto.
Qed.
Lemma in_range a b j : 0 <= a -> In j (range a b) <-> a <= Z.of_nat j < b.
Proof. intros H. unfold range. rewrite in_seq. lia. Qed.
Lemma range_nodup a b : NoDup (range a b).
Proof. apply seq_NoDup. Qed.

(** ** Loops over lines *)
Section Lines.
  Variables (em : element_map) (step : list str -> topology -> outcome topology) (Fr : topology -> topology -> Prop).
  Hypothesis (Fr_refl : forall t, Fr t t) (Fr_trans : forall a b c, Fr a b -> Fr b c -> Fr a c)
    (Fr_step : forall ws t t', step ws t = Done t' -> Fr t t').
  Definition lineStep (v : str * nat) (tops : list topology) : outcome (list topology) :=
    e <- element_at em (words_of (fst v)) 0; update_at e (step (words_of (fst v))) tops.
  Definition about (e : nat) (v : str * nat) : Prop := exists ws, is_words (fst v) ws /\ elt em ws 0 e.
  Lemma words_of_is (v : str * nat) : is_words (fst v) (words_of (fst v)).
  Proof. destruct (words_exist_unique (fst v)) as (ws & H & _). unfold words_of. now rewrite (split_reduce_tokens _ _ H). Qed.
  Lemma words_of_unique (v : str) ws : is_words v ws -> words_of v = ws.
  Proof. intros H. apply (split_reduce_tokens _ _ H). Qed.
  Lemma about_iff e v : about e v <-> element_at em (words_of (fst v)) 0 = Done e.
  Proof.
    unfold about, element_at, elt, word, at_. split.
    - intros (ws & W & w & Ew & Ei). rewrite (words_of_unique _ _ W), Ew. cbn. rewrite Ei. reflexivity.
    - intros H. apply bindo_done in H. destruct H as (w & E & H). apply throwing_done in E, H. exists (words_of (fst v)). split; [apply words_of_is|eauto].
  Qed.
  Lemma line_step v tops tops' : lineStep v tops = Done tops' -> List.length tops' = List.length tops /\
    exists e, about e v /\ exists t t1, nth_error tops e = Some t /\ nth_error tops' e = Some t1 /\ step (words_of (fst v)) t = Done t1 /\
    forall e', e' <> e -> nth_error tops' e' = nth_error tops e'.
  Proof.
    unfold lineStep, update_at. intros H. apply bindo_done in H. destruct H as (e & E & H). apply about_iff in E.
    apply bindo_done in H. destruct H as (t & Et & H). apply throwing_done in Et. apply bindo_done in H. destruct H as (t1 & E1 & H).
    apply set_done in H. destruct H as (_ & L & N & O). split; auto. exists e. split; auto. exists t, t1. auto.
  Qed.
  Lemma about_dec e v : about e v \/ ~ about e v.
  Proof.
    destruct (element_at em (words_of (fst v)) 0) as [e'| |] eqn:Q.
    - destruct (Nat.eq_dec e' e) as [->|N]; [left; now apply about_iff|right; intros H; apply about_iff in H; congruence].
    - right; intros H; apply about_iff in H; congruence.
    - right; intros H; apply about_iff in H; congruence.
  Qed.
  Lemma lines_loop ls : forall tops tops', foldo lineStep ls tops = Done tops' -> List.length tops' = List.length tops /\
    forall e t', nth_error tops' e = Some t' -> exists t, nth_error tops e = Some t /\ Fr t t' /\
      (((forall v, In v ls -> ~ about e v) /\ t' = t) \/
       exists before v after t1, ls = before ++ v :: after /\ about e v /\ (forall v', In v' after -> ~ about e v') /\
         Fr t t1 /\ step (words_of (fst v)) t1 = Done t').
  Proof.
    induction ls as [|v ls IH]; intros tops tops' H.
    - cbn in H. injection H as <-. split; auto. intros e t' E. exists t'. split; [exact E|]. split; [apply Fr_refl|]. left. split; [intros v []|reflexivity].
    - cbn [foldo] in H. apply bindo_done in H. destruct H as (tops1 & H1 & H). apply line_step in H1. destruct H1 as (L1 & e0 & A0 & t0 & t1 & E0 & E1 & S1 & O1).
      apply IH in H. destruct H as (L & H). split; [congruence|]. intros e t' E'. destruct (H e t' E') as (t2 & E2 & F2 & C).
      destruct (Nat.eq_dec e e0) as [->|Ne].
      + rewrite E1 in E2. injection E2 as <-. exists t0. split; auto. split; [eapply Fr_trans; eauto|]. right.
        destruct C as [(C & ->)|(before & v' & after & t3 & -> & A & Na & F3 & S3)].
        * exists [], v, ls, t0. repeat split; auto.
        * exists (v :: before), v', after, t3. repeat split; auto. eapply Fr_trans; eauto.
      + rewrite O1 in E2 by auto. exists t2. split; auto. split; auto.
        destruct C as [(C & ->)|(before & v' & after & t3 & -> & A & Na & F3 & S3)].
        * left. split; auto. intros v' [<-|Hv]; auto. intros A. apply about_iff in A, A0. congruence.
        * right. exists (v :: before), v', after, t3. repeat split; auto.
  Qed.
End Lines.

(** ** The steps *)
Definition layersStep (ws : list str) (t : topology) : outcome topology :=
  w <- at_ ws 1; n <- atoi w; Done (mkTopology (to_int (to_size (to_size n + 2))) (tp_neurons t) (tp_acts t)).
Definition nodesStep (ws : list str) (t : topology) : outcome topology :=
  if Z.eqb (to_size (tp_layers t)) (to_size (Z.of_nat (List.length ws) - 1 + 2)) then
    foldo (fun j t => w <- at_ ws j; n <- atoi w; set_neurons j n t) (range 1 (tp_layers t - 2)) t
  else Thrown.
Definition actsStep (ws : list str) (t : topology) : outcome topology :=
  if Z.eqb (to_size (tp_layers t)) (to_size (Z.of_nat (List.length ws) - 1 + 1)) then
    foldo (fun j t => w <- at_ ws j; a <- activation_of w; set_act j a t) (range 1 (tp_layers t - 1)) t
  else Thrown.
Lemma foldo_ext {A S} (f g : A -> S -> outcome S) l : (forall x s s', f x s = Done s' -> g x s = Done s') -> forall s s', foldo f l s = Done s' -> foldo g l s = Done s'.
Proof. intros E. induction l as [|x l IH]; cbn; auto. intros s s' H. apply bindo_done in H. destruct H as (s1 & H1 & H). apply bindo_done. exists s1. split; auto. Qed.
Lemma layers_line em v tops tops' : elementLayers em v tops = Done tops' -> lineStep em layersStep v tops = Done tops'.
Proof.
  unfold elementLayers, lineStep, update_at. intros H. apply bindo_done in H. destruct H as (e & E & H). apply bindo_done in H. destruct H as (w & W & H).
  apply bindo_done in H. destruct H as (n & N & H). apply bindo_done in H. destruct H as (t & T & H).
  apply bindo_done. exists e. split; auto. apply bindo_done. exists t. split; auto. unfold layersStep. rewrite W. cbn [bindo]. rewrite N. exact H.
Qed.
Definition node_value (ws : list str) (j : nat) (n : Z) : Prop := exists w, nth_error ws j = Some w /\ atoi w = Done n.
Definition act_value (ws : list str) (j : nat) (a : activation) : Prop := exists w, nth_error ws j = Some w /\ activationFromString w = Some a.
Lemma upd_sets PN PA (SN SA SN' SA' : nat -> Prop) t t' : (forall i, SN i <-> SN' i) -> (forall i, SA i <-> SA' i) -> upd PN PA SN SA t t' -> upd PN PA SN' SA' t t'.
Proof. intros E F [A1 A2 A3 A4 A5 A6 A7]. split; auto; intros j Hj; [apply A4|apply A5|apply A6|apply A7]; rewrite ?E, ?F; auto. Qed.
Lemma nodes_step ws t t' : nodesStep ws t = Done t' ->
  to_size (tp_layers t) = to_size (Z.of_nat (List.length ws) - 1 + 2) /\
  upd (node_value ws) (fun _ _ => True) (fun i => 1 <= Z.of_nat i < tp_layers t - 2) (fun _ => False) t t'.
Proof.
  unfold nodesStep. destruct (Z.eqb _ _) eqn:Q; [|discriminate]. apply Z.eqb_eq in Q. intros H. split; auto.
  eapply upd_sets; [| |refine (upd_loop (node_value ws) (fun _ _ => True) (fun _ => true) (fun _ => false) _ _ (range_nodup _ _) _ _ _ H)].
  - intros i. cbv beta. rewrite in_range by lia. tauto.
  - intros i. split; [intros (_ & X); discriminate|tauto].
  - cbv beta. intros j t1 t2 _ _ E. apply bindo_done in E. destruct E as (w & W & E). apply throwing_done in W. apply bindo_done in E. destruct E as (n & N & E).
    apply (neurons_upd j n); auto. exists w. auto.
Qed.
Lemma acts_step ws t t' : actsStep ws t = Done t' ->
  to_size (tp_layers t) = to_size (Z.of_nat (List.length ws) - 1 + 1) /\
  upd (fun _ _ => True) (act_value ws) (fun _ => False) (fun i => 1 <= Z.of_nat i < tp_layers t - 1) t t'.
Proof.
  unfold actsStep. destruct (Z.eqb _ _) eqn:Q; [|discriminate]. apply Z.eqb_eq in Q. intros H. split; auto.
  eapply upd_sets; [| |refine (upd_loop (fun _ _ => True) (act_value ws) (fun _ => false) (fun _ => true) _ _ (range_nodup _ _) _ _ _ H)].
  - intros i. split; [intros (_ & X); discriminate|tauto].
  - intros i. cbv beta. rewrite in_range by lia. tauto.
  - cbv beta. intros j t1 t2 _ _ E. apply bindo_done in E. destruct E as (w & W & E). apply throwing_done in W. apply bindo_done in E. destruct E as (a & Na & E).
    apply throwing_done in Na. apply (act_upd j a); auto. exists w. auto.
Qed.
