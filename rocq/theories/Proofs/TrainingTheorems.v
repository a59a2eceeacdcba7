(** C81 and C82: selection and files. *)
From Coq Require Import Reals Lra ZArith Lia Ascii String Bool Arith Permutation.
From Coq Require Import List.
From Verif Require Import Base.AssocMap Model.Strings Model.Printf Model.Settings Model.SymLines Model.NetworkSetup Model.DataFiles
  Model.Updaters Model.Selection Model.UpdatePlan Model.TrainingSetup Spec.TrainingSpec
  Proofs.SymLineProofs Proofs.NetworkSetupProofs Proofs.NetworkSetupMain Proofs.TrainingSchedule Proofs.TrainingSelection
  Proofs.TrainingLoop Proofs.TrainingFiles Proofs.TrainingMain.
Import ListNotations.
Local Open Scope nat_scope.

Lemma trained_keys s nnp stage e t : set_up s nnp stage e t -> forall k, In k (map tr_key (t_props t)) <-> trained s nnp stage k.
Proof.
  intros U k. destruct (su_forces _ _ _ _ _ U) as (b & Hb & -> & _). unfold stage_keys, trained, first_of_two. rewrite Hb. clear Hb U.
  destruct nnp; cbn [is_2G negb andb].
  - assert (N : ~ (HDNNP_2G <> HDNNP_2G /\ stage = 1)) by (intros (X & _); now apply X).
    destruct b, k; cbn [In]; intuition (try discriminate; try congruence; auto).
  - destruct b, (Nat.eqb_spec stage 1) as [Q|D], k; cbn [In]; intuition (try discriminate; try congruence; auto).
  - destruct b, (Nat.eqb_spec stage 1) as [Q|D], k; cbn [In]; intuition (try discriminate; try congruence; auto).
Qed.

Lemma configured_all s nnp stage e t p : set_up s nnp stage e t -> In p (t_props t) -> selected_as s p.
Proof. intros U Hp. destruct (su_metric _ _ _ _ _ U) as (m & _ & F). rewrite Forall_forall in F. apply F in Hp. apply Hp. Qed.
Lemma mode_none m0 n : mode_after [] m0 n = m0.
Proof. induction n as [|n IH]; [reflexivity|]. cbn [mode_after mget]. exact IH. Qed.
Lemma selected_mode s p n : selected_as s p -> (Z.of_nat n < 2 ^ 31)%Z -> wanted_mode s (tr_key p) n (mode_after (tr_schedule p) (tr_mode p) n).
Proof.
  intros ((v & Ef & M) & _) Hn. exists v. split; [exact Ef|]. destruct v as [v|].
  - destruct M as (R & M). now apply schedule_mode.
  - destruct M as (-> & ->). apply mode_none.
Qed.

Theorem mode_theorem s nnp stage e zs shuffle inv kobs gobs z t x : training_run s nnp stage e zs shuffle inv kobs gobs z t x ->
  forall sp, In sp (lo_steps x) -> 1 <= sp_epoch sp <= z /\ trained s nnp stage (tr_key (sp_prop sp)) /\
    wanted_mode s (tr_key (sp_prop sp)) (sp_epoch sp) (tr_mode (sp_prop sp)) /\
    wanted_threshold s (tr_key (sp_prop sp)) (tr_threshold (sp_prop sp)) /\ wanted_trials s (tr_key (sp_prop sp)) (tr_trials (sp_prop sp)).
Proof.
  intros H sp Hsp. destruct (run_state _ _ _ _ _ _ _ _ _ _ _ _ H) as (U & E & -> & B & Sh). cbn [state_at lo_steps] in Hsp.
  destruct (step_in shuffle Sh t (su_epoch _ _ _ _ _ U) z sp Hsp) as (R & p & Hp & Ep). rewrite Ep. split; [exact R|]. cbn [prop_at set_mode tr_key tr_mode tr_threshold tr_trials].
  pose proof (configured_all _ _ _ _ _ _ U Hp) as C. split; [apply (trained_keys _ _ _ _ _ U); now apply in_map|].
  split; [apply selected_mode; [exact C | lia]|]. apply C.
Qed.
Theorem order_theorem s nnp stage e zs shuffle inv kobs gobs z t x : training_run s nnp stage e zs shuffle inv kobs gobs z t x ->
  (forall n k, 1 <= n <= z -> trained s nnp stage k -> exists o, In o (lo_orders x) /\ or_epoch o = n /\ or_key o = k) /\
  forall o, In o (lo_orders x) -> 1 <= or_epoch o <= z /\ trained s nnp stage (or_key o) /\
    exists m, wanted_mode s (or_key o) (or_epoch o) m /\ (or_how o = Sorted <-> m = SM_SORT).
Proof.
  intros H. destruct (run_state _ _ _ _ _ _ _ _ _ _ _ _ H) as (U & E & -> & B & Sh). cbn [state_at lo_orders]. split.
  - intros n k Hn Hk. apply (trained_keys _ _ _ _ _ U) in Hk. apply in_map_iff in Hk. destruct Hk as (p & K & Hp).
    exists (mkOrdering n k (match mode_after (tr_schedule p) (tr_mode p) n with SM_SORT => Sorted | _ => Shuffled end)).
    split; [|split; reflexivity]. apply (order_in t (su_epoch _ _ _ _ _ U)). cbn. split; [exact Hn|]. exists p. auto.
  - intros o Ho. apply (order_in t (su_epoch _ _ _ _ _ U)) in Ho. destruct Ho as (R & p & Hp & K & M). split; [exact R|]. rewrite K.
    split; [apply (trained_keys _ _ _ _ _ U); now apply in_map|]. exists (mode_after (tr_schedule p) (tr_mode p) (or_epoch o)).
    split; [apply selected_mode; [eapply configured_all; eauto | lia]|]. rewrite M. destruct (mode_after _ _ _); split; congruence.
Qed.
(** The specification determines the mode. *)
Lemma entries_length ws l : entries_of ws l -> List.length ws = 2 * List.length l - 1 /\ 1 <= List.length l.
Proof. induction 1 as [|ws l we wm e m H IH A B]; cbn; [lia|]. rewrite !app_length. cbn. lia. Qed.
Lemma entries_unique ws l : entries_of ws l -> forall l', entries_of ws l' -> l = l'.
Proof.
  induction 1 as [w m A|ws l we wm e m H IH A B]; intros l' H'.
  - inversion H' as [w' m' A' E1 E2|ws' l1 we' wm' e' m' H1 A' B' E1 E2]; subst.
    + rewrite A in A'. apply done_inj in A'. now subst.
    + exfalso. apply entries_length in H1. apply (f_equal (@List.length _)) in E1. rewrite app_length in E1. cbn in E1. lia.
  - inversion H' as [w' m' A' E1 E2|ws' l1 we' wm' e' m' H1 A' B' E1 E2]; subst.
    + exfalso. apply entries_length in H. apply (f_equal (@List.length _)) in E1. rewrite app_length in E1. cbn in E1. lia.
    + assert (L : List.length ws' = List.length ws) by (apply (f_equal (@List.length _)) in E1; rewrite !app_length in E1; cbn in E1; lia).
      assert (X : ws' = ws /\ [we'; wm'] = [we; wm]).
      { clear - E1 L. revert ws L E1. induction ws' as [|a ws' IH]; intros [|b ws] L E1; try discriminate; cbn in *; [auto|].
        injection E1 as Ea E1. injection L as L. destruct (IH _ L E1) as (-> & X). subst. auto. }
      destruct X as (-> & X). injection X as -> ->. rewrite (IH _ H1). rewrite A in A'. rewrite B in B'. apply done_inj in A', B'. now subst.
Qed.
Theorem wanted_unique s k n m m' : wanted_mode s k n m -> wanted_mode s k n m' -> m = m'.
Proof.
  intros (v & E & W) (v' & E' & W').
  assert (V : v = v').
  { assert (X : forall kw w, absent s kw -> given s kw w -> False).
    { intros kw w A G. unfold absent, given, getValue, keywordCheck in *. rewrite A in G. discriminate. }
    unfold effective in *. destruct v as [v|], v' as [v'|]; unfold given in *.
    - destruct E as [E|(A & E)], E' as [E'|(A' & E')]; try congruence; exfalso; eauto.
    - exfalso. destruct E as [E|(A & E)]; destruct E' as (E1 & E2); eauto.
    - exfalso. destruct E' as [E'|(A & E')]; destruct E as (E1 & E2); eauto.
    - reflexivity. }
  subst v'. destruct v as [v|]; [|congruence].
  destruct W as (l & j & b & c & L & (b1 & z1 & N1 & B1 & F1) & N & C), W' as (l' & j' & b' & c' & L' & (b2 & z2 & N2 & B2 & F2) & N' & C').
  assert (l = l') by (eapply entries_unique; eauto). subst l'.
  assert (J : j = j'). { specialize (F1 _ _ _ N2 B2). specialize (F2 _ _ _ N1 B1). lia. } subst j'. assert (c = c') by congruence. subst c'.
  unfold mode_code in *. intuition congruence.
Qed.

Lemma selection_lines s scope ps ps' v : setupSelectionMode s scope ps = Done ps' -> given s (kw "selection_mode" scope) v -> acceptable_schedule v.
Proof.
  intros H G. unfold setupSelectionMode in H. change (lit "selection_mode" ++ suffix_of scope) with (kw "selection_mode" scope) in H.
  apply bindo_done in H. destruct H as (b & B & H). apply bindo_done in H. destruct H as (ps1 & P1 & _).
  destruct b.
  - apply bindo_done in P1. destruct P1 as (v' & V & P1). apply get_given in V. assert (v' = v) by (unfold given in *; congruence). subst v'.
    apply bindo_done in P1. destruct P1 as (m & M & _). apply schedule_accepted. now exists m.
  - exfalso. apply has_false in B. unfold given, absent, getValue, keywordCheck in *. rewrite B in G. discriminate.
Qed.
Lemma fold_lines s : forall ks ps ps' k v, foldo (fun k ps => setupSelectionMode s (Some k) ps) ks ps = Done ps' -> In k ks ->
  given s (kw "selection_mode" (Some k)) v -> acceptable_schedule v.
Proof.
  induction ks as [|k0 ks IH]; intros ps ps' k v H Hk G; [destruct Hk|]. cbn [foldo] in H. apply bindo_done in H. destruct H as (ps1 & P1 & H).
  destruct Hk as [->|Hk]; [eapply selection_lines; eauto | eapply IH; eauto].
Qed.
Theorem lines_theorem s nnp stage e t : setupTraining s nnp stage e = Done t ->
  (forall v, given s (lit "selection_mode") v -> acceptable_schedule v) /\
  (forall k v, trained s nnp stage k -> given s (own "selection_mode" k) v -> acceptable_schedule v).
Proof.
  intro H. pose proof (trained_keys _ _ _ _ _ (setup_inv _ _ _ _ _ H)) as TK. pose proof (setup_inv _ _ _ _ _ H) as U. unfold setupTraining in H.
  apply bindo_done in H. destruct H as ((ks, id) & St & H). cbn [fst snd] in H.
  do 8 (apply bindo_done in H; destruct H as (? & _ & H)). apply bindo_done in H. destruct H as (? & _ & H).
  apply bindo_done in H. destruct H as (ps1 & P1 & H). clear H.
  unfold setupSelectionModes in P1. apply bindo_done in P1. destruct P1 as (ps2 & P2 & P1). split.
  - intros v G. apply (selection_lines s None _ _ v P2). now rewrite kw_none.
  - intros k v Hk G. apply (fold_lines _ _ _ _ k v P1).
    + rewrite (setup_keys _ _ _ _ P2), !map_map. cbn [set_metric new_property tr_key]. rewrite map_id.
      apply TK in Hk. destruct (su_forces _ _ _ _ _ U) as (b & Hb & Ek & _). rewrite Ek in Hk. revert Hk.
      unfold setStage in St. apply bindo_done in St. destruct St as (forces & Hf & St). unfold has in Hf. apply throwing_done in Hf. rewrite Hb in Hf. injection Hf as <-.
      unfold stage_keys. destruct nnp; cbn [is_2G negb andb].
      * apply done_inj in St. apply pair_equal_spec in St. destruct St as (<- & _). auto.
      * destruct (Nat.eqb stage 1); [apply done_inj in St; apply pair_equal_spec in St; destruct St as (<- & _); auto|].
        destruct (Nat.eqb stage 2); [|discriminate]. apply done_inj in St; apply pair_equal_spec in St; destruct St as (<- & _); auto.
      * destruct (Nat.eqb stage 1); [apply done_inj in St; apply pair_equal_spec in St; destruct St as (<- & _); auto|].
        destruct (Nat.eqb stage 2); [|discriminate]. apply done_inj in St; apply pair_equal_spec in St; destruct St as (<- & _); auto.
    + replace (kw "selection_mode" (Some k)) with (own "selection_mode" k); [exact G|]. unfold kw, own. destruct k; reflexivity.
Qed.

(** ** C82 *)
Lemma due_divides z a n : (0 <= z)%Z -> (0 <= a)%Z -> due (z, a) n = true <-> (0 < z)%Z /\ ((z | Z.of_nat n)%Z \/ (Z.of_nat n <= a)%Z).
Proof.
  intros Hz Ha. unfold due. cbn [fst snd]. rewrite andb_true_iff, orb_true_iff, Z.ltb_lt, Z.eqb_eq, Z.leb_le. split; intros (P & Q); split; auto.
  - destruct Q as [Q|Q]; [left; apply Z.mod_divide; [lia | exact Q] | now right].
  - destruct Q as [Q|Q]; [left; apply Z.mod_divide; [lia | exact Q] | now right].
Qed.
Lemma output_asks s keyword o n : fileOutput s (lit keyword) (0%Z, 0%Z) = Done o -> asks_for_files s keyword n (due o n = true).
Proof.
  unfold fileOutput. intro H. apply bindo_done in H. destruct H as (b & B & H). destruct b.
  - right. apply bindo_done in H. destruct H as (v & V & H). apply get_given in V. exists v. split; [exact V|]. cbn [snd] in H.
    destruct (words_of v) as [|w1 [|w2 [|w3 l]]]; cbn [List.length Nat.eqb] in H.
    + apply done_inj in H. subst o. cbn [asks]. apply (proj2 (due_divides 1 0 n ltac:(lia) ltac:(lia))). split; [lia|]. left. apply Z.divide_1_l.
    + apply bindo_done in H. destruct H as (z & A & H). apply done_inj in H. subst o. unfold int_at, at_ in A. cbn in A. exists z. split; [exact A|].
      intro Hz. apply atoi_bound in A. rewrite to_size_id by lia. rewrite due_divides by lia. split; [|tauto]. intros (P & [Q|Q]); split; auto.
      replace (Z.of_nat n) with 0%Z by lia. apply Z.divide_0_r.
    + apply bindo_done in H. destruct H as (z & A & H). apply bindo_done in H. destruct H as (a & A' & H). apply done_inj in H. subst o. unfold int_at, at_ in A, A'. cbn in A, A'.
      exists z, a. split; [exact A|]. split; [exact A'|]. intros Hz Ha. apply atoi_bound in A, A'. rewrite !to_size_id by lia. apply due_divides; lia.
    + apply done_inj in H. subst o. cbn [asks]. apply (proj2 (due_divides 1 0 n ltac:(lia) ltac:(lia))). split; [lia|]. left. apply Z.divide_1_l.
  - left. apply done_inj in H. subst o. split; [now apply has_false|]. unfold due. cbn. discriminate.
Qed.

Section Files.
Variables (zs : list nat) (t : training).
Hypothesis okstage : t_nnp t = HDNNP_2G \/ t_stage t = 1 \/ t_stage t = 2.
Definition total (z : nat) := writes_at zs t z.
Lemma total_in z w : In w (total z) <-> exists n, n <= z /\ (written zs t (negb (Nat.eqb n 0)) n w \/ (1 <= n /\ w = mkWrite (timing_name t) (negb (Nat.eqb n 1)) n)).
Proof.
  unfold total, writes_at. rewrite in_app_iff, in_flat_map. split.
  - intros [H|(e & He & H)].
    + exists 0. split; [lia|]. left. now apply written_iff.
    + apply in_seq in He. exists e. split; [lia|]. unfold epoch_writes in H. apply in_app_or in H. destruct H as [H|[<-|[]]].
      * left. apply written_iff in H. replace (negb (Nat.eqb e 0)) with true; [exact H|]. destruct e; [lia | reflexivity].
      * right. split; [lia | reflexivity].
  - intros (n & Hn & [H|(H1 & ->)]).
    + destruct n as [|n]; [left; now apply written_iff|]. right. exists (S n). split; [apply in_seq; lia|]. unfold epoch_writes. apply in_app_iff. left. now apply written_iff.
    + right. exists n. split; [apply in_seq; lia|]. unfold epoch_writes. apply in_app_iff. right. now left.
Qed.
(** Writes with the name of a file of one epoch. *)
Ltac apart E := exfalso; apply (f_equal first_part) in E;
  rewrite ?first_compare, ?first_hardness, ?first_curve, ?first_neurons, ?first_status, ?first_timing in E;
  first [ vm_compute in E; discriminate
        | match type of E with context [first_part (weights_name t ?Z ?m)] => destruct (first_weights t Z m okstage) as [X|X]; rewrite X in E; vm_compute in E; discriminate end
        | match type of E with context [compare_head ?b ?k] => destruct b, k; vm_compute in E; discriminate end
        | match type of E with context [first_part (weights_name t ?Z ?m)] => destruct (first_weights t Z m okstage) as [X|X]; rewrite X in E;
            match type of E with context [compare_head ?b ?k] => destruct b, k; vm_compute in E; discriminate end end ].
Lemma weights_content z n Z c : n <= z -> In Z zs ->
  content (weights_name t Z n) (total z) c = if due (t_weights t) n then Some [n] else c.
Proof.
  intros Hn HZ. assert (W : forall w, In w (total z) -> w_name w = weights_name t Z n -> w_append w = false /\ w_epoch w = n /\ due (t_weights t) n = true).
  { intros w Hw E. apply total_in in Hw. destruct Hw as (m & Hm & [Hw|(H1 & ->)]); [|cbn [w_name] in E; apart E].
    destruct Hw as [p tr Hp D|Z' HZ' D|Z' HZ' D E1 E2| |Z' HZ'|D]; cbn [w_name w_append w_epoch] in *; try (apart E).
    apply weights_name_inj in E. destruct E as (-> & ->). auto. }
  destruct (due (t_weights t) n) eqn:D.
  - apply content_once; [intros w Hw E; destruct (W w Hw E) as (A & B & _); auto|]. exists (mkWrite (weights_name t Z n) false n).
    split; [|reflexivity]. apply total_in. exists n. split; [exact Hn|]. left. now constructor.
  - apply content_none. intros w Hw E. destruct (W w Hw E) as (_ & _ & X). discriminate.
Qed.
Lemma hardness_content z n Z c : n <= z -> In Z zs ->
  content (hardness_name Z n) (total z) c = if (due (t_weights t) n && is_4G (t_nnp t) && Nat.eqb (t_stage t) 1)%bool then Some [n] else c.
Proof.
  intros Hn HZ. assert (W : forall w, In w (total z) -> w_name w = hardness_name Z n -> w_append w = false /\ w_epoch w = n /\ due (t_weights t) n = true /\ t_nnp t = HDNNP_4G /\ t_stage t = 1).
  { intros w Hw E. apply total_in in Hw. destruct Hw as (m & Hm & [Hw|(H1 & ->)]); [|cbn [w_name] in E; apart E].
    destruct Hw as [p tr Hp D|Z' HZ' D|Z' HZ' D E1 E2| |Z' HZ'|D]; cbn [w_name w_append w_epoch] in *; try (apart E).
    apply hardness_name_inj in E. destruct E as (-> & ->). auto. }
  destruct (due (t_weights t) n && is_4G (t_nnp t) && Nat.eqb (t_stage t) 1)%bool eqn:D.
  - apply andb_true_iff in D. destruct D as (D & D3). apply andb_true_iff in D. destruct D as (D1 & D2). apply Nat.eqb_eq in D3.
    assert (D4 : t_nnp t = HDNNP_4G) by (destruct (t_nnp t); [discriminate | reflexivity | discriminate] || (destruct (t_nnp t); cbn in D2; congruence)).
    apply content_once; [intros w Hw E; destruct (W w Hw E) as (A & B & _); auto|]. exists (mkWrite (hardness_name Z n) false n).
    split; [|reflexivity]. apply total_in. exists n. split; [exact Hn|]. left. now constructor.
  - apply content_none. intros w Hw E. destruct (W w Hw E) as (_ & _ & X1 & X2 & X3). rewrite X1, X2, X3 in D. discriminate.
Qed.
Lemma compare_content z n b p c : n <= z -> In p (t_props t) -> NoDup (map tr_key (t_props t)) ->
  content (compare_name b (tr_key p) n) (total z) c = if due (tr_every p, tr_always p) n then Some [n] else c.
Proof.
  intros Hn Hp N. assert (W : forall w, In w (total z) -> w_name w = compare_name b (tr_key p) n -> w_append w = false /\ w_epoch w = n /\ due (tr_every p, tr_always p) n = true).
  { intros w Hw E. apply total_in in Hw. destruct Hw as (m & Hm & [Hw|(H1 & ->)]); [|cbn [w_name] in E; apart E].
    destruct Hw as [p' tr Hp' D|Z' HZ' D|Z' HZ' D E1 E2| |Z' HZ'|D]; cbn [w_name w_append w_epoch] in *; try (apart E).
    apply compare_name_inj in E. destruct E as (_ & K & ->). assert (p' = p); [|subst; auto].
    clear - Hp Hp' K N. induction (t_props t) as [|q l IH]; [destruct Hp|]. inversion N as [|? ? N1 N2]; subst.
    destruct Hp as [->|Hp], Hp' as [->|Hp']; auto; exfalso; apply N1; [rewrite <- K | rewrite K]; now apply in_map. }
  destruct (due (tr_every p, tr_always p) n) eqn:D.
  - apply content_once; [intros w Hw E; destruct (W w Hw E) as (A & B & _); auto|]. exists (mkWrite (compare_name b (tr_key p) n) false n).
    split; [|reflexivity]. apply total_in. exists n. split; [exact Hn|]. left. now constructor.
  - apply content_none. intros w Hw E. destruct (W w Hw E) as (_ & _ & X). discriminate.
Qed.
Lemma neurons_content z n c : n <= z -> content (neurons_name t n) (total z) c = if due (t_neurons t) n then Some [n] else c.
Proof.
  intros Hn. assert (W : forall w, In w (total z) -> w_name w = neurons_name t n -> w_append w = false /\ w_epoch w = n /\ due (t_neurons t) n = true).
  { intros w Hw E. apply total_in in Hw. destruct Hw as (m & Hm & [Hw|(H1 & ->)]); [|cbn [w_name] in E; apart E].
    destruct Hw as [p tr Hp D|Z' HZ' D|Z' HZ' D E1 E2| |Z' HZ'|D]; cbn [w_name w_append w_epoch] in *; try (apart E).
    apply neurons_name_inj in E. subst. auto. }
  destruct (due (t_neurons t) n) eqn:D.
  - apply content_once; [intros w Hw E; destruct (W w Hw E) as (A & B & _); auto|]. exists (mkWrite (neurons_name t n) false n).
    split; [|reflexivity]. apply total_in. exists n. split; [exact Hn|]. left. now constructor.
  - apply content_none. intros w Hw E. destruct (W w Hw E) as (_ & _ & X). discriminate.
Qed.

(** Files that grow with the epochs. *)
Lemma growing N first z : (forall c, content N (epochFiles zs t false 0) c = first c) ->
  (forall e c, content N (epoch_writes zs t (S e)) c = Some (match c with Some l => l | None => [] end ++ [S e])) ->
  forall c, content N (total z) c = match z with 0 => first c | S _ => Some (match first c with Some l => l | None => [] end ++ seq 1 z) end.
Proof.
  intros A B c. unfold total, writes_at. rewrite content_app, A. generalize (first c) as d. clear c A. intro d.
  induction z as [|z IH]; [reflexivity|]. rewrite seq_S_r, flat_map_app, content_app, IH. cbn [flat_map]. rewrite app_nil_r, B.
  destruct z; [reflexivity|]. f_equal. rewrite <- app_assoc. f_equal.
Qed.
Lemma curve_content z c : content (curve_name t) (total z) c = Some (seq 0 (S z)).
Proof.
  assert (F : forall b e, filter (fun w => str_eqb (w_name w) (curve_name t)) (epochFiles zs t b e) = [mkWrite (curve_name t) b e]).
  { intros b e. unfold epochFiles. rewrite !filter_app.
    rewrite (filter_none _ (compareFiles (t_props t) e)).
    2: { intros w Hw E. unfold compareFiles in Hw; apply in_flat_map in Hw; destruct Hw as (p & _ & Hw); destruct (due (tr_every p, tr_always p) e); [|destruct Hw];
         rewrite compare_names_eq in Hw; destruct Hw as [<-|[<-|[]]]; cbn [w_name] in E; apart E. }
    rewrite (filter_none _ (writeWeightsEpoch zs t e)).
    2: { intros w Hw E. unfold writeWeightsEpoch in Hw; destruct (due (t_weights t) e); [|destruct Hw]; apply in_map_iff in Hw; destruct Hw as (Z' & <- & _); cbn [w_name] in E; apart E. }
    rewrite (filter_none _ (writeHardnessEpoch zs t e)).
    2: { intros w Hw E. unfold writeHardnessEpoch in Hw; destruct (due (t_weights t) e && is_4G (t_nnp t) && Nat.eqb (t_stage t) 1)%bool; [|destruct Hw]; apply in_map_iff in Hw; destruct Hw as (Z' & <- & _); cbn [w_name] in E; apart E. }
    rewrite (filter_none _ (writeUpdaterStatus zs t b e)).
    2: { intros w Hw E. unfold writeUpdaterStatus in Hw; apply in_map_iff in Hw; destruct Hw as (Z & <- & _); cbn [w_name] in E; apart E. }
    rewrite (filter_none _ (writeNeuronStatisticsEpoch t e)).
    2: { intros w Hw E. unfold writeNeuronStatisticsEpoch in Hw; destruct (due (t_neurons t) e); [|destruct Hw]; destruct Hw as [<-|[]]; cbn [w_name] in E; apart E. }
    cbn [app writeLearningCurve filter w_name]. now rewrite StringProofs.str_eqb_refl. }
  rewrite (growing _ (fun _ => Some [0])).
  - destruct z; reflexivity.
  - intro d. rewrite content_filter, F. unfold content, after. cbn [fold_left w_name w_append w_epoch]. now rewrite StringProofs.str_eqb_refl.
  - intros e d. rewrite content_filter. unfold epoch_writes. rewrite filter_app, F.
    assert (T : filter (fun w => str_eqb (w_name w) (curve_name t)) [mkWrite (timing_name t) (negb (Nat.eqb (S e) 1)) (S e)] = []).
    { apply filter_none. intros w [<-|[]] E. cbn [w_name] in E. apart E. }
    rewrite T. unfold content, after. cbn [app fold_left w_name w_append w_epoch]. now rewrite StringProofs.str_eqb_refl.
Qed.
Lemma timing_content z c : 1 <= z -> content (timing_name t) (total z) c = Some (seq 1 z).
Proof.
  intro Hz. assert (F : forall b e d, content (timing_name t) (epochFiles zs t b e) d = d).
  { intros b e d. apply content_none. intros w Hw E. apply written_iff in Hw.
    destruct Hw as [p tr Hp D|Z' HZ' D|Z' HZ' D E1 E2| |Z' HZ'|D]; cbn [w_name] in E; apart E. }
  unfold total, writes_at. rewrite content_app, F.
  induction z as [|z IH]; [lia|]. rewrite seq_S_r, flat_map_app, content_app. cbn [flat_map]. rewrite app_nil_r. unfold epoch_writes at 1.
  rewrite content_app, F. unfold content at 1, after. cbn [fold_left w_name w_append w_epoch]. rewrite StringProofs.str_eqb_refl.
  destruct z as [|z]; [reflexivity|]. rewrite IH by lia. reflexivity.
Qed.
Lemma filter_map_one (N : str) b e l Z : NoDup l -> In Z l -> (forall Z', In Z' l -> status_name t Z' = N -> Z' = Z) -> status_name t Z = N ->
  filter (fun w => str_eqb (w_name w) N) (map (fun Z => mkWrite (status_name t Z) b e) l) = [mkWrite N b e].
Proof.
  intros ND HZ I E. induction l as [|Z0 l IH]; [destruct HZ|]. apply NoDup_cons_iff in ND. destruct ND as (N1 & N2). subst N. cbn [map filter w_name].
  destruct (str_eqb (status_name t Z0) (status_name t Z)) eqn:X.
  - apply StringProofs.str_eqb_true in X. pose proof (I Z0 (or_introl eq_refl) X) as Y. subst Z0. f_equal. apply filter_none. intros w Hw Ew.
    apply in_map_iff in Hw. destruct Hw as (Z1 & <- & H1). cbn in Ew. pose proof (I Z1 (or_intror H1) Ew) as Y. subst Z1. contradiction.
  - destruct HZ as [->|HZ]; [rewrite StringProofs.str_eqb_refl in X; discriminate|]. apply IH; auto. intros Z' H' E'. apply I; [now right | exact E'].
Qed.
Lemma status_content z c Z : NoDup zs -> In Z (match t_strategy t with US_COMBINED => [0] | US_ELEMENT => zs end) ->
  content (status_name t Z) (total z) c = Some (seq 0 (S z)).
Proof.
  intros ND HZ. set (N := status_name t Z).
  assert (Fn : first_part N = lit "updater") by apply first_status.
  assert (F : forall b e, filter (fun w => str_eqb (w_name w) N) (epochFiles zs t b e) = [mkWrite N b e]).
  { intros b e. unfold epochFiles. rewrite !filter_app.
    rewrite (filter_none N (compareFiles (t_props t) e)).
    2: { intros w Hw E. unfold compareFiles in Hw; apply in_flat_map in Hw; destruct Hw as (p & _ & Hw); destruct (due (tr_every p, tr_always p) e); [|destruct Hw];
         rewrite compare_names_eq in Hw; destruct Hw as [<-|[<-|[]]]; cbn [w_name] in E; unfold N in E; apart E. }
    rewrite (filter_none N (writeWeightsEpoch zs t e)).
    2: { intros w Hw E. unfold writeWeightsEpoch in Hw; destruct (due (t_weights t) e); [|destruct Hw]; apply in_map_iff in Hw; destruct Hw as (Z' & <- & _); cbn [w_name] in E; unfold N in E; apart E. }
    rewrite (filter_none N (writeHardnessEpoch zs t e)).
    2: { intros w Hw E. unfold writeHardnessEpoch in Hw; destruct (due (t_weights t) e && is_4G (t_nnp t) && Nat.eqb (t_stage t) 1)%bool; [|destruct Hw]; apply in_map_iff in Hw; destruct Hw as (Z' & <- & _); cbn [w_name] in E; unfold N in E; apart E. }
    rewrite (filter_none N (writeLearningCurve t b e)).
    2: { intros w [<-|[]] E. cbn [w_name] in E; unfold N in E; apart E. }
    rewrite (filter_none N (writeNeuronStatisticsEpoch t e)).
    2: { intros w Hw E. unfold writeNeuronStatisticsEpoch in Hw; destruct (due (t_neurons t) e); [|destruct Hw]; destruct Hw as [<-|[]]; cbn [w_name] in E; unfold N in E; apart E. }
    rewrite app_nil_r. cbn [app]. unfold writeUpdaterStatus. apply (filter_map_one N b e _ Z); auto.
    - destruct (t_strategy t); [repeat constructor; intros [] | exact ND].
    - intros Z' H' E'. destruct (t_strategy t) eqn:Es; [|now apply (status_name_inj t Z' Z Es)]. destruct HZ as [<-|[]], H' as [<-|[]]. reflexivity. }
  rewrite (growing _ (fun _ => Some [0])).
  - destruct z; reflexivity.
  - intro d. rewrite content_filter, F. unfold content, after. cbn [fold_left w_name w_append w_epoch]. now rewrite StringProofs.str_eqb_refl.
  - intros e d. rewrite content_filter. unfold epoch_writes. rewrite filter_app, F.
    assert (T : filter (fun w => str_eqb (w_name w) N) [mkWrite (timing_name t) (negb (Nat.eqb (S e) 1)) (S e)] = []).
    { apply filter_none. intros w [<-|[]] E. cbn [w_name] in E. unfold N in E. apart E. }
    rewrite T. unfold content, after. cbn [app fold_left w_name w_append w_epoch]. now rewrite StringProofs.str_eqb_refl.
Qed.
End Files.
