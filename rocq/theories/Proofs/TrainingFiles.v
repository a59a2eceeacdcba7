(** Names and contents of the files written in the training loop (C82). *)
From Coq Require Import Reals ZArith Lia Ascii String Bool Arith Permutation.
From Coq Require Import List.
From Verif Require Import Base.AssocMap Model.Strings Model.Printf Model.Settings Model.SymLines Model.NetworkSetup Model.DataFiles
  Model.Updaters Model.Selection Model.UpdatePlan Model.TrainingSetup Spec.TrainingSpec
  Proofs.StringProofs Proofs.PrintfProofs Proofs.DataFilesText Proofs.SymLineProofs Proofs.NetworkSetupProofs Proofs.TrainingSchedule Proofs.TrainingSelection
  Proofs.TrainingLoop.
Import ListNotations.
Local Open Scope nat_scope.

Definition dot : ascii := "."%char.
(** ** Names *)
Definition decode (s : str) : Z := fold_left (fun a c => 10 * a + digit_value c)%Z s 0%Z.
Lemma decode_print n : decode (print_d n) = Z.of_nat n.
Proof.
  destruct (digits_of n) as (k & -> & L & _ & _). unfold decode. rewrite fold_decimals by lia. rewrite Z.mod_small by lia. lia.
Qed.
Lemma decode_zeros k s : decode (repeat "0"%char k ++ s) = decode s.
Proof.
  unfold decode. rewrite fold_left_app. f_equal. induction k as [|k IH]; [reflexivity|]. cbn [repeat fold_left]. exact IH.
Qed.
Lemma fmt_0_inj w n n' : fmt_0 w n = fmt_0 w n' -> n = n'.
Proof.
  assert (D : forall m, decode (fmt_0 w m) = Z.of_nat m).
  { intro m. unfold fmt_0, pad. destruct (Nat.leb w (List.length (print_d m))); [apply decode_print|].
    rewrite decode_zeros. apply decode_print. }
  intro H. apply (f_equal decode) in H. rewrite !D in H. lia.
Qed.
Lemma digit_not_dot d : (0 <= d < 10)%Z -> digit d <> dot.
Proof.
  intro H. assert (C : d = 0%Z \/ d = 1%Z \/ d = 2%Z \/ d = 3%Z \/ d = 4%Z \/ d = 5%Z \/ d = 6%Z \/ d = 7%Z \/ d = 8%Z \/ d = 9%Z) by lia.
  repeat (destruct C as [->|C]; [vm_compute; discriminate|]). subst d. vm_compute. discriminate.
Qed.
Lemma fmt_0_no_dot w n : ~ In dot (fmt_0 w n).
Proof.
  assert (P : ~ In dot (print_d n)).
  { destruct (digits_of n) as (k & -> & _). intro H. apply decimals_digits in H. destruct H as (d & R & E). symmetry in E. revert E. now apply digit_not_dot. }
  unfold fmt_0, pad. destruct (Nat.leb w (List.length (print_d n))); [exact P|]. cbn.
  intro H. apply in_app_or in H. destruct H as [H|H]; [|now apply P]. apply repeat_spec in H. discriminate.
Qed.
Lemma cut a : forall a' b b', ~ In dot a -> ~ In dot a' -> a ++ dot :: b = a' ++ dot :: b' -> a = a' /\ b = b'.
Proof.
  induction a as [|c a IH]; intros a' b b' A A' E; destruct a' as [|c' a']; cbn in E.
  - injection E as E. auto.
  - exfalso. injection E as E1 E2. apply A'. left. now symmetry.
  - exfalso. injection E as E1 E2. apply A. now left.
  - injection E as E1 E2. subst c'. destruct (IH a' b b') as (-> & ->); auto; intro I; [apply A | apply A']; now right.
Qed.
Fixpoint first_part (s : str) : str := match s with [] => [] | c :: s => if Ascii.eqb c dot then [] else c :: first_part s end.
Definition numbered_pair (a b : nat) (rest : str) : str := fmt_0 3 a ++ dot :: fmt_0 6 b ++ dot :: rest.
Lemma numbered_inj a b r a' b' r' : numbered_pair a b r = numbered_pair a' b' r' -> a = a' /\ b = b'.
Proof.
  intro H. apply cut in H; try apply fmt_0_no_dot. destruct H as (H1 & H2). apply cut in H2; try apply fmt_0_no_dot. destruct H2 as (H2 & _).
  split; eapply fmt_0_inj; eauto.
Qed.

Definition head_of (t : training) : str :=
  if (is_2G (t_nnp t) || Nat.eqb (t_stage t) 2)%bool then lit "weights" else if Nat.eqb (t_stage t) 1 then lit "weightse" else [].
Lemma weights_name_inj t Z n Z' n' : weights_name t Z n = weights_name t Z' n' -> Z = Z' /\ n = n'.
Proof. intro H. unfold weights_name in H. apply app_inv_head in H. apply (app_inv_head (lit ".")) in H. exact (numbered_inj _ _ _ _ _ _ H). Qed.
Lemma hardness_name_inj Z n Z' n' : hardness_name Z n = hardness_name Z' n' -> Z = Z' /\ n = n'.
Proof. intro H. unfold hardness_name in H. apply (app_inv_head (lit "hardness.")) in H. exact (numbered_inj _ _ _ _ _ _ H). Qed.
Lemma neurons_name_inj t n n' : neurons_name t n = neurons_name t n' -> n = n'.
Proof.
  intro H. unfold neurons_name in H. apply app_inv_head in H. apply app_inv_head in H. apply app_inv_head in H.
  apply (cut (fmt_0 6 n) (fmt_0 6 n') (lit "out" ++ stage_suffix t) (lit "out" ++ stage_suffix t)) in H; try apply fmt_0_no_dot.
  eapply fmt_0_inj; apply H.
Qed.
Lemma status_name_inj t Z Z' : t_strategy t = US_ELEMENT -> status_name t Z = status_name t Z' -> Z = Z'.
Proof.
  intros E H. unfold status_name in H. rewrite E in H. apply app_inv_head in H.
  apply (cut (fmt_0 3 Z) (fmt_0 3 Z') (lit "out" ++ stage_suffix t) (lit "out" ++ stage_suffix t)) in H; try apply fmt_0_no_dot.
  eapply fmt_0_inj; apply H.
Qed.
Definition compare_head (train : bool) (k : property) : string :=
  match train, k with
  | true, Energy => "trainpoints" | true, Force => "trainforces" | true, Charge => "traincharges"
  | false, Energy => "testpoints" | false, Force => "testforces" | false, Charge => "testcharges"
  end.
Definition compare_name (train : bool) (k : property) (n : nat) : str := lit (compare_head train k) ++ lit "." ++ fmt_0 6 n ++ lit ".out".
Lemma compare_names_eq k n : compare_names k n = [compare_name true k n; compare_name false k n].
Proof. destruct k; reflexivity. Qed.
Lemma first_compare b k n : first_part (compare_name b k n) = lit (compare_head b k).
Proof. destruct b, k; reflexivity. Qed.
Lemma compare_name_inj b k n b' k' n' : compare_name b k n = compare_name b' k' n' -> b = b' /\ k = k' /\ n = n'.
Proof.
  intro H. assert (F := f_equal first_part H). rewrite !first_compare in F.
  assert (E : b = b' /\ k = k') by (destruct b, k, b', k'; vm_compute in F; first [split; reflexivity | discriminate]).
  destruct E as (-> & ->). unfold compare_name in H. apply app_inv_head in H. apply (app_inv_head (lit ".")) in H.
  apply (cut (fmt_0 6 n) (fmt_0 6 n') (lit "out") (lit "out")) in H; try apply fmt_0_no_dot. split; [reflexivity|]. split; [reflexivity|].
  eapply fmt_0_inj; apply H.
Qed.
Lemma first_weights t Z n : t_nnp t = HDNNP_2G \/ t_stage t = 1 \/ t_stage t = 2 ->
  first_part (weights_name t Z n) = lit "weights" \/ first_part (weights_name t Z n) = lit "weightse".
Proof.
  intro H. unfold weights_name. destruct (is_2G (t_nnp t) || Nat.eqb (t_stage t) 2)%bool eqn:E; [now left|].
  destruct (Nat.eqb_spec (t_stage t) 1) as [_|D]; [now right|]. exfalso.
  apply orb_false_iff in E. destruct E as (E1 & E2). apply Nat.eqb_neq in E2. destruct H as [H|[H|H]]; [rewrite H in E1; discriminate | congruence | congruence].
Qed.
Lemma first_hardness Z n : first_part (hardness_name Z n) = lit "hardness". Proof. reflexivity. Qed.
Lemma first_curve t : first_part (curve_name t) = lit "learning-curve". Proof. reflexivity. Qed.
Lemma first_neurons t n : first_part (neurons_name t n) = lit "neuron-stats". Proof. reflexivity. Qed.
Lemma first_status t Z : first_part (status_name t Z) = lit "updater". Proof. reflexivity. Qed.
Lemma first_timing t : first_part (timing_name t) = lit "timing". Proof. reflexivity. Qed.

(** ** Contents *)
Definition after (N : str) (c : option (list nat)) (w : write) : option (list nat) :=
  if str_eqb (w_name w) N then Some (if w_append w then match c with Some l => l | None => [] end ++ [w_epoch w] else [w_epoch w]) else c.
Definition content (N : str) (ws : list write) (c : option (list nat)) : option (list nat) := fold_left (after N) ws c.
Lemma disk_content N ws : forall f, mget str_eqb N (write_files ws f) = content N ws (mget str_eqb N f).
Proof.
  induction ws as [|w ws IH]; intro f; [reflexivity|]. unfold write_files, content in *. cbn [fold_left]. rewrite IH. f_equal.
  unfold write_file, after. destruct (str_eqb (w_name w) N) eqn:E.
  - apply str_eqb_true in E. subst N. destruct (w_append w); apply mget_mset_same; apply str_eqb_true.
  - assert (D : w_name w <> N) by (intro X; apply str_eqb_true in X; congruence).
    destruct (w_append w); apply mget_mset_other; try apply str_eqb_true; congruence.
Qed.
Lemma content_app N a b c : content N (a ++ b) c = content N b (content N a c).
Proof. apply fold_left_app. Qed.
Lemma content_none N ws : (forall w, In w ws -> w_name w <> N) -> forall c, content N ws c = c.
Proof.
  intro H. induction ws as [|w ws IH]; intro c; [reflexivity|]. unfold content in *. cbn [fold_left].
  assert (D : after N c w = c). { unfold after. destruct (str_eqb (w_name w) N) eqn:E; [|reflexivity]. apply str_eqb_true in E. exfalso. apply (H w); [now left | exact E]. }
  rewrite D. apply IH. intros v Hv. apply H. now right.
Qed.
Lemma content_once N n ws : (forall w, In w ws -> w_name w = N -> w_append w = false /\ w_epoch w = n) ->
  (exists w, In w ws /\ w_name w = N) -> forall c, content N ws c = Some [n].
Proof.
  assert (G : forall ws, (forall w, In w ws -> w_name w = N -> w_append w = false /\ w_epoch w = n) -> forall c,
    content N ws c = c \/ content N ws c = Some [n]).
  { induction ws0 as [|w ws0 IH]; intros H c; [now left|]. unfold content in *. cbn [fold_left]. specialize (IH (fun v Hv => H v (or_intror Hv))).
    unfold after at 2 4. destruct (str_eqb (w_name w) N) eqn:E; [|apply IH]. apply str_eqb_true in E.
    destruct (H w (or_introl eq_refl) E) as (-> & ->). destruct (IH (Some [n])) as [-> | ->]; now right. }
  induction ws as [|w ws IH]; intros H (v & Hv & Ev) c; [destruct Hv|]. unfold content in *. cbn [fold_left].
  destruct Hv as [->|Hv].
  - unfold after at 2. rewrite (proj2 (str_eqb_true _ _) Ev). destruct (H v (or_introl eq_refl) Ev) as (-> & ->).
    destruct (G ws (fun u Hu => H u (or_intror Hu)) (Some [n])) as [X|X]; exact X.
  - apply IH; [intros u Hu; apply H; now right | now exists v].
Qed.
Lemma content_filter N ws : forall c, content N ws c = content N (filter (fun w => str_eqb (w_name w) N) ws) c.
Proof.
  induction ws as [|w ws IH]; intro c; [reflexivity|]. unfold content in *. cbn [fold_left filter].
  destruct (str_eqb (w_name w) N) eqn:E; cbn [fold_left]; rewrite IH; [reflexivity|]. unfold after at 2. now rewrite E.
Qed.
Lemma filter_none N ws : (forall w, In w ws -> w_name w <> N) -> filter (fun w => str_eqb (w_name w) N) ws = [].
Proof.
  intro H. induction ws as [|w ws IH]; [reflexivity|]. cbn. destruct (str_eqb (w_name w) N) eqn:E.
  - apply str_eqb_true in E. exfalso. apply (H w); [now left | exact E].
  - apply IH. intros v Hv. apply H. now right.
Qed.

(** ** What an epoch writes *)
Section Epoch.
Variables (zs : list nat) (t : training).
Inductive written (b : bool) (e : nat) : write -> Prop :=
| W_compare p tr : In p (t_props t) -> due (tr_every p, tr_always p) e = true -> written b e (mkWrite (compare_name tr (tr_key p) e) false e)
| W_weights Z : In Z zs -> due (t_weights t) e = true -> written b e (mkWrite (weights_name t Z e) false e)
| W_hardness Z : In Z zs -> due (t_weights t) e = true -> t_nnp t = HDNNP_4G -> t_stage t = 1 -> written b e (mkWrite (hardness_name Z e) false e)
| W_curve : written b e (mkWrite (curve_name t) b e)
| W_status Z : In Z (match t_strategy t with US_COMBINED => [0] | US_ELEMENT => zs end) -> written b e (mkWrite (status_name t Z) b e)
| W_neurons : due (t_neurons t) e = true -> written b e (mkWrite (neurons_name t e) false e).
Lemma written_iff b e w : In w (epochFiles zs t b e) <-> written b e w.
Proof.
  unfold epochFiles. rewrite !in_app_iff. split.
  - intros [H|[H|[H|[H|[H|H]]]]].
    + unfold compareFiles in H. apply in_flat_map in H. destruct H as (p & Hp & H). destruct (due (tr_every p, tr_always p) e) eqn:D; [|destruct H].
      rewrite compare_names_eq in H. destruct H as [<-|[<-|[]]]; now constructor.
    + unfold writeWeightsEpoch in H. destruct (due (t_weights t) e) eqn:D; [|destruct H]. apply in_map_iff in H. destruct H as (Z & <- & HZ). now constructor.
    + unfold writeHardnessEpoch in H. destruct (due (t_weights t) e) eqn:D; [|destruct H]. destruct (t_nnp t) eqn:EN; try now destruct H. cbn [is_4G andb] in H.
      destruct (Nat.eqb_spec (t_stage t) 1); [|destruct H]. apply in_map_iff in H. destruct H as (Z & <- & HZ). now constructor.
    + destruct H as [<-|[]]. constructor.
    + unfold writeUpdaterStatus in H. apply in_map_iff in H. destruct H as (Z & <- & HZ). now constructor.
    + unfold writeNeuronStatisticsEpoch in H. destruct (due (t_neurons t) e) eqn:D; [|destruct H]. destruct H as [<-|[]]. now constructor.
  - intros [p tr Hp D|Z HZ D|Z HZ D E1 E2| |Z HZ|D].
    + left. unfold compareFiles. apply in_flat_map. exists p. split; [exact Hp|]. rewrite D, compare_names_eq. destruct tr; cbn; auto.
    + right. left. unfold writeWeightsEpoch. rewrite D. apply in_map_iff. eauto.
    + right. right. left. unfold writeHardnessEpoch. rewrite D, E1, E2. cbn. apply in_map_iff. eauto.
    + right. right. right. left. now left.
    + right. right. right. right. left. apply in_map_iff. eauto.
    + right. right. right. right. right. unfold writeNeuronStatisticsEpoch. rewrite D. now left.
Qed.
End Epoch.
