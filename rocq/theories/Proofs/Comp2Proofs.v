(** The comparison tool (C104). *)
From Coq Require Import Reals Lra Lia ZArith List Arith Bool Ascii String.
From Coq Require Import List.
From Verif Require Import Base.Vec3 Base.SumR Model.Strings Model.Settings Model.SymLines Model.Comp2 Spec.Comp2Spec Spec.NormalizationSpec.
From Coq Require Import List.
Import ListNotations.
Local Open Scope R_scope.

(** ** Pairs *)
Lemma filter_none {A} (p : A -> bool) l : (forall x, In x l -> p x = false) -> filter p l = [].
Proof. induction l as [|a l IH]; intros H; auto. cbn. rewrite (H a) by now left. apply IH. intros; apply H; now right. Qed.
Lemma filter_every {A} (p : A -> bool) l : (forall x, In x l -> p x = true) -> filter p l = l.
Proof. induction l as [|a l IH]; intros H; auto. cbn. rewrite (H a) by now left. f_equal. apply IH. intros; apply H; now right. Qed.
Lemma div_low w r : (r < w)%nat -> (r / w = 0)%nat.
Proof. apply Nat.div_small. Qed.
Lemma div_high w r : (r < w)%nat -> ((w + r) / w = 1)%nat.
Proof. intros H. replace (w + r)%nat with (r + 1 * w)%nat by lia. rewrite Nat.div_add by lia. rewrite Nat.div_small; lia. Qed.
Lemma rank_low w r : (r < w)%nat -> myRankNNP w r = r.
Proof.
  intros H. unfold myRankNNP, split_rank. rewrite filter_every, seq_length; auto.
  intros x I. apply in_seq in I. unfold myNNP. rewrite !div_low by lia. reflexivity.
Qed.
Lemma rank_high w r : (r < w)%nat -> myRankNNP w (w + r) = r.
Proof.
  intros H. unfold myRankNNP, split_rank. rewrite seq_app, filter_app, filter_none, filter_every; cbn [app].
  - apply seq_length.
  - intros x I. apply in_seq in I. unfold myNNP. replace x with (w + (x - w))%nat by lia. rewrite !div_high by lia. reflexivity.
  - intros x I. apply in_seq in I. unfold myNNP. rewrite (div_low w x), (div_high w r) by lia. reflexivity.
Qed.
Lemma data_low w r : (r < w)%nat -> myData w r = r.
Proof. intros H. unfold myData. rewrite rank_low by auto. now apply Nat.mod_small. Qed.
Lemma data_high w r : (r < w)%nat -> myData w (w + r) = r.
Proof. intros H. unfold myData. rewrite rank_high by auto. now apply Nat.mod_small. Qed.
Lemma seq_cut r n : (r < n)%nat -> seq 0 n = seq 0 r ++ r :: seq (S r) (n - S r).
Proof. intros H. replace n with (r + S (n - S r))%nat at 1 by lia. rewrite seq_app. reflexivity. Qed.
Lemma pairs_ok w r : (r < w)%nat ->
  myNNP w r = 0%nat /\ myRankNNP w r = r /\ myRankData w r = 0%nat /\
  myNNP w (w + r) = 1%nat /\ myRankNNP w (w + r) = r /\ myRankData w (w + r) = 1%nat /\
  forall r', (r' < 2 * w)%nat -> (myData w r' = myData w r <-> r' = r \/ r' = (w + r)%nat).
Proof.
  intros H. split; [now apply div_low|]. split; [now apply rank_low|]. split; [|split; [now apply div_high|split; [now apply rank_high|split]]].
  - unfold myRankData, split_rank. rewrite filter_none; auto. intros x I. apply in_seq in I. rewrite !data_low by lia. apply Nat.eqb_neq. lia.
  - unfold myRankData, split_rank. rewrite data_high by auto. rewrite seq_app, filter_app, (filter_none _ (seq (0 + w) r)).
    + rewrite app_nil_r, (seq_cut r w) by auto. rewrite filter_app, filter_none; cbn [app filter].
      * rewrite data_low, Nat.eqb_refl by auto. rewrite filter_none; auto. intros x I. apply in_seq in I. rewrite data_low by lia. apply Nat.eqb_neq. lia.
      * intros x I. apply in_seq in I. rewrite data_low by lia. apply Nat.eqb_neq. lia.
    + intros x I. apply in_seq in I. replace x with (w + (x - w))%nat by lia. rewrite data_high by lia. apply Nat.eqb_neq. lia.
  - intros r' H'. rewrite (data_low w r) by auto. destruct (Nat.lt_ge_cases r' w).
    + rewrite data_low by auto. lia.
    + replace r' with (w + (r' - w))%nat at 1 by lia. rewrite data_high by lia. lia.
Qed.

(** ** Differences *)
Definition flat (l : list vec) : list R := flat_map (fun v => [vx v; vy v; vz v]) l.
Definition largest (l : list R) : R := fold_left Rmax l 0.
Lemma fold_max_le l : forall m x, x <= m \/ In x l -> x <= fold_left Rmax l m.
Proof.
  induction l as [|a l IH]; intros m x [H|H]; cbn [fold_left]; auto.
  - destruct H.
  - apply IH. left. apply Rle_trans with m; auto. apply Rmax_l.
  - destruct H as [->|H]; apply IH; [left; apply Rmax_r|now right].
Qed.
Lemma fold_max_in l : forall m, fold_left Rmax l m = m \/ In (fold_left Rmax l m) l.
Proof.
  induction l as [|a l IH]; intros m; cbn [fold_left]; [now left|].
  destruct (IH (Rmax m a)) as [E|I]; [|right; now right]. rewrite E. unfold Rmax. destruct (Rle_dec m a); [right; now left|now left].
Qed.
Lemma largest_is l : (forall x, In x l -> 0 <= x) -> is_largest l (largest l).
Proof.
  intros P. split; [intros x I; apply fold_max_le; now right|].
  destruct l as [|a l]; [right; auto|]. left. unfold largest. cbn [fold_left].
  assert (E : Rmax 0 a = a) by (apply Rmax_right, P; now left). rewrite E.
  destruct (fold_max_in l a) as [->|I]; [now left|now right].
Qed.
Lemma abs_nonneg l x : In x (abs_components l) -> 0 <= x.
Proof. intros I. apply in_flat_map in I as (v & _ & I). cbn in I. destruct I as [<-|[<-|[<-|[]]]]; apply Rabs_pos. Qed.
Lemma abs_app l l' : abs_components (l ++ l') = abs_components l ++ abs_components l'.
Proof. apply flat_map_app. Qed.
Lemma abs_length l : List.length (abs_components l) = (3 * List.length l)%nat.
Proof. induction l as [|v l IH]; [reflexivity|]. unfold abs_components in *. cbn [flat_map app List.length]. lia. Qed.

Definition diffs (atoms : list (vec * vec)) (other : list vec) : list vec := map (fun p => vsub (fst (fst p)) (snd p)) (combine atoms other).
Lemma diff_loop atoms : forall other done buf sum mx, List.length other = List.length atoms ->
  sum = rsum (abs_components done) -> mx = largest (abs_components done) ->
  foldo diffAtom atoms (flat other ++ buf, done, sum, mx) =
  Done (buf, done ++ diffs atoms other, rsum (abs_components (done ++ diffs atoms other)), largest (abs_components (done ++ diffs atoms other))).
Proof.
  induction atoms as [|a atoms IH]; intros [|v other] done buf sum mx L S M; cbn in L; try lia.
  - unfold diffs. cbn [foldo flat flat_map app combine map]. rewrite app_nil_r, S, M. reflexivity.
  - cbn [foldo]. unfold flat. cbn [flat_map app]. unfold diffAtom at 1. cbn [bindo]. fold (flat other).
    set (d := mkVec _ _ _). assert (Ed : d = vsub (fst a) v) by reflexivity.
    rewrite (IH other (done ++ [d])); [|lia| |].
    + unfold diffs. cbn [combine map fst snd]. rewrite <- Ed, <- !app_assoc. reflexivity.
    + rewrite abs_app, rsum_app, <- S. unfold abs_components, rsum. cbn. ring.
    + rewrite abs_app. unfold largest. rewrite fold_left_app. fold (largest (abs_components done)). rewrite <- M. reflexivity.
Qed.
Lemma to_size_INR n : to_size (INR n) = n.
Proof. unfold to_size. rewrite Int_part_INR. apply Nat2Z.id. Qed.
Lemma flat_send atoms : flat_map (fun a : vec * vec => [vx (fst a); vy (fst a); vz (fst a)]) atoms = flat (map fst atoms).
Proof. induction atoms as [|a l IH]; [reflexivity|]. cbn [flat_map map]. rewrite IH. reflexivity. Qed.
Lemma flat_length l : List.length (flat l) = (3 * List.length l)%nat.
Proof. induction l as [|v l IH]; [reflexivity|]. unfold flat in *. cbn [flat_map app List.length]. lia. Qed.
Lemma diffs_nth a b : List.length (re_atoms a) = List.length (re_atoms b) ->
  diffs (re_atoms a) (map fst (re_atoms b)) = map (fun p => vsub (fst (fst p)) (fst (snd p))) (combine (re_atoms a) (re_atoms b)).
Proof.
  generalize (re_atoms a), (re_atoms b). unfold diffs. induction l as [|x l IH]; intros [|y l'] H; cbn in H |- *; try lia; auto. f_equal. apply IH. lia.
Qed.
Lemma differences_ok s1 s2 : List.length (re_atoms s1) = List.length (re_atoms s2) ->
  exists d, compareStructure true s1 (sendBuffer true s2) = Done d /\
    di_ew1 d = re_ew s1 /\ di_ew2 d = re_ew s2 /\ di_ewSum d = (re_ew s1 + re_ew s2)%nat /\
    di_e1 d = re_energy s1 /\ di_e2 d = re_energy s2 /\ di_energyRef d = re_energy s1 - re_energy s2 /\
    di_fRef d = map (fun p => vsub (fst (fst p)) (fst (snd p))) (combine (re_atoms s1) (re_atoms s2)) /\
    di_mean d = mean (abs_components (di_fRef d)) /\ is_largest (abs_components (di_fRef d)) (di_max d).
Proof.
  intros L. unfold compareStructure, sendBuffer, receiveBuffer. rewrite flat_send.
  set (M := re_energy s2 :: INR (re_ew s2) :: flat (map fst (re_atoms s2))).
  assert (LM : List.length M = (2 + 3 * List.length (re_atoms s1))%nat) by (unfold M; cbn [List.length]; rewrite flat_length, map_length; lia).
  rewrite LM, Nat.ltb_irrefl, Nat.sub_diag. cbn [repeat bindo]. rewrite app_nil_r. unfold M.
  rewrite <- (app_nil_r (flat (map fst (re_atoms s2)))).
  rewrite (diff_loop (re_atoms s1) (map fst (re_atoms s2)) [] [] 0 0) by (rewrite ?map_length; auto; reflexivity).
  cbn [bindo fst snd app]. eexists. split; [reflexivity|]. cbn [di_ew1 di_ew2 di_ewSum di_e1 di_e2 di_energyRef di_fRef di_mean di_max].
  rewrite to_size_INR, diffs_nth by auto. repeat (split; [reflexivity|]). split.
  - unfold mean. rewrite abs_length, map_length, combine_length, <- L, Nat.min_id. reflexivity.
  - apply largest_is. apply abs_nonneg.
Qed.
Lemma no_forces s1 s2 : exists d, compareStructure false s1 (sendBuffer false s2) = Done d /\
  di_ew2 d = re_ew s2 /\ di_energyRef d = re_energy s1 - re_energy s2 /\ di_mean d = 0 /\ di_max d = 0 /\ di_fRef d = map snd (re_atoms s1).
Proof.
  unfold compareStructure, sendBuffer, receiveBuffer. cbn. eexists. split; [reflexivity|]. cbn. rewrite to_size_INR. repeat split; reflexivity.
Qed.
Definition one_atom (e x : R) : result := mkResult e 0 [(mkVec x 0 0, mkVec 7 0 0)].
Lemma one_sided : exists s1 s2 d, re_atoms s1 = re_atoms s2 /\ re_energy s1 = re_energy s2 /\
  compareStructure true s1 (sendBuffer false s2) = Done d /\ 0 < di_max d.
Proof.
  exists (one_atom 1 3), (one_atom 1 3). eexists. split; [reflexivity|]. split; [reflexivity|]. split; [reflexivity|].
  cbn. rewrite !Rminus_0_r, Rabs_R0, (Rabs_right 3) by lra. unfold Rmax. repeat destruct (Rle_dec _ _); lra.
Qed.
Lemma reference_forces_written : exists s1 s2 d, re_atoms s1 = re_atoms s2 /\
  compareStructure false s1 (sendBuffer false s2) = Done d /\ force_differs 1 (mkCE (di_ewSum d) (di_energyRef d) (di_fRef d)).
Proof.
  exists (one_atom 1 3), (one_atom 1 3). eexists. split; [reflexivity|]. split; [reflexivity|]. split; [lra|].
  exists (Rabs 7). split; [left; reflexivity|]. rewrite Rabs_right; lra.
Qed.

(** ** Selection *)
Lemma larger_iff a b : larger a b = true <-> b < a.
Proof. unfold larger. destruct (Rlt_dec b a); split; intros; auto; discriminate. Qed.
Lemma ew_iff t s : ewFlag t s = true <-> many_warnings t s.
Proof. unfold ewFlag, many_warnings. rewrite andb_true_iff, Nat.ltb_lt, Nat.leb_le. reflexivity. Qed.
Lemma energy_iff t s : energyFlag t s = true <-> energy_differs t s.
Proof. unfold energyFlag, energy_differs. rewrite andb_true_iff, !larger_iff. reflexivity. Qed.
Lemma force_iff t s : forceFlag t s = true <-> force_differs t s.
Proof.
  unfold forceFlag, force_differs. rewrite andb_true_iff, larger_iff, existsb_exists. split; intros [P H]; split; auto.
  - destruct H as (v & I & H). rewrite !orb_true_iff, !larger_iff in H. destruct H as [[H|H]|H].
    + exists (Rabs (vx v)). split; auto. apply in_flat_map. exists v. cbn. auto.
    + exists (Rabs (vy v)). split; auto. apply in_flat_map. exists v. cbn. auto.
    + exists (Rabs (vz v)). split; auto. apply in_flat_map. exists v. cbn. auto.
  - destruct H as (x & I & H). apply in_flat_map in I as (v & I & J). exists v. split; auto. rewrite !orb_true_iff, !larger_iff.
    cbn in J. destruct J as [<-|[<-|[<-|[]]]]; auto.
Qed.
Lemma any_iff tW tE tF s : (ewFlag tW s || energyFlag tE s || forceFlag tF s)%bool = true <-> exceeds tW tE tF s.
Proof. unfold exceeds. rewrite !orb_true_iff, ew_iff, energy_iff, force_iff. tauto. Qed.
Lemma counts_filter {A} (P : A -> Prop) (p : A -> bool) l : (forall x, p x = true <-> P x) -> counts P l (List.length (filter p l)).
Proof.
  intros H. induction l as [|x l IH]; cbn [filter]; [constructor|]. destruct (p x) eqn:E.
  - cbn [List.length]. constructor; auto. now apply H.
  - constructor; auto. intros C. apply H in C. congruence.
Qed.
Fixpoint positions {A} (p : A -> bool) (i : nat) (l : list A) : list nat :=
  match l with [] => [] | x :: l => if p x then i :: positions p (S i) l else positions p (S i) l end.
Lemma chosen_filter {A} (P : A -> Prop) (p : A -> bool) : (forall x, p x = true <-> P x) -> forall l i, chosen P i l (positions p i l) (filter p l).
Proof.
  intros H. induction l as [|x l IH]; intros i; cbn [filter positions]; [constructor|]. destruct (p x) eqn:E.
  - constructor; auto. now apply H.
  - constructor; auto. intros C. apply H in C. congruence.
Qed.
Lemma select_fold tW tE tF l : forall c, fold_left (selectOne tW tE tF) l c =
  let any s := (ewFlag tW s || energyFlag tE s || forceFlag tF s)%bool in
  mkSel (se_ewHit c + List.length (filter (ewFlag tW) l)) (se_enHit c + List.length (filter (energyFlag tE) l))
        (se_fHit c + List.length (filter (forceFlag tF) l)) (se_total c + List.length l) (se_selected c + List.length (filter any l))
        (se_indices c ++ positions any (se_total c) l) (se_written c ++ filter any l).
Proof.
  induction l as [|s l IH]; intros c; cbv zeta.
  - cbn. rewrite !Nat.add_0_r, !app_nil_r. now destruct c.
  - cbn [fold_left]. rewrite IH. unfold selectOne. cbn [se_ewHit se_enHit se_fHit se_total se_selected se_indices se_written filter positions List.length].
    destruct (ewFlag tW s), (energyFlag tE s), (forceFlag tF s); cbn [orb List.length]; rewrite <- ?app_assoc; cbn [app]; f_equal; lia.
Qed.
Lemma select_ok tW tE tF l : let r := selectAll tW tE tF l in
  chosen (exceeds tW tE tF) 0 l (se_indices r) (se_written r) /\
  counts (exceeds tW tE tF) l (se_selected r) /\ se_total r = List.length l /\
  counts (many_warnings tW) l (se_ewHit r) /\ counts (energy_differs tE) l (se_enHit r) /\ counts (force_differs tF) l (se_fHit r).
Proof.
  intros r. unfold r, selectAll. rewrite select_fold. cbv zeta. cbn [se_ewHit se_enHit se_fHit se_total se_selected se_indices se_written app Nat.add].
  split; [apply chosen_filter, any_iff|]. split; [apply counts_filter, any_iff|]. split; [reflexivity|].
  split; [apply counts_filter, ew_iff|]. split; [apply counts_filter, energy_iff|apply counts_filter, force_iff].
Qed.
Lemma select_example : exceeds 0 (1/2) 0 (mkCE 3 4 [vzero; vzero]) /\ ~ exceeds 4 3 1 (mkCE 3 4 [vzero; vzero]) /\ exceeds 3 0 0 (mkCE 3 4 [vzero; vzero]).
Proof.
  split; [|split].
  - right. left. unfold energy_differs. cbn. rewrite Rabs_right; lra.
  - intros [H|[H|[_ (x & I & H)]]].
    + unfold many_warnings in H. cbn in H. lia.
    + unfold energy_differs in H. cbn in H. rewrite Rabs_right in H; lra.
    + cbn in I. rewrite Rabs_R0 in I. decompose [or] I; try contradiction; subst; lra.
  - left. unfold many_warnings. cbn. lia.
Qed.

Lemma weights_wrong i k own : comp2Format i k own <> lit "nnp-data-" ++ (if Nat.eqb i 1 then lit "1" else lit "2") ++ lit "/" ++ own /\
  conversions (comp2Format i k own) = S (conversions own).
Proof.
  unfold comp2Format, weightsFormat. cbn [format_of]. split.
  - intros E. apply (f_equal (@List.length ascii)) in E. rewrite !app_length in E. destruct (Nat.eqb i 1); cbn in E; lia.
  - unfold conversions. rewrite !count_occ_app. destruct (Nat.eqb i 1); reflexivity.
Qed.
