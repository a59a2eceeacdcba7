(** The neuron statistics file. *)
From Coq Require Import Reals Lra ZArith Ascii String Bool Arith Lia.
From Coq Require Import List.
From Verif Require Import Base.RealBase Base.SumR Base.Loop Base.AssocMap Model.Strings Model.Printf Model.Settings Model.SymLines Model.StructureFile Model.DataFiles
  Model.NeuralNetwork Model.LearningCurve Model.NeuronStats Spec.StringSpec Spec.NetworkSpec Spec.NeuronStatsSpec
  Proofs.StringProofs Proofs.PrintfProofs Proofs.StructureFileText Proofs.SymLineProofs Proofs.NetworkSetupProofs Proofs.DataFilesText Proofs.LearningCurveProofs
  Proofs.NetLayout Proofs.NetForward Proofs.NetMore.
From Coq Require Import List.
Import ListNotations.
Local Open Scope R_scope.

(** ** Order of the neurons *)
Definition stat_of (net : network) (x : nat * nat) : stat :=
  let n := neurons net (fst x) (snd x) in (n_count n, n_min n, n_max n, n_sum n, n_sum2 n).
Definition positions (sizes : nat -> nat) (L : nat) : list (nat * nat) := flat_map (fun l => map (pair l) (seq 0 (sizes l))) (seq 0 L).
Lemma for_up_snoc {A} (f : nat -> A) n : forall l, for_up n (fun j l => l ++ [f j]) l = l ++ map f (seq 0 n).
Proof.
  induction n as [|n IH]; intros l; cbn [for_up]; [now rewrite app_nil_r|]. rewrite IH, seq_S, map_app, <- app_assoc. reflexivity.
Qed.
Lemma for_up_concat {A} (f : nat -> list A) n : forall l, for_up n (fun j l => l ++ f j) l = l ++ flat_map f (seq 0 n).
Proof.
  induction n as [|n IH]; intros l; cbn [for_up]; [now rewrite app_nil_r|]. rewrite IH, seq_S, flat_map_app, <- app_assoc. cbn [flat_map Nat.add]. now rewrite app_nil_r.
Qed.
Lemma statistics_listed net : getNeuronStatistics net = map (stat_of net) (positions (numNeurons net) (numLayers net)).
Proof.
  unfold getNeuronStatistics.
  rewrite (for_up_ext _ _ (fun i l => l ++ map (fun j => stat_of net (i, j)) (seq 0 (numNeurons net i)))).
  2:{ intros i l _. apply (for_up_snoc (fun j => stat_of net (i, j))). }
  rewrite (for_up_concat (fun i => map (fun j => stat_of net (i, j)) (seq 0 (numNeurons net i)))). cbn [app].
  unfold positions. rewrite map_flat_map. apply flat_map_in_ext. intros l _. now rewrite map_map.
Qed.
Lemma positions_length sizes L : List.length (positions sizes L) = before sizes L.
Proof.
  unfold positions, before. generalize (seq 0 L). induction l as [|x l IH]; cbn [flat_map map list_sum fold_right]; auto.
  rewrite app_length, map_length, seq_length. rewrite IH. reflexivity.
Qed.
Lemma positions_nth sizes L l k : (l < L)%nat -> (k < sizes l)%nat -> nth_error (positions sizes L) (before sizes l + k) = Some (l, k).
Proof.
  intros Hl Hk. unfold positions. replace L with (l + S (L - S l))%nat by lia. rewrite seq_app, flat_map_app. cbn [Nat.add].
  fold (positions sizes l). rewrite nth_error_app2; rewrite positions_length; [|lia].
  replace (before sizes l + k - before sizes l)%nat with k by lia. cbn [seq flat_map].
  rewrite nth_error_app1 by (now rewrite map_length, seq_length).
  rewrite nth_error_map. rewrite (nth_error_nth' _ O) by now rewrite seq_length. rewrite seq_nth by auto. reflexivity.
Qed.

(** ** Reduction over processes *)
Lemma combine_map {A B C D} (f : A -> B) (g : A -> C) (h : B * C -> D) l : map h (List.combine (map f l) (map g l)) = map (fun x => h (f x, g x)) l.
Proof. induction l; cbn [map List.combine]; auto. now f_equal. Qed.
Lemma reduce_listed {A} (g : A -> nat * nat -> stat) idx rs : forall own,
  reduce_stats (map own idx) (map (fun r => map (g r) idx) rs) = map (fun x => fold_left (fun a r => combine_stat a (g r x)) rs (own x)) idx.
Proof.
  induction rs as [|r rs IH]; intros own; cbn [reduce_stats map fold_left]; [auto|].
  rewrite combine_map. cbn [fst snd]. exact (IH (fun x => combine_stat (own x) (g r x))).
Qed.
(** What a list of values leaves in a neuron. *)
Definition stat_values (vs : list R) : stat :=
  (List.length vs, fold_left Rmin vs nn_dbl_max, fold_left Rmax vs (- nn_dbl_max), rsum vs, rsum (map (fun v => v * v) vs)).
Lemma fold_min_pull vs : forall a b, fold_left Rmin vs (Rmin a b) = Rmin a (fold_left Rmin vs b).
Proof. induction vs as [|v vs IH]; intros a b; cbn [fold_left]; auto. now rewrite <- Rmin_assoc, IH. Qed.
Lemma fold_max_pull vs : forall a b, fold_left Rmax vs (Rmax a b) = Rmax a (fold_left Rmax vs b).
Proof. induction vs as [|v vs IH]; intros a b; cbn [fold_left]; auto. now rewrite <- Rmax_assoc, IH. Qed.
Lemma combine_values vs ws : combine_stat (stat_values vs) (stat_values ws) = stat_values (vs ++ ws).
Proof.
  unfold combine_stat, stat_values. rewrite app_length, map_app, !rsum_app, !fold_left_app.
  assert (A : Rmin (fold_left Rmin vs nn_dbl_max) nn_dbl_max = fold_left Rmin vs nn_dbl_max).
  { apply Rmin_left. destruct (fold_min_spec vs nn_dbl_max) as (X & _). exact X. }
  assert (B : Rmax (fold_left Rmax vs (- nn_dbl_max)) (- nn_dbl_max) = fold_left Rmax vs (- nn_dbl_max)).
  { apply Rmax_left. destruct (fold_max_spec vs (- nn_dbl_max)) as (X & _). exact X. }
  rewrite <- A at 2. rewrite fold_min_pull. rewrite <- B at 2. now rewrite fold_max_pull.
Qed.
Lemma fold_values {A} (V : A -> list R) rs : forall vs,
  fold_left (fun a r => combine_stat a (stat_values (V r))) rs (stat_values vs) = stat_values (vs ++ List.concat (map V rs)).
Proof.
  induction rs as [|r rs IH]; intros vs; cbn [fold_left map List.concat]; [now rewrite app_nil_r|]. rewrite combine_values, IH. now rewrite app_assoc.
Qed.

(** ** Numbers *)
Lemma sum_deviations vs c : rsum (map (fun v => (v - c) * (v - c)) vs) = rsum (map (fun v => v * v) vs) - 2 * c * rsum vs + INR (List.length vs) * (c * c).
Proof. induction vs as [|v vs IH]; cbn [map rsum List.length]; [simpl; ring|]. rewrite IH, S_INR. ring. Qed.
Lemma deviation_formula vs : (1 < List.length vs)%nat ->
  sqrt ((INR (List.length vs) * rsum (map (fun v => v * v) vs) - rsum vs * rsum vs) / (INR (List.length vs) * (INR (List.length vs) - 1))) = deviation_of vs.
Proof.
  intros H. unfold deviation_of, mean_of. f_equal. rewrite sum_deviations, minus_INR by lia. assert (1 < INR (List.length vs)) by (apply lt_1_INR; lia).
  change (INR 1) with 1. field. lra.
Qed.
Lemma numbers_describe i j vs : (forall v, In v vs -> - nn_dbl_max <= v <= nn_dbl_max) -> describes (stat_numbers i j (stat_values vs)) vs.
Proof.
  intros Hb. unfold stat_numbers, stat_values, describes. cbn [sr_count sr_min sr_max sr_mean sr_sigma]. split; auto. split.
  - intros Hne. destruct vs as [|v vs]; [congruence|]. set (l := v :: vs) in *.
    destruct (fold_min_spec l nn_dbl_max) as (M1 & M2 & M3). destruct (fold_max_spec l (- nn_dbl_max)) as (N1 & N2 & N3).
    assert (Iv : In v l) by now left. split; [|split].
    + split; auto. destruct M3 as [M3|M3]; auto. specialize (M2 v Iv). specialize (Hb v Iv). assert (v = nn_dbl_max) by lra. rewrite M3. left. auto.
    + split; auto. destruct N3 as [N3|N3]; auto. specialize (N2 v Iv). specialize (Hb v Iv). assert (v = - nn_dbl_max) by lra. rewrite N3. left. auto.
    + reflexivity.
  - intros H. destruct (Nat.leb_spec (List.length vs) 1); [lia|]. now rewrite deviation_formula.
Qed.

(** ** Rows of an element *)
Lemma reset_shape net : same_shape (resetNeuronStatistics net) net.
Proof.
  unfold resetNeuronStatistics. apply (for_up_inv (fun _ s => same_shape s net)); [apply same_shape_refl|].
  intros i s Hi HA. apply (for_up_inv (fun _ s => same_shape s net)); [auto|]. intros; auto.
Qed.
Definition after (net : network) (Gs : list (nat -> R)) : network := fold_left evaluate Gs (resetNeuronStatistics net).
Definition values_at (net : network) (x : nat * nat) (Gs : list (nat -> R)) : list R := seen_values (resetNeuronStatistics net) Gs (fst x) (snd x).
Lemma after_shape net Gs : same_shape (after net Gs) net.
Proof. eapply same_shape_trans; [apply trace_shape|apply reset_shape]. Qed.
Lemma seen_length Gs l k : forall m, List.length (seen_values m Gs l k) = List.length Gs.
Proof. induction Gs; intros m; cbn [seen_values List.length]; auto. Qed.
Lemma after_stats net Gs l k : (l < numLayers net)%nat -> (k < numNeurons net l)%nat -> stat_of (after net Gs) (l, k) = stat_values (values_at net (l, k) Gs).
Proof.
  intros Hl Hk. destruct (reset_stats net l k Hl Hk) as (A & B & C & D & E). destruct (reset_shape net) as (S1 & S2 & _).
  destruct (history_stats Gs (resetNeuronStatistics net) l k) as (A' & B' & C' & D' & E'); [now rewrite S1|now rewrite S2|].
  unfold stat_of, after, stat_values, values_at. cbn [fst snd]. rewrite A', B', C', D', E', A, B, C, D, E, seen_length, !Rplus_0_l. reflexivity.
Qed.
Lemma in_positions sizes L x : In x (positions sizes L) -> (fst x < L)%nat /\ (snd x < sizes (fst x))%nat.
Proof. intros H. apply in_flat_map in H as (l & A & B). apply in_seq in A. apply in_map_iff in B as (k & <- & B). apply in_seq in B. cbn. lia. Qed.
Lemma number_nth {A} (l : list A) i x : nth_error l i = Some x -> nth_error (number_list l) i = Some (i, x).
Proof.
  unfold number_list. assert (X : forall s, nth_error l i = Some x -> nth_error (List.combine (seq s (List.length l)) l) i = Some ((s + i)%nat, x)).
  { revert i. induction l as [|y l IH]; intros i s; [now destruct i|]. destruct i as [|i]; cbn [List.length seq List.combine nth_error].
    - intros E. injection E as ->. now rewrite Nat.add_0_r.
    - intros E. rewrite (IH i (S s) E). f_equal. f_equal. lia. }
  apply (X 0%nat).
Qed.
Lemma number_length {A} (l : list A) : List.length (number_list l) = List.length l.
Proof. unfold number_list. rewrite combine_length, seq_length. lia. Qed.

Theorem element_rows i net Hs : Hs <> [] -> exists rows, element_stats i (map (after net) Hs) = Done rows /\
  List.length rows = before (numNeurons net) (numLayers net) /\
  forall l k, (l < numLayers net)%nat -> (k < numNeurons net l)%nat -> exists r,
    nth_error rows (before (numNeurons net) l + k) = Some r /\ sr_element r = (i + 1)%nat /\ sr_neuron r = (before (numNeurons net) l + k + 1)%nat /\
    let vs := List.concat (map (fun Gs => seen_values (resetNeuronStatistics net) Gs l k) Hs) in
    ((forall v, In v vs -> - nn_dbl_max <= v <= nn_dbl_max) -> describes r vs).
Proof.
  intros Hne. destruct Hs as [|H0 Hs]; [congruence|]. cbn [map element_stats].
  assert (Sh : forall Gs, getNeuronStatistics (after net Gs) = map (stat_of (after net Gs)) (positions (numNeurons net) (numLayers net))).
  { intros Gs. rewrite statistics_listed. destruct (after_shape net Gs) as (A & B & _). now rewrite A, B. }
  set (idx := positions (numNeurons net) (numLayers net)) in *.
  assert (E : reduce_stats (getNeuronStatistics (after net H0)) (map getNeuronStatistics (map (after net) Hs)) =
    map (fun x => stat_values (List.concat (map (values_at net x) (H0 :: Hs)))) idx).
  { rewrite map_map, Sh, (map_ext _ _ Sh), (reduce_listed (fun Gs => stat_of (after net Gs))). apply map_ext_in. intros [l k] I.
    destruct (in_positions _ _ _ I) as [Hl Hk]. cbn [fst snd] in Hl, Hk. rewrite after_stats by auto.
    cbn [map List.concat]. rewrite <- fold_values. generalize (stat_values (values_at net (l, k) H0)). clear - Hl Hk.
    induction Hs as [|G Hs IH]; intros s; cbn [fold_left]; auto. rewrite after_stats by auto. apply IH. }
  rewrite E. eexists. split; [reflexivity|]. split; [now rewrite map_length, number_length, map_length; apply positions_length|].
  intros l k Hl Hk. assert (P := positions_nth (numNeurons net) (numLayers net) l k Hl Hk). fold idx in P.
  eexists. split; [rewrite nth_error_map; erewrite number_nth; [reflexivity|]; rewrite nth_error_map, P; reflexivity|].
  split; [reflexivity|]. split; [reflexivity|]. intros Hb. apply numbers_describe. exact Hb.
Qed.

(** ** Lines *)
Lemma fmt16o_field v : field (lit " " ++ fmt16o v) (number_text v) /\ (List.length (fmt16o v) <= 16)%nat.
Proof.
  destruct v as [v|]; [apply fmt16_field|]. destruct (pad_left (lit "NAN") 16) as (b & A & B & L). split.
  - exists (lit " " ++ b). split; [discriminate|]. split; [constructor; auto|]. split; [cbn [fmt16o]; rewrite B; now rewrite app_assoc|]. split; [plain_lit|discriminate].
  - cbn [fmt16o]. rewrite L. cbn. lia.
Qed.
Definition small_row (r : stat_row) : Prop := fits (sr_element r) /\ fits (sr_neuron r) /\ fits (sr_count r).
Lemma line_words r : small_row r -> exists l, stat_line r = Done (l ++ [ch_lf]) /\ ~ In ch_lf l /\ is_words l (row_words r).
Proof.
  intros (F1 & F2 & F3). unfold stat_line.
  destruct (fmt_d_field 10 (sr_element r) ltac:(lia)) as [_ L1]. specialize (L1 F1).
  destruct (fmt_d_field 10 (sr_neuron r) ltac:(lia)) as [D2 L2]. specialize (L2 F2).
  destruct (fmt_d_field 10 (sr_count r) ltac:(lia)) as [D3 L3]. specialize (L3 F3).
  destruct (fmt16_field (sr_min r)) as [D4 L4]. destruct (fmt16_field (sr_max r)) as [D5 L5].
  destruct (fmt16o_field (sr_mean r)) as [D6 L6]. destruct (fmt16o_field (sr_sigma r)) as [D7 L7].
  match goal with |- context [line ?X] => set (t := X) end.
  assert (Lt : (List.length t < 1023)%nat).
  { unfold t. rewrite !app_length. change (List.length (lit " ")) with 1%nat. lia. }
  rewrite line_short by auto. cbn [undefined_if_long]. exists t. split; auto.
  destruct (pad_left (print_d (sr_element r)) 10) as (b & Bb & Eb & _). destruct (print_d_plain (sr_element r)) as (Pp & Pn & _).
  set (ts := [lit " " ++ fmt_d 10 (sr_neuron r); lit " " ++ fmt_d 10 (sr_count r); lit " " ++ fmt16 (sr_min r); lit " " ++ fmt16 (sr_max r);
              lit " " ++ fmt16o (sr_mean r); lit " " ++ fmt16o (sr_sigma r)]).
  assert (Fs : Forall2 field ts [print_d (sr_neuron r); print_d (sr_count r); print_E 8 (sr_min r); print_E 8 (sr_max r); number_text (sr_mean r); number_text (sr_sigma r)])
    by (unfold ts; repeat constructor; auto).
  assert (Et : t = b ++ print_d (sr_element r) ++ List.concat ts).
  { unfold t, ts. cbn [List.concat]. unfold fmt_d at 1. rewrite Eb. rewrite app_nil_r, <- !app_assoc. reflexivity. }
  destruct (padded_fields b _ ts _ Bb Pp Pn Fs) as [W N]. rewrite <- Et in W, N. split; auto. now apply words_of_is.
Qed.
Lemma lines_done rows : (forall r, In r rows -> small_row r) -> exists ls, mapo stat_line rows = Done (map (fun l => l ++ [ch_lf]) ls) /\
  Forall2 (fun l r => ~ In ch_lf l /\ is_words l (row_words r)) ls rows.
Proof.
  induction rows as [|r rows IH]; intros H; cbn [mapo]; [exists []; auto|].
  destruct (line_words r (H r (or_introl eq_refl))) as (l & E & N & W). destruct IH as (ls & E' & F); [intros; apply H; now right|].
  rewrite E. cbn [bindo]. rewrite E'. cbn [bindo]. exists (l :: ls). split; auto.
Qed.
(** Element by element. *)
Lemma mapo_number {A B} (f : nat * A -> outcome B) l ys i x : mapo f (number_list l) = Done ys -> nth_error l i = Some x -> exists y, nth_error ys i = Some y /\ f (i, x) = Done y.
Proof.
  intros E H. apply number_nth in H. revert i H ys E. generalize (number_list l).
  induction l0 as [|z l0 IH]; intros i H ys; [destruct i; discriminate|]. cbn [mapo].
  intros E. destruct (f z) as [y| |] eqn:Ez; try discriminate E. cbn [bindo] in E. destruct (mapo f l0) as [zs| |] eqn:Em; try discriminate E. cbn [bindo] in E.
  apply done_inj in E. subst ys.
  assert (G : forall j, nth_error (z :: l0) j = Some (i, x) -> exists y0, nth_error (y :: zs) j = Some y0 /\ f (i, x) = Done y0).
  { clear - IH Ez Em. intros [|j] H; [injection H as ->; now exists y|]. cbn [nth_error] in *. clear IH Ez y z.
    revert j zs Em H. induction l0 as [|z l0 IH]; intros [|j] zs Em H; try discriminate H; cbn [mapo] in Em;
      destruct (f z) as [y| |] eqn:Ez; try discriminate Em; cbn [bindo] in Em; destruct (mapo f l0) as [ws| |] eqn:Ew; try discriminate Em; cbn [bindo] in Em;
      apply done_inj in Em; subst zs; cbn [nth_error] in *; [injection H as ->; eauto|eauto]. }
  now apply G.
Qed.
Theorem stats_text id elements rows : mapo (fun e => element_stats (fst e) (snd e)) (number_list elements) = Done rows ->
  (forall r, In r (List.concat rows) -> fits (sr_element r) /\ fits (sr_neuron r) /\ fits (sr_count r)) ->
  exists h ls, stats_header id = Done h /\ writeNeuronStatistics id elements = Done (appendLines h ++ List.concat (map (fun l => l ++ [ch_lf]) ls)) /\
    Forall2 (fun l r => ~ In ch_lf l /\ is_words l (row_words r)) ls (List.concat rows) /\
    (forall i nets, nth_error elements i = Some nets -> exists rs, nth_error rows i = Some rs /\ element_stats i nets = Done rs).
Proof.
  intros E F. destruct (lines_done _ F) as (ls & El & W). unfold writeNeuronStatistics, stats_header, createFileHeader.
  cbn [List.length Nat.eqb andb negb]. rewrite E. cbn [bindo]. rewrite El. cbn [bindo]. do 2 eexists. split; [reflexivity|]. split; [reflexivity|]. split; [exact W|].
  intros i nets Hi. exact (mapo_number _ _ _ _ _ E Hi).
Qed.

(** ** Examples *)
Lemma two_values net G G' : exists rows, element_stats 0 (map (after net) [[G]; []; [G']]) = Done rows.
Proof. destruct (element_rows 0 net [[G]; []; [G']] ltac:(discriminate)) as (rows & E & _). eauto. Qed.
(** One input, one output neuron whose value is the cosine of its input. *)
Definition cos_net : network :=
  mkNetwork 2 (fun _ => 1%nat) (fun _ => AF_COS) false (fun _ _ => mkNeuron 0 0 0 0 0 0 0 0 0 0 0 (fun _ => 0)).
Lemma cos_out G : n_value (neurons (after cos_net [G]) 1 0) = 1 /\ seen_values (resetNeuronStatistics cos_net) [G] 1 0 = [0].
Proof.
  cbn. unfold Base.Loop.upd. cbn. rewrite !Rmult_0_l, !Rplus_0_l. split; [apply cos_0|reflexivity].
Qed.
Lemma nn_dbl_max_pos : 0 <= nn_dbl_max.
Proof.
  unfold nn_dbl_max. assert (A : 1 <= 2 ^ 52) by (apply pow_R1_Rle; lra). assert (B : / 2 ^ 52 <= / 1) by (apply Rinv_le_contravar; lra). rewrite Rinv_1 in B.
  apply Rmult_le_pos; [lra|]. apply pow_le. lra.
Qed.
Lemma not_the_value : exists net G rows r, element_stats 0 [fold_left evaluate [G] (resetNeuronStatistics net)] = Done rows /\
  nth_error rows 1 = Some r /\ sr_count r = 1%nat /\ sr_min r <> n_value (neurons (fold_left evaluate [G] (resetNeuronStatistics net)) 1 0) /\ sr_sigma r = None.
Proof.
  exists cos_net, (fun _ => 0). destruct (element_rows 0 cos_net [[fun _ => 0]] ltac:(discriminate)) as (rows & E & _ & H).
  destruct (cos_out (fun _ => 0)) as [V S1]. destruct (H 1%nat 0%nat ltac:(cbn; lia) ltac:(cbn; lia)) as (r & N & _ & _ & D).
  assert (P := nn_dbl_max_pos). cbn [map List.concat] in D. rewrite S1 in D. cbn [app] in D.
  destruct D as (C & M & _); [intros v [<-|[]]; lra|]. exists rows, r. split; [exact E|]. split; [exact N|]. split; [exact C|].
  destruct (M ltac:(discriminate)) as ((Mi & _) & _). destruct Mi as [Mi|[]]. split; [unfold after in V; rewrite V, <- Mi; lra|].
  cbn [map element_stats] in E. apply done_inj in E. subst rows. cbn in N. injection N as <-. reflexivity.
Qed.
Lemma three_processes : exists rows r, element_stats 4 (map (fun Gs => fold_left evaluate Gs (resetNeuronStatistics cos_net)) [[fun _ => 3]; []; [fun _ => 7]]) = Done rows /\
  nth_error rows 0 = Some r /\ sr_element r = 5%nat /\ sr_neuron r = 1%nat /\ sr_count r = 2%nat /\ sr_mean r = Some 5 /\ sr_sigma r = Some (sqrt 8).
Proof.
  eexists. eexists. split; [reflexivity|]. split; [reflexivity|]. cbn. unfold Base.Loop.upd. cbn. repeat split; f_equal; [lra|]. f_equal. lra.
Qed.
