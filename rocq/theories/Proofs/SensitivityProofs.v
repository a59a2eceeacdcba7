(** Proofs about the sensitivity analysis (C101). *)
From Coq Require Import Reals Lra Lia ZArith Ascii String Bool Arith Permutation.
From Coq Require Import List.
From Verif Require Import Base.SumR Model.Strings Model.Printf Model.Settings Model.SymLines Model.DataFiles Model.NetworkSetup Model.StructureFile Model.LearningCurve Model.NeuronStats Model.Sensitivity
  Spec.StringSpec Spec.DataFilesSpec Spec.NeuronStatsSpec Spec.SensitivitySpec
  Proofs.StringProofs Proofs.PrintfProofs Proofs.SymLineProofs Proofs.NetworkSetupProofs Proofs.NetworkSetupMain Proofs.StructureFileText Proofs.DataFilesText Proofs.ScalingFileProofs Proofs.LearningCurveProofs Proofs.NeuronStatsProofs.
Import ListNotations.
Local Open Scope R_scope.

(** ** Sums and maxima *)
Definition sumsq (vs : list R) : R := rsum (map (fun v => v * v) vs).
Fixpoint maxabs (vs : list R) : R := match vs with [] => 0 | v :: vs => Rmax (Rabs v) (maxabs vs) end.
Lemma sumsq_app a b : sumsq (a ++ b) = sumsq a + sumsq b.
Proof. unfold sumsq. rewrite map_app. apply rsum_app. Qed.
Lemma maxabs_pos vs : 0 <= maxabs vs.
Proof. induction vs as [|v vs IH]; cbn [maxabs]; [lra|]. apply Rle_trans with (1 := IH). apply Rmax_r. Qed.
Lemma maxabs_app a b : maxabs (a ++ b) = Rmax (maxabs a) (maxabs b).
Proof. induction a as [|v a IH]; cbn [app maxabs]; [rewrite Rmax_right; [reflexivity|apply maxabs_pos]|]. now rewrite IH, Rmax_assoc. Qed.
Lemma maxabs_largest vs : largest vs (maxabs vs).
Proof.
  induction vs as [|v vs (A & B)]; cbn [maxabs]; [split; [intros ? []|now left]|]. split.
  - intros u [<-|U]; [apply Rmax_l|]. apply Rle_trans with (1 := A u U). apply Rmax_r.
  - right. destruct B as [(-> & E)|(u & U & E)].
    + exists v. split; [now left|]. cbn [maxabs]. apply Rmax_left. apply Rabs_pos.
    + unfold Rmax. destruct (Rle_dec (Rabs v) (maxabs vs)); [exists u; split; [now right|exact E] | exists v; split; [now left|reflexivity]].
Qed.
Lemma maxabs_perm a b : Permutation a b -> maxabs a = maxabs b.
Proof.
  induction 1 as [|x a b _ IH|x y a|a b c _ IH1 _ IH2]; cbn [maxabs]; [reflexivity|now rewrite IH| |congruence].
  rewrite !Rmax_assoc. f_equal. apply Rmax_comm.
Qed.
Lemma slopes_app e j a b : slopes e j (a ++ b) = slopes e j a ++ slopes e j b.
Proof. unfold slopes. now rewrite filter_app, map_app. Qed.
Lemma filter_perm {A} (f : A -> bool) a b : Permutation a b -> Permutation (filter f a) (filter f b).
Proof.
  induction 1 as [|x a b _ IH|x y a|a b c _ IH1 _ IH2]; cbn [filter]; [constructor| | |now rewrite IH1].
  - destruct (f x); [now constructor|exact IH].
  - destruct (f x), (f y); try reflexivity. apply perm_swap.
Qed.

(** ** What the counters hold *)
(** The data of element [e] with [n] symmetry functions after the atoms. *)
Definition data_of (n e : nat) (atoms : list sens_atom) : sens_data :=
  (length (slopes e 0 atoms), map (fun j => (sumsq (slopes e j atoms), maxabs (slopes e j atoms))) (seq 0 n)).
Definition all_data (nsf : list nat) (atoms : list sens_atom) : list sens_data :=
  map (fun en => data_of (snd en) (fst en) atoms) (number_list nsf).

Lemma number_map {A B} (f : A -> B) l : number_list (map f l) = map (fun p => (fst p, f (snd p))) (number_list l).
Proof.
  unfold number_list. rewrite map_length. generalize 0%nat. induction l as [|x l IH]; intro k; [reflexivity|]. cbn. now rewrite IH.
Qed.
Lemma number_seq n : number_list (seq 0 n) = map (fun j => (j, j)) (seq 0 n).
Proof. unfold number_list. rewrite seq_length. generalize 0%nat. induction n as [|n IH]; intro k; [reflexivity|]. cbn. now rewrite IH. Qed.
Lemma mapo_total {A B} (f : A -> outcome B) (g : A -> B) l : (forall x, In x l -> f x = Done (g x)) -> mapo f l = Done (map g l).
Proof.
  induction l as [|x l IH]; intro H; [reflexivity|]. cbn [mapo map]. rewrite (H x (or_introl eq_refl)). cbn [bindo].
  rewrite IH by (intros; apply H; now right). reflexivity.
Qed.
Lemma slopes_snoc e j atoms a : slopes e j (atoms ++ [a]) = slopes e j atoms ++ (if Nat.eqb (sa_element a) e then [nth j (sa_dEdG a) 0] else []).
Proof. rewrite slopes_app. f_equal. unfold slopes. cbn [filter]. now destruct (Nat.eqb (sa_element a) e). Qed.
Lemma slopes_count e j atoms : length (slopes e j atoms) = length (slopes e 0 atoms).
Proof. unfold slopes. now rewrite !map_length. Qed.
Lemma all_data_nth nsf atoms e n : nth_error nsf e = Some n -> nth_error (all_data nsf atoms) e = Some (data_of n e atoms).
Proof. intro H. unfold all_data. now rewrite (map_nth_error _ _ _ (number_nth _ _ _ H)). Qed.
Lemma all_data_length nsf atoms : length (all_data nsf atoms) = length nsf.
Proof. unfold all_data. now rewrite map_length, number_length. Qed.
Lemma nth_error_ext {A} (a b : list A) : length a = length b -> (forall i x, nth_error a i = Some x -> nth_error b i = Some x) -> a = b.
Proof.
  revert b. induction a as [|x a IH]; intros [|y b] L H; cbn in L; try lia; [reflexivity|].
  assert (E := H 0%nat x eq_refl). cbn in E. injection E as ->. f_equal. apply IH; [lia|]. intros i z Hz. exact (H (S i) z Hz).
Qed.
Lemma add_atom nsf atoms a : fitting nsf a -> sens_add a (all_data nsf atoms) = Done (all_data nsf (atoms ++ [a])).
Proof.
  intros (n & En & Ln). unfold sens_add, update_at. rewrite (all_data_nth _ _ _ _ En). cbn [throwing bindo data_of fst snd].
  rewrite number_map, number_seq, map_map. cbn [fst snd].
  rewrite (mapo_total _ (fun ip => (fst (snd ip) + nth (fst ip) (sa_dEdG a) 0 * nth (fst ip) (sa_dEdG a) 0, Rmax (snd (snd ip)) (Rabs (nth (fst ip) (sa_dEdG a) 0))))).
  2:{ intros ip Hi. apply in_map_iff in Hi as (j & <- & Hj). apply in_seq in Hj. unfold sens_entry. cbn [fst snd].
      rewrite (nth_error_nth' _ 0) by lia. reflexivity. }
  cbn [bindo]. rewrite map_map. cbn [fst snd]. unfold set_at. rewrite all_data_length.
  assert (Le : (sa_element a < length nsf)%nat) by (apply nth_error_Some; congruence). destruct (Nat.ltb_spec (sa_element a) (length nsf)); [|lia].
  apply (f_equal Done). apply nth_error_ext.
  - rewrite app_length, firstn_length. cbn [length]. rewrite skipn_length, !all_data_length. lia.
  - intros e x H1. assert (Lf : length (firstn (sa_element a) (all_data nsf atoms)) = sa_element a) by (rewrite firstn_length, all_data_length; lia).
    destruct (Nat.eq_dec e (sa_element a)) as [->|D].
    + rewrite nth_error_app2 in H1 by lia. rewrite Lf, Nat.sub_diag in H1. injection H1 as <-. rewrite (all_data_nth _ _ _ _ En). f_equal. unfold data_of.
      rewrite (slopes_snoc _ 0), Nat.eqb_refl, app_length. cbn [length]. f_equal; [lia|]. apply map_ext. intro j.
      rewrite slopes_snoc, Nat.eqb_refl, sumsq_app, maxabs_app. set (v := nth j (sa_dEdG a) 0).
      assert (Ev : sumsq [v] = v * v) by (unfold sumsq; cbn; ring). assert (Ew : maxabs [v] = Rabs v) by (cbn; apply Rmax_left; apply Rabs_pos).
      now rewrite Ev, Ew.
    + assert (H2 : nth_error (all_data nsf atoms) e = Some x).
      { destruct (Nat.lt_ge_cases e (sa_element a)).
        - rewrite nth_error_app1 in H1 by lia. rewrite <- (firstn_skipn (sa_element a) (all_data nsf atoms)), nth_error_app1 by lia. exact H1.
        - rewrite nth_error_app2 in H1 by lia. rewrite Lf in H1. destruct (e - sa_element a)%nat as [|k] eqn:Ek; [lia|]. cbn [nth_error] in H1.
          rewrite <- (firstn_skipn (S (sa_element a)) (all_data nsf atoms)), nth_error_app2 by (rewrite firstn_length, all_data_length; lia).
          rewrite firstn_length, all_data_length. replace (e - Nat.min (S (sa_element a)) (length nsf))%nat with k by lia. exact H1. }
      assert (Lx : (e < length nsf)%nat) by (rewrite <- (all_data_length nsf atoms); apply nth_error_Some; congruence).
      destruct (nth_error nsf e) as [m|] eqn:Em; [|apply nth_error_None in Em; lia].
      rewrite (all_data_nth _ _ _ _ Em) in H2. rewrite (all_data_nth _ _ _ _ Em). rewrite <- H2. apply (f_equal Some). unfold data_of.
      assert (Ne : Nat.eqb (sa_element a) e = false) by (apply Nat.eqb_neq; congruence).
      rewrite slopes_snoc, Ne, app_nil_r. f_equal. apply map_ext. intro j. now rewrite slopes_snoc, Ne, app_nil_r.
Qed.
Lemma init_data nsf : sens_init nsf = all_data nsf [].
Proof.
  apply nth_error_ext; [unfold sens_init; now rewrite map_length, all_data_length|]. intros e x H.
  assert (Lx : (e < length nsf)%nat). { unfold sens_init in H. rewrite <- (map_length (fun n => (0%nat, repeat (0, 0) n)) nsf). apply nth_error_Some. congruence. }
  destruct (nth_error nsf e) as [m|] eqn:Em; [|apply nth_error_None in Em; lia]. rewrite (all_data_nth _ _ _ _ Em).
  unfold sens_init in H. rewrite (map_nth_error _ _ _ Em) in H. injection H as <-. f_equal. unfold data_of, slopes, sumsq. cbn. f_equal.
  generalize 0%nat. clear. induction m as [|m IH]; intro k; [reflexivity|]. cbn. f_equal. apply IH.
Qed.
Lemma process_data nsf atoms : Forall (fitting nsf) atoms -> sens_process nsf atoms = Done (all_data nsf atoms).
Proof.
  intro F. unfold sens_process. rewrite init_data. change atoms with ([] ++ atoms) at 2. generalize (@nil sens_atom) as done. revert F.
  induction atoms as [|a atoms IH]; intros F done; [cbn [foldo]; now rewrite app_nil_r|]. inversion F; subst.
  cbn [foldo]. rewrite add_atom by assumption. cbn [bindo]. rewrite IH by assumption. now rewrite <- app_assoc.
Qed.
Lemma map_combine {A B C D} (f : A -> B) (g : A -> C) (h : B * C -> D) l : map h (combine (map f l) (map g l)) = map (fun x => h (f x, g x)) l.
Proof. induction l as [|x l IH]; [reflexivity|]. cbn. now rewrite IH. Qed.
Lemma join_data nsf a b : map (fun p => sens_join (fst p) (snd p)) (combine (all_data nsf a) (all_data nsf b)) = all_data nsf (a ++ b).
Proof.
  unfold all_data. rewrite map_combine. apply map_ext. intros [e n]. cbn [fst snd]. unfold sens_join, data_of. cbn [fst snd].
  rewrite map_combine. cbn [fst snd]. rewrite (slopes_app e 0), app_length. f_equal. apply map_ext. intro j.
  now rewrite slopes_app, sumsq_app, maxabs_app.
Qed.
Lemma reduce_data nsf others : forall own, sens_reduce (all_data nsf own) (map (all_data nsf) others) = all_data nsf (own ++ concat others).
Proof.
  unfold sens_reduce. induction others as [|o others IH]; intro own; [cbn; now rewrite app_nil_r|]. cbn [map fold_left concat].
  rewrite join_data, IH. now rewrite app_assoc.
Qed.
Lemma tables conv nsf procs : procs <> [] -> Forall (fitting nsf) (concat procs) ->
  sensitivities conv nsf procs = Done (map (sens_rows conv) (all_data nsf (concat procs))).
Proof.
  intros Np F. unfold sensitivities. rewrite (mapo_total _ (all_data nsf)).
  2:{ intros l Hl. apply process_data. rewrite Forall_forall in F |- *. intros a Ha. apply F. apply in_concat. eauto. }
  cbn [bindo]. destruct procs as [|own others]; [congruence|]. cbn [map concat]. now rewrite reduce_data.
Qed.
(** ** The rows *)
Lemma fold_plus l : forall a, fold_left Rplus l a = a + rsum l.
Proof. induction l as [|x l IH]; intro a; cbn [fold_left rsum]; [lra|]. rewrite IH. lra. Qed.
Definition the_row (conv : option R) (n e : nat) (atoms : list sens_atom) (j : nat) : sens_row :=
  let vs := slopes e j atoms in
  let msa := if Nat.eqb (length (slopes e 0 atoms)) 0 then None else Some (rms vs) in
  mkSensRow (j + 1)
    (if Nat.eqb (length (slopes e 0 atoms)) 0 then None else percent (rms vs) (rsum (map (fun k => rms (slopes e k atoms)) (seq 0 n))))
    (percent (maxabs vs) (rsum (map (fun k => maxabs (slopes e k atoms)) (seq 0 n))))
    (match conv with Some c => Some (option_map (fun m => m / c) msa, maxabs vs / c) | None => None end) msa (maxabs vs).
Lemma rows_of_data conv n e atoms : sens_rows conv (data_of n e atoms) = map (the_row conv n e atoms) (seq 0 n).
Proof.
  unfold sens_rows, data_of. cbn [fst snd]. rewrite number_map, number_seq, !map_map. cbn [fst snd]. apply map_ext. intro j.
  rewrite !fold_plus, !Rplus_0_l. unfold the_row.
  assert (E : forall k, sqrt (sumsq (slopes e k atoms) / INR (length (slopes e 0 atoms))) = rms (slopes e k atoms)).
  { intro k. unfold rms, sumsq. now rewrite <- (slopes_count e k). }
  rewrite E. rewrite (map_ext _ _ E). reflexivity.
Qed.
Lemma largest_unique vs x y : largest vs x -> largest vs y -> x = y.
Proof.
  intros (A & B) (C & D). destruct B as [(-> & ->)|(v & V & ->)].
  - destruct D as [(_ & ->)|(v & [] & _)]. reflexivity.
  - destruct D as [(-> & _)|(u & U & ->)]; [destruct V|]. apply Rle_antisym; auto.
Qed.
Lemma the_row_describes conv n e atoms j : (j < n)%nat -> describes_row (the_row conv n e atoms j) e n j atoms conv.
Proof.
  intro Hj. unfold describes_row, the_row. cbn [se_index se_max se_msa se_phys se_msa_norm se_max_norm].
  assert (Z : slopes e j atoms <> [] -> Nat.eqb (length (slopes e 0 atoms)) 0 = false).
  { intro H. apply Nat.eqb_neq. rewrite <- (slopes_count e j). destruct (slopes e j atoms); [congruence|cbn; lia]. }
  split; [reflexivity|]. split; [apply maxabs_largest|]. split; [intro H; now rewrite (Z H)|].
  split; [intros c ->; eexists; split; [reflexivity|]; intro H; now rewrite (Z H)|]. split; [now intros ->|].
  split.
  - intros H T. rewrite (Z H). unfold percent. destruct (Req_EM_T _ 0); [contradiction|reflexivity].
  - intros maxima Lm Hm T. assert (Em : maxima = map (fun k => maxabs (slopes e k atoms)) (seq 0 n)).
    { apply nth_error_ext; [now rewrite map_length, seq_length|]. intros k x Hk. pose proof (Hm _ _ Hk) as Lx.
      assert (Lk : (k < n)%nat) by (rewrite <- Lm; apply nth_error_Some; congruence).
      assert (Es : nth_error (seq 0 n) k = Some k) by (rewrite (nth_error_nth' _ 0%nat) by (rewrite seq_length; lia); now rewrite seq_nth by lia).
      rewrite (map_nth_error _ _ _ Es). f_equal. apply (largest_unique (slopes e k atoms)); [apply maxabs_largest|exact Lx]. }
    rewrite <- Em. unfold percent. destruct (Req_EM_T _ 0); [contradiction|reflexivity].
Qed.
Theorem sensitivity_rows conv nsf procs : procs <> [] -> Forall (fitting nsf) (concat procs) ->
  exists elements, sensitivities conv nsf procs = Done elements /\ length elements = length nsf /\
  forall e n, nth_error nsf e = Some n -> exists rows, nth_error elements e = Some rows /\ length rows = n /\
  forall j r, nth_error rows j = Some r -> describes_row r e n j (concat procs) conv.
Proof.
  intros Np F. exists (map (sens_rows conv) (all_data nsf (concat procs))). split; [now apply tables|]. split; [now rewrite map_length, all_data_length|].
  intros e n En. exists (map (the_row conv n e (concat procs)) (seq 0 n)).
  split. { rewrite <- rows_of_data. apply map_nth_error. now apply all_data_nth. }
  split; [now rewrite map_length, seq_length|]. intros j r Hj.
  assert (Lj : (j < n)%nat). { assert (nth_error (map (the_row conv n e (concat procs)) (seq 0 n)) j <> None) as X by congruence. apply nth_error_Some in X. now rewrite map_length, seq_length in X. }
  assert (Es : nth_error (seq 0 n) j = Some j) by (rewrite (nth_error_nth' _ 0%nat) by (rewrite seq_length; lia); now rewrite seq_nth by lia).
  rewrite (map_nth_error _ _ _ Es) in Hj. injection Hj as <-. now apply the_row_describes.
Qed.
Lemma slopes_perm e j a b : Permutation a b -> Permutation (slopes e j a) (slopes e j b).
Proof. intro P. apply Permutation_map. now apply filter_perm. Qed.
Theorem distribution conv nsf procs procs' : procs <> [] -> procs' <> [] -> Forall (fitting nsf) (concat procs) -> Permutation (concat procs) (concat procs') ->
  sensitivities conv nsf procs = sensitivities conv nsf procs'.
Proof.
  intros N1 N2 F P. rewrite !tables; try assumption.
  2:{ rewrite Forall_forall in F |- *. intros a Ha. apply F. eapply Permutation_in; [symmetry; exact P|exact Ha]. }
  do 2 f_equal. unfold all_data. apply map_ext. intros [e n]. cbn [fst snd]. unfold data_of. f_equal; [apply Permutation_length; now apply slopes_perm|].
  apply map_ext. intro j. f_equal; [|apply maxabs_perm; now apply slopes_perm]. unfold sumsq. apply rsum_perm, Permutation_map. now apply slopes_perm.
Qed.

(** ** The file *)
Lemma sens_line_words r : fits (se_index r) -> exists l, sens_line r = Done (l ++ [ch_lf]) /\ one_line l /\ data_line l /\ words_of l = sens_words r.
Proof.
  intro F1. unfold sens_line.
  destruct (fmt_d_field 10 (se_index r) ltac:(lia)) as [_ L1]. specialize (L1 F1).
  destruct (fmt16o_field (se_msa_norm r)) as [D2 L2]. destruct (fmt16o_field (se_max_norm r)) as [D3 L3].
  destruct (fmt16o_field (se_msa r)) as [D6 L6]. destruct (fmt16_field (se_max r)) as [D7 L7].
  set (mid := match se_phys r with Some (m, x) => [lit " " ++ fmt16o m; lit " " ++ fmt16 x] | None => [] end).
  assert (Em : match se_phys r with Some (m, x) => lit " " ++ fmt16o m ++ lit " " ++ fmt16 x | None => [] end = concat mid).
  { unfold mid. destruct (se_phys r) as [[m x]|]; [|reflexivity]. cbn [concat]. now rewrite app_nil_r, <- !app_assoc. }
  assert (Fm : Forall2 field mid (match se_phys r with Some (m, x) => [number_text m; print_E 8 x] | None => [] end) /\ (length (concat mid) <= 40)%nat).
  { unfold mid. destruct (se_phys r) as [[m x]|]; [|split; [constructor|cbn; lia]].
    destruct (fmt16o_field m) as [Da La]. destruct (fmt16_field x) as [Db Lb]. split; [repeat constructor; assumption|].
    cbn [concat]. rewrite !app_length. change (length (lit " ")) with 1%nat. change (length (@nil ascii)) with 0%nat. lia. }
  destruct Fm as (Fm & Lm). rewrite Em.
  match goal with |- context [line ?X] => set (t := X) end.
  assert (Lt : (length t < 1023)%nat).
  { unfold t. rewrite !app_length. change (length (lit " ")) with 1%nat. lia. }
  rewrite line_short by exact Lt. cbn [undefined_if_long]. exists t. split; [reflexivity|].
  destruct (pad_left (print_d (se_index r)) 10) as (b & Bb & Eb & _). destruct (print_d_plain (se_index r)) as (Pp & Pn & _).
  set (ts := [lit " " ++ fmt16o (se_msa_norm r); lit " " ++ fmt16o (se_max_norm r)] ++ mid ++ [lit " " ++ fmt16o (se_msa r); lit " " ++ fmt16 (se_max r)]).
  assert (Fs : Forall2 field ts (tl (sens_words r))).
  { unfold ts, sens_words. cbn [tl app]. constructor; [exact D2|]. constructor; [exact D3|]. apply Forall2_app; [exact Fm|]. repeat constructor; assumption. }
  assert (Et : t = b ++ print_d (se_index r) ++ concat ts).
  { unfold t, ts. rewrite !concat_app. cbn [concat]. unfold fmt_d at 1. rewrite Eb. rewrite !app_nil_r, <- !app_assoc. reflexivity. }
  destruct (padded_fields b _ ts _ Bb Pp Pn Fs) as [W N]. rewrite <- Et in W, N. split; [exact N|]. split; [|exact W].
  unfold t, fmt_d. apply padded_first; [destruct (print_d (se_index r)); [congruence|cbn; lia] | exact Pp | intros c s; apply print_d_first].
Qed.
Lemma sens_lines_done rows : (forall r, In r rows -> fits (se_index r)) -> exists ls, mapo sens_line rows = Done (map (fun l => l ++ [ch_lf]) ls) /\
  Forall2 (fun l r => one_line l /\ data_line l /\ words_of l = sens_words r) ls rows.
Proof.
  induction rows as [|r rows IH]; intro H; cbn [mapo]; [exists []; split; [reflexivity|constructor]|].
  destruct (sens_line_words r (H r (or_introl eq_refl))) as (l & E & N & W). destruct IH as (ls & E' & F); [intros; apply H; now right|].
  rewrite E. cbn [bindo]. rewrite E'. cbn [bindo]. exists (l :: ls). split; [reflexivity|]. constructor; auto.
Qed.
Lemma sens_header_done normalize symbol : ~ In ch_lf symbol -> exists h, sens_header normalize symbol = Done h /\ forall t, In t h -> DataFilesText.comment_text ch_hash t.
Proof.
  intro Ns. assert (exists h, sens_header normalize symbol = Done h) as (h & E).
  { unfold sens_header, createFileHeader. destruct normalize; cbn [app List.length Nat.eqb andb negb]; eauto. }
  exists h. split; [exact E|]. unfold sens_header in E.
  match type of E with createFileHeader ?a0 _ ?b0 ?c0 _ = _ => assert (G : forallb (fun t => forallb (fun c => negb (ch_eqb c ch_lf)) t) (b0 ++ c0) = true) by (destruct normalize; vm_compute; reflexivity) end.
  eapply header_comments; [| | |exact E]; [discriminate| |exists 10%nat; split; [now left|lia]].
  intros t Ht I1. apply in_app_iff in Ht. destruct Ht as [[<-|[]]|Ht].
  - assert (G2 : forallb (fun c => negb (ch_eqb c ch_lf)) (lit "Sensitivity analysis for element ") = true) by (vm_compute; reflexivity).
    rewrite !in_app_iff in I1. destruct I1 as [I1|[I1|I1]].
    + rewrite forallb_forall in G2. apply G2 in I1. vm_compute in I1. discriminate.
    + revert I1. apply no_lf_pad. exact Ns.
    + destruct I1 as [D|[]]. discriminate D.
  - rewrite forallb_forall in G. apply G in Ht. rewrite forallb_forall in Ht. apply Ht in I1. vm_compute in I1. discriminate.
Qed.
Theorem sens_text normalize symbol rows : ~ In ch_lf symbol -> (forall r, In r rows -> fits (se_index r)) ->
  exists h ls, sens_header normalize symbol = Done h /\ (forall t, In t h -> exists c, t = ch_hash :: c) /\
    sens_file normalize symbol rows = Done (appendLines h ++ concat (map (fun l => l ++ [ch_lf]) ls)) /\
    Forall2 (fun l r => ~ In ch_lf l /\ is_words l (sens_words r)) ls rows.
Proof.
  intros Ns F. destruct (sens_header_done normalize symbol Ns) as (h & Eh & Ch). destruct (sens_lines_done rows F) as (ls & El & Fl).
  exists h, ls. split; [exact Eh|]. split; [intros t Ht; destruct (Ch t Ht) as (c & -> & _); now exists (c ++ [ch_lf])|].
  split; [unfold sens_file; rewrite Eh; cbn [bindo]; rewrite El; reflexivity|].
  clear El. induction Fl as [|l r ls' rows' (N & _ & W) _ IH]; constructor; [split; [exact N | now apply LearningCurveProofs.words_of_is]|].
  apply IH. intros r' Hr'. apply F. now right.
Qed.
Theorem prune_reads normalize symbol rows mode value vs : ~ In ch_lf symbol -> (forall r, In r rows -> fits (se_index r)) ->
  (mode = lit "msa" /\ value = se_msa_norm \/ mode = lit "max" /\ value = se_max_norm) ->
  Forall2 (fun r v => value r = Some v) rows vs ->
  exists text c, sens_file normalize symbol rows = Done text /\ sens_column mode = Done c /\
    read_sensitivity c (length rows) text = Done (map (fun v => atof (print_E 8 v)) vs) /\
    forall n, n <> length rows -> read_sensitivity c n text = Thrown.
Proof.
  intros Ns F M V. destruct (sens_header_done normalize symbol Ns) as (h & Eh & Ch). destruct (sens_lines_done rows F) as (ls & El & Fl).
  destruct (comments_file h Ch) as (hl & Eh' & Hh).
  assert (exists c, sens_column mode = Done c /\ forall r, nth_error (sens_words r) c = Some (number_text (value r))) as (c & Ec & Wc).
  { destruct M as [(-> & ->)|(-> & ->)]; [exists 1%nat|exists 2%nat]; (split; [vm_compute; reflexivity|]); intro r; reflexivity. }
  exists (file_of (hl ++ ls)), c.
  split. { unfold sens_file. rewrite Eh. cbn [bindo]. rewrite El. cbn [bindo]. rewrite Eh', file_of_app. reflexivity. }
  split; [exact Ec|].
  assert (Dl : forall l, In l ls -> one_line l /\ data_line l).
  { clear - Fl. induction Fl as [|l r ls rows (A & B & _) _ IH]; intros x Hx; [destruct Hx|]. destruct Hx as [<-|Hx]; [now split|now apply IH]. }
  assert (Sd : scaling_data (file_of (hl ++ ls)) = Done ls).
  { unfold scaling_data. rewrite split_file by (intros l Hl; apply in_app_iff in Hl as [Hl|Hl]; [now apply Hh | now apply Dl]).
    rewrite keep_lines.
    2:{ intros l Hl. apply in_app_iff in Hl as [Hl|Hl]; [destruct (Hh l Hl) as (_ & (r & ->)); discriminate | now apply Dl]. }
    cbn [app]. rewrite filter_app. f_equal.
    assert (A : filter (is_data ch_hash) hl = []).
    { clear - Hh. induction hl as [|l hl IH]; [reflexivity|]. cbn [filter]. destruct (Hh l (or_introl eq_refl)) as (_ & (r & ->)). cbn [is_data].
      change (ch_eqb "#"%char ch_hash) with true. cbn [negb]. apply IH. intros; apply Hh; now right. }
    rewrite A. cbn [app]. apply filter_data. intros l Hl. now apply Dl. }
  assert (Ln : length ls = length rows) by (clear - Fl; induction Fl; cbn; congruence).
  split.
  - unfold read_sensitivity. rewrite Sd. cbn [bindo]. unfold str in Ln |- *. rewrite Ln, Nat.eqb_refl. clear - Fl V Wc. revert vs V.
    induction Fl as [|l r ls rows (_ & _ & W) _ IH]; intros vs V; inversion V as [|? v ? vs' Hv V']; subst; [reflexivity|].
    cbn [mapo map]. unfold SymLines.number_at at 1, at_ at 1. rewrite W, Wc, Hv. cbn [throwing bindo number_text]. rewrite (IH _ V'). reflexivity.
  - intros n Hn. unfold read_sensitivity. rewrite Sd. cbn [bindo]. unfold str in Ln |- *. rewrite Ln. destruct (Nat.eqb_spec (length rows) n); [congruence|reflexivity].
Qed.

(** ** Percentages *)
Theorem percents conv nsf procs elements e rows : sensitivities conv nsf procs = Done elements -> procs <> [] -> Forall (fitting nsf) (concat procs) ->
  nth_error elements e = Some rows -> forall value, value = se_msa_norm \/ value = se_max_norm ->
  forall vs, Forall2 (fun r v => value r = Some v) rows vs -> rows <> [] -> rsum vs = 100 /\ Forall (fun v => 0 <= v) vs.
Proof.
  intros H Np F He value Hv vs V Nr. rewrite (tables conv nsf procs Np F) in H. apply done_inj in H. subst elements.
  assert (Le : (e < length nsf)%nat).
  { assert (nth_error (map (sens_rows conv) (all_data nsf (concat procs))) e <> None) as X by congruence. apply nth_error_Some in X. now rewrite map_length, all_data_length in X. }
  destruct (nth_error nsf e) as [n|] eqn:En; [|apply nth_error_None in En; lia].
  rewrite (map_nth_error _ _ _ (all_data_nth _ _ _ _ En)), rows_of_data in He. injection He as <-. set (atoms := concat procs) in *.
  assert (exists g : nat -> R, (forall k, 0 <= g k) /\ Forall2 (fun j v => percent (g j) (rsum (map g (seq 0 n))) = Some v) (seq 0 n) vs) as (g & Pg & Vg).
  { destruct Hv as [->| ->].
    - exists (fun k => rms (slopes e k atoms)). split; [intro k; apply sqrt_pos|]. remember (seq 0 n) as sq eqn:Q in V |- * at 2. clear Q.
      revert vs V. induction sq as [|j sq IH]; intros vs V; inversion V as [|? v ? vs' Hx V']; subst; constructor; [|now apply IH].
      unfold the_row in Hx. cbn [se_msa_norm] in Hx. destruct (Nat.eqb _ 0) in Hx; [discriminate|exact Hx].
    - exists (fun k => maxabs (slopes e k atoms)). split; [intro k; apply maxabs_pos|]. remember (seq 0 n) as sq eqn:Q in V |- * at 2. clear Q.
      revert vs V. induction sq as [|j sq IH]; intros vs V; inversion V as [|? v ? vs' Hx V']; subst; constructor; [|now apply IH].
      exact Hx. }
  assert (Pt : 0 <= rsum (map g (seq 0 n))) by (apply rsum_nonneg; intros x Hx; apply in_map_iff in Hx as (k & <- & _); apply Pg).
  set (total := rsum (map g (seq 0 n))) in *. assert (Et : total = rsum (map g (seq 0 n))) by reflexivity. clearbody total.
  assert (Nt : total <> 0).
  { clear Et. destruct (seq 0 n) as [|j sq] eqn:Q; [cbn in Nr; congruence|]. inversion Vg as [|? v ? ? Hx _]; subst. unfold percent in Hx.
    destruct (Req_EM_T total 0); [discriminate|assumption]. }
  assert (Ev : vs = map (fun k => g k / total * 100) (seq 0 n)).
  { clear - Vg Nt. induction Vg as [|j v sq vs Hx _ IH]; [reflexivity|]. cbn [map]. f_equal; [|exact IH].
    unfold percent in Hx. destruct (Req_EM_T total 0); [contradiction|]. congruence. }
  split.
  - rewrite Ev. transitivity (rsum (map (fun k => (/ total * 100) * g k) (seq 0 n))); [f_equal; apply map_ext; intro; unfold Rdiv; ring|].
    rewrite rsum_scal, <- Et. field. exact Nt.
  - rewrite Ev. apply Forall_forall. intros x Hx. apply in_map_iff in Hx as (k & <- & _).
    apply Rmult_le_pos; [|lra]. unfold Rdiv. apply Rmult_le_pos; [apply Pg|]. apply Rlt_le, Rinv_0_lt_compat. lra.
Qed.

(** ** A case: two elements, three processes, one without structures *)
Definition case_procs : list (list sens_atom) := [[mkSensAtom 0 [3; 0]; mkSensAtom 1 [2]]; []; [mkSensAtom 0 [-4; 0]]].
Lemma case_sens : Forall (fitting [2; 1]%nat) (concat case_procs) /\ exists r rest,
  sensitivities (Some 2) [2; 1]%nat case_procs = Done ([r; rest] :: [[mkSensRow 1 (Some 100) (Some 100) (Some (Some 1, 1)) (Some 2) 2]]) /\
  se_msa_norm r = Some 100 /\ se_msa r = Some (sqrt (25 / 2)) /\ se_max r = 4 /\ se_max_norm r = Some 100 /\ se_msa rest = Some 0 /\ se_max_norm rest = Some 0.
Proof.
  assert (F : Forall (fitting [2; 1]%nat) (concat case_procs)) by (repeat constructor; [exists 2%nat|exists 1%nat|exists 2%nat]; split; [reflexivity|cbn; lia| |cbn; lia| |cbn; lia]; reflexivity).
  split; [exact F|]. rewrite tables; [|discriminate|exact F]. unfold all_data, number_list. cbn [List.length seq combine map fst snd]. rewrite !rows_of_data.
  cbn [seq map].
  assert (A3 : Rabs 3 = 3) by (apply Rabs_right; lra). assert (A4 : Rabs (-4) = 4) by (rewrite Rabs_left; lra). assert (A2 : Rabs 2 = 2) by (apply Rabs_right; lra).
  assert (S0 : sqrt 0 = 0) by apply sqrt_0. assert (S4 : sqrt 4 = 2) by (replace 4 with (2 * 2) by ring; apply sqrt_square; lra).
  assert (M00 : maxabs (slopes 0 0 (concat case_procs)) = 4) by (cbn; rewrite A3, A4; rewrite (Rmax_left 4 0) by lra; apply Rmax_right; lra).
  assert (M01 : maxabs (slopes 0 1 (concat case_procs)) = 0) by (cbn; rewrite Rabs_R0; rewrite !Rmax_left by (rewrite ?Rmax_left; lra); reflexivity).
  assert (M10 : maxabs (slopes 1 0 (concat case_procs)) = 2) by (cbn; rewrite A2; apply Rmax_left; lra).
  assert (R00 : rms (slopes 0 0 (concat case_procs)) = sqrt (25 / 2)) by (unfold rms; f_equal; cbn; lra).
  assert (R01 : rms (slopes 0 1 (concat case_procs)) = 0) by (unfold rms; rewrite <- S0 at 1; f_equal; cbn; lra).
  assert (R10 : rms (slopes 1 0 (concat case_procs)) = 2) by (unfold rms; rewrite <- S4; f_equal; cbn; lra).
  assert (P25 : 0 < sqrt (25 / 2)) by (apply sqrt_lt_R0; lra).
  do 2 eexists. split.
  - do 3 f_equal. unfold the_row. cbn [seq map rsum]. rewrite R10, M10.
    replace (Nat.eqb (length (slopes 1 0 (concat case_procs))) 0) with false by reflexivity. unfold percent. destruct (Req_EM_T (2 + 0) 0); [lra|]. cbn [option_map].
    assert (P1 : 2 / (2 + 0) * 100 = 100) by lra. assert (P2 : 2 / 2 = 1) by lra. rewrite P1, P2. reflexivity.
  - unfold the_row. cbn [seq map rsum se_msa_norm se_msa se_max se_max_norm]. rewrite R00, R01, M00, M01.
    replace (Nat.eqb (length (slopes 0 0 (concat case_procs))) 0) with false by reflexivity. unfold percent.
    destruct (Req_EM_T (sqrt (25 / 2) + (0 + 0)) 0); [lra|]. destruct (Req_EM_T (4 + (0 + 0)) 0); [lra|].
    repeat split; f_equal; try lra. field. lra.
Qed.
