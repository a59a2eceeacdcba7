From Coq Require Import List Arith Bool String Lia.
From Coq Require Import List.
From Verif Require Import Model.Strings Model.SymFunctions Model.Select Spec.StringSpec Spec.SelectSpec Proofs.StringProofs Proofs.UnitsProofs.
Import ListNotations.

Definition beginsb (l : str) : bool := match split (reduce l) ch_space with w :: _ => str_eqb w (lit "begin") | [] => false end.
Lemma beginsb_iff l : beginsb l = true <-> begins l.
Proof.
  unfold beginsb, begins. destruct (words_exist_unique l) as (ws & H & U). rewrite (split_reduce_tokens l ws H). split.
  - destruct ws as [|w ws]; [discriminate|]. intros E. unfold str_eqb in E. destruct (list_eq_dec _ _ _) as [->|]; [|discriminate]. eauto.
  - intros (ws' & H'). rewrite (U _ H'). unfold str_eqb. now destruct (list_eq_dec _ _ _).
Qed.
Definition nstarts (ls : list str) : nat := length (filter beginsb ls).
Lemma starts_nstarts ls : starts ls (nstarts ls).
Proof.
  unfold nstarts. induction ls as [|l ls IH]; [constructor|]. cbn [filter]. destruct (beginsb l) eqn:E.
  - cbn. constructor; auto. now apply beginsb_iff.
  - constructor; auto. intros H. apply beginsb_iff in H. congruence.
Qed.
Lemma starts_fun ls n : starts ls n -> n = nstarts ls.
Proof.
  unfold nstarts. induction 1 as [|l ls n H _ IH|l ls n H _ IH]; [reflexivity| |]; cbn [filter].
  - apply beginsb_iff in H. rewrite H. cbn. congruence.
  - destruct (beginsb l) eqn:E; [apply beginsb_iff in E; contradiction|exact IH].
Qed.
Lemma nstarts_snoc ls l : nstarts (ls ++ [l]) = nstarts ls + if beginsb l then 1 else 0.
Proof. unfold nstarts. rewrite filter_app, app_length. cbn. destruct (beginsb l); reflexivity. Qed.

Definition decideb (mode : selmode) (k : nat) : bool :=
  match mode with SelInterval n => Nat.eqb (Nat.modulo k n) 0 | SelRandom d => d k end.
Lemma decideb_iff mode k : proper mode -> (decideb mode k = true <-> selected mode k).
Proof.
  destruct mode as [d|n]; cbn; [tauto|]. intros Hn. rewrite Nat.eqb_eq. rewrite Nat.mod_divide by lia. unfold Nat.divide.
  split; intros [q E]; exists q; lia.
Qed.
Lemma decide_some mode k : proper mode -> decide mode k = Some (decideb mode k).
Proof. destruct mode as [d|[|n]]; cbn; auto. lia. Qed.
Definition mark (mode : selmode) (n : nat) : bool := match n with O => false | S k => decideb mode k end.

Lemma marked_snoc b lines marks l m : length lines = length marks ->
  marked b (lines ++ [l]) (marks ++ [m]) = marked b lines marks ++ if Bool.eqb m b then [l] else [].
Proof.
  intros L. unfold marked.
  assert (C : combine (lines ++ [l]) (marks ++ [m]) = combine lines marks ++ [(l, m)]).
  { revert marks L. induction lines as [|x xs IH]; intros [|y ys] L; try discriminate; [reflexivity|]. cbn. rewrite IH; auto. }
  rewrite C, filter_app, map_app. cbn. destruct (Bool.eqb m b); reflexivity.
Qed.

Lemma nonblank_words l : ~ blank_line l -> exists w ws, split (reduce l) ch_space = w :: ws.
Proof.
  intros H. destruct (words_exist_unique l) as (ws & Hw & _). rewrite (split_reduce_tokens l ws Hw).
  destruct ws as [|w ws]; [contradiction|]. eauto.
Qed.

Theorem select_spec mode lines : proper mode -> (forall l, In l lines -> ~ blank_line l) ->
  exists st marks, nnpSelect mode lines = Some st /\ length marks = length lines /\
    sel_out st = marked true lines marks /\ sel_reject st = marked false lines marks /\
    (forall i, i < length lines -> (nth i marks false = true <-> exists k, belongs lines i k /\ selected mode k)) /\
    starts lines (sel_count st) /\ sel_selected st = length (sel_log st) /\
    sel_log st = map S (filter (decideb mode) (seq 0 (sel_count st))).
Proof.
  intros P. 
  assert (Main : (forall l, In l lines -> ~ blank_line l) ->
    exists st marks, nnpSelect mode lines = Some st /\ length marks = length lines /\ sel_write st = mark mode (nstarts lines) /\
    sel_out st = marked true lines marks /\ sel_reject st = marked false lines marks /\
    (forall i, i < length lines -> nth i marks false = mark mode (nstarts (firstn (S i) lines))) /\
    sel_count st = nstarts lines /\ sel_selected st = length (sel_log st) /\
    sel_log st = map S (filter (decideb mode) (seq 0 (sel_count st)))).
  { induction lines as [|l lines IH] using rev_ind; intros H.
    - exists sel0, []. repeat split; auto. intros i Hi. cbn in Hi. lia.
    - destruct IH as (st & marks & E & L & W & O & Rj & M & C & Sl & Lg); [intros; apply H; apply in_or_app; auto|].
      destruct (nonblank_words l) as (w & ws & Hw); [apply H, in_or_app; right; now left|].
      set (m := mark mode (nstarts (lines ++ [l]))).
      assert (Step : exists st', selectLine mode l st = Some st' /\ sel_write st' = m /\ sel_count st' = nstarts (lines ++ [l]) /\
                sel_out st' = sel_out st ++ (if m then [l] else []) /\ sel_reject st' = sel_reject st ++ (if m then [] else [l]) /\
                sel_selected st' = length (sel_log st') /\ sel_log st' = map S (filter (decideb mode) (seq 0 (sel_count st')))).
      { unfold selectLine. rewrite Hw.
        assert (B : beginsb l = str_eqb w (lit "begin")) by (unfold beginsb; now rewrite Hw).
        unfold m. rewrite nstarts_snoc, B. destruct (str_eqb w (lit "begin")).
        - rewrite (decide_some mode _ P), C. rewrite Nat.add_1_r. cbn [mark].
          assert (Q : map S (filter (decideb mode) (seq 0 (S (nstarts lines)))) = sel_log st ++ if decideb mode (nstarts lines) then [S (nstarts lines)] else []).
          { rewrite seq_S, filter_app, map_app, Lg, C. cbn [filter Nat.add]. destruct (decideb mode (nstarts lines)); reflexivity. }
          destruct (decideb mode (nstarts lines)) eqn:D; eexists; (split; [reflexivity|]); cbn [sel_write sel_count sel_out sel_reject sel_selected sel_log];
            rewrite ?app_nil_r; repeat split; auto.
          + rewrite app_length, Sl. cbn. lia.
          + rewrite Q. now rewrite app_nil_r.
        - rewrite Nat.add_0_r, W. destruct (mark mode (nstarts lines)) eqn:D; eexists; (split; [reflexivity|]);
            cbn [sel_write sel_count sel_out sel_reject sel_selected sel_log]; rewrite ?app_nil_r; repeat split; auto. }
      destruct Step as (st' & E' & W' & C' & O' & R' & S' & L').
      exists st', (marks ++ [m]). split; [|split; [|split; [|split; [|split; [|split; [|split]]]]]]; auto.
      + unfold nnpSelect in *. rewrite ofold_app, E. cbn [ofold]. now rewrite E'.
      + rewrite !app_length. cbn. lia.
      + rewrite marked_snoc by auto. rewrite O', O. f_equal. destruct m; reflexivity.
      + rewrite marked_snoc by auto. rewrite R', Rj. f_equal. destruct m; reflexivity.
      + intros i Hi. rewrite app_length in Hi. cbn in Hi. destruct (Nat.eq_dec i (length lines)) as [->|Ne].
        * rewrite app_nth2 by lia. rewrite L, Nat.sub_diag. cbn [nth]. unfold m. f_equal. f_equal.
          symmetry. apply firstn_all2. rewrite app_length. cbn. lia.
        * rewrite app_nth1 by lia. rewrite M by lia. f_equal. f_equal. rewrite firstn_app.
          replace (S i - length lines) with 0 by lia. cbn [firstn]. now rewrite app_nil_r. }
  intros H. destruct (Main H) as (st & marks & E & L & W & O & Rj & M & C & Sl & Lg).
  exists st, marks. repeat (split; [assumption|]). split.
  - intros i Hi. rewrite M by assumption. unfold belongs. split.
    + intros Hm. destruct (nstarts (firstn (S i) lines)) as [|k] eqn:N; [discriminate|]. exists k. split; [split; [assumption|]|now apply decideb_iff].
      rewrite <- N. apply starts_nstarts.
    + intros (k & [_ B] & D). apply starts_fun in B. rewrite <- B. now apply decideb_iff.
  - split; [|auto]. rewrite C. apply starts_nstarts.
Qed.

Lemma select_log mode st n : proper mode -> sel_log st = map S (filter (decideb mode) (seq 0 (sel_count st))) ->
  (In n (sel_log st) <-> exists k, n = S k /\ k < sel_count st /\ selected mode k).
Proof.
  intros P ->. rewrite in_map_iff. split.
  - intros (k & <- & Hk). apply filter_In in Hk. destruct Hk as [A B]. apply in_seq in A. exists k. split; [reflexivity|]. split; [lia|]. now apply decideb_iff.
  - intros (k & -> & A & B). exists k. split; [reflexivity|]. apply filter_In. split; [apply in_seq; lia|now apply decideb_iff].
Qed.
Lemma NoDup_S (l : list nat) : NoDup l -> NoDup (map S l).
Proof. induction 1; cbn; constructor; auto. rewrite in_map_iff. intros (y & E & Hy). injection E as ->. contradiction. Qed.
Theorem select_counts mode lines st : proper mode -> (forall l, In l lines -> ~ blank_line l) -> nnpSelect mode lines = Some st ->
  starts lines (sel_count st) /\ sel_selected st = length (sel_log st) /\ NoDup (sel_log st) /\
  forall n, In n (sel_log st) <-> exists k, n = S k /\ k < sel_count st /\ selected mode k.
Proof.
  intros P H E. destruct (select_spec mode lines P H) as (st' & marks & E' & _ & _ & _ & _ & C & S & Lg). rewrite E in E'. injection E' as <-.
  split; [assumption|]. split; [assumption|]. split.
  - rewrite Lg. apply NoDup_S. apply NoDup_filter, seq_NoDup.
  - intros n. now apply select_log.
Qed.
Theorem select_lines mode lines : proper mode -> (forall l, In l lines -> ~ blank_line l) ->
  exists st marks, nnpSelect mode lines = Some st /\ length marks = length lines /\
    sel_out st = marked true lines marks /\ sel_reject st = marked false lines marks /\
    (forall i, i < length lines -> (nth i marks false = true <-> exists k, belongs lines i k /\ selected mode k)).
Proof.
  intros P H. destruct (select_spec mode lines P H) as (st & marks & A & B & C & D & E & _). exists st, marks. auto.
Qed.
(** A blank line anywhere stops the program. *)
Theorem select_blank mode lines : (exists l, In l lines /\ blank_line l) -> nnpSelect mode lines = None.
Proof.
  intros (l & Hl & B). apply in_split in Hl. destruct Hl as (a & b & ->). unfold nnpSelect. rewrite ofold_app.
  destruct (ofold (selectLine mode) a sel0); [|reflexivity]. cbn [ofold]. unfold selectLine. now rewrite (split_reduce_tokens l [] B).
Qed.

Definition exLines : list str :=
  map lit ["comment before"; "begin"; " energy 1"; "end"; "begin again"; "end"; "  begin"; "atom"; "end"]%string.
Lemma exLines_ok : (forall l, In l exLines -> ~ blank_line l) /\ proper (SelInterval 2) /\
  exists st, nnpSelect (SelInterval 2) exLines = Some st /\
    sel_out st = map lit ["begin"; " energy 1"; "end"; "  begin"; "atom"; "end"]%string /\
    sel_reject st = map lit ["comment before"; "begin again"; "end"]%string /\ sel_log st = [1; 3].
Proof.
  split; [|split; [cbn; lia|]].
  - intros l Hl B. apply split_reduce_tokens in B. cbn [exLines map In] in Hl.
    repeat (destruct Hl as [<-|Hl]; [vm_compute in B; discriminate|]). contradiction.
  - eexists. split; [vm_compute; reflexivity|]. vm_compute. auto.
Qed.
Lemma blank_witness : exists lines, In [] lines /\ (exists l, In l lines /\ begins l) /\ nnpSelect (SelInterval 2) lines = None.
Proof.
  exists [lit "begin"; lit "end"; []]. split; [cbn; auto|]. split; [exists (lit "begin"); split; [now left|]; apply beginsb_iff; reflexivity|].
  reflexivity.
Qed.
