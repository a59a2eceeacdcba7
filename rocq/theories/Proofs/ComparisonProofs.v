(** The comparison files. *)
From Coq Require Import Reals Lra ZArith Ascii String Bool Arith Lia Permutation.
From Coq Require Import List.
From Verif Require Import Base.Vec3 Base.SumR Base.AssocMap Model.Strings Model.Printf Model.Settings Model.SymLines Model.StructureFile Model.DataFiles Model.Units
  Model.Errors Model.Dataset Model.LearningCurve Model.Comparison Spec.StringSpec Spec.ErrorSpec Spec.ComparisonSpec
  Proofs.StringProofs Proofs.PrintfProofs Proofs.StructureFileText Proofs.SymLineProofs Proofs.NetworkSetupProofs Proofs.DataFilesText Proofs.CollectiveProofs
  Proofs.LearningCurveProofs Proofs.NeuronStatsProofs Proofs.ErrorProofs.
From Coq Require Import List.
Import ListNotations.
Local Open Scope R_scope.

Definition is_entry (l : str) (e : entry_row) : Prop := ~ In ch_lf l /\ is_words l (entry_words e).
Definition text_rows (t : str) (es : list entry_row) : Prop := exists ls, t = List.concat (map (fun l => l ++ [ch_lf]) ls) /\ Forall2 is_entry ls es.
Lemma rows_nil : text_rows [] []. Proof. exists []. auto. Qed.
Lemma rows_app t es u fs : text_rows t es -> text_rows u fs -> text_rows (t ++ u) (es ++ fs).
Proof. intros (a & -> & A) (b & -> & B). exists (a ++ b). split; [now rewrite map_app, concat_app|now apply Forall2_app]. Qed.

(** ** Lines *)
Lemma two_numbers first ts ws a b : (List.length (fmt_d 10 first ++ List.concat ts) <= 300)%nat -> Forall2 field ts (map print_d ws) ->
  exists t, undefined_if_long (line (fmt_d 10 first ++ List.concat ts ++ lit " " ++ fmt16 a ++ lit " " ++ fmt16 b)) = Done t /\ text_rows t [mkEntry (first :: ws) a b].
Proof.
  intros L F. destruct (fmt16_field a) as [Da La], (fmt16_field b) as [Db Lb].
  match goal with |- context [line ?X] => set (t := X) end.
  assert (Lt : (List.length t < 1023)%nat).
  { unfold t. rewrite app_assoc, !app_length in *. change (List.length (lit " ")) with 1%nat. lia. }
  rewrite line_short by auto. cbn [undefined_if_long]. exists (t ++ [ch_lf]). split; auto.
  destruct (pad_left (print_d first) 10) as (p & Bb & Eb & _). destruct (print_d_plain first) as (Pp & Pn & _).
  set (us := ts ++ [lit " " ++ fmt16 a; lit " " ++ fmt16 b]).
  assert (Fs : Forall2 field us (map print_d ws ++ [print_E 8 a; print_E 8 b])) by (apply Forall2_app; auto).
  assert (Et : t = p ++ print_d first ++ List.concat us).
  { unfold t, us. rewrite concat_app. cbn [List.concat]. unfold fmt_d at 1. rewrite Eb, app_nil_r, <- !app_assoc. reflexivity. }
  destruct (padded_fields p _ us _ Bb Pp Pn Fs) as [W N]. rewrite <- Et in W, N.
  exists [t]. split; [cbn [map List.concat]; now rewrite app_nil_r|]. constructor; [|constructor]. split; auto. now apply words_of_is.
Qed.
Lemma energy_rows s : fits (ct_index s) -> exists t, getEnergyLine s = Done t /\ text_rows t (entries (lit "energy") s).
Proof.
  intros F. destruct (fmt_d_field 10 (ct_index s) ltac:(lia)) as [_ L]. specialize (L F).
  apply (two_numbers (ct_index s) [] []); [cbn [List.concat]; rewrite app_nil_r; lia|constructor].
Qed.
Lemma atom_rows a x y : fits (ca_structure a) -> fits (ca_index a) -> exists t, atom_line a x y = Done t /\ text_rows t [mkEntry [ca_structure a; ca_index a] x y].
Proof.
  intros F F'. destruct (fmt_d_field 10 (ca_structure a) ltac:(lia)) as [_ L]. specialize (L F). destruct (fmt_d_field 10 (ca_index a) ltac:(lia)) as [D L']. specialize (L' F').
  destruct (two_numbers (ca_structure a) [lit " " ++ fmt_d 10 (ca_index a)] [ca_index a] x y) as (t & E & R).
  - cbn [List.concat]. rewrite app_nil_r, !app_length. change (List.length (lit " ")) with 1%nat. lia.
  - constructor; auto.
  - exists t. split; auto. unfold atom_line. rewrite <- E. cbn [List.concat]. now rewrite app_nil_r, <- !app_assoc.
Qed.
Definition small (s : cstructure) : Prop := fits (ct_index s) /\ forall a, In a (ct_atoms s) -> fits (ca_structure a) /\ fits (ca_index a).
Lemma mapo_rows {A} (f : A -> outcome str) (g : A -> list entry_row) l :
  (forall x, In x l -> exists t, f x = Done t /\ text_rows t (g x)) -> exists ts, mapo f l = Done ts /\ text_rows (List.concat ts) (flat_map g l).
Proof.
  induction l as [|x l IH]; intros H; cbn [mapo flat_map]; [exists []; split; [auto|apply rows_nil]|].
  destruct (H x (or_introl eq_refl)) as (t & E & C). destruct IH as (ts & E' & C'); [intros y I; apply H; now right|].
  rewrite E. cbn [bindo]. rewrite E'. cbn [bindo]. exists (t :: ts). split; auto. now apply rows_app.
Qed.
Lemma mapo_rows2 {A} (f : A -> outcome (list str)) (g : A -> list entry_row) l :
  (forall x, In x l -> exists ts, f x = Done ts /\ text_rows (List.concat ts) (g x)) -> exists tss, mapo f l = Done tss /\ text_rows (List.concat (List.concat tss)) (flat_map g l).
Proof.
  induction l as [|x l IH]; intros H; cbn [mapo flat_map]; [exists []; split; [auto|apply rows_nil]|].
  destruct (H x (or_introl eq_refl)) as (t & E & C). destruct IH as (ts & E' & C'); [intros y I; apply H; now right|].
  rewrite E. cbn [bindo]. rewrite E'. cbn [bindo]. exists (t :: ts). split; auto. cbn [List.concat]. rewrite concat_app. now apply rows_app.
Qed.
Lemma force_rows s : small s -> exists ts, getForcesLines s = Done ts /\ text_rows (List.concat ts) (entries (lit "force") s).
Proof.
  intros [_ H]. unfold getForcesLines.
  destruct (mapo_rows2 atom_forces_lines (fun a => let ids := [ca_structure a; ca_index a] in let q := ca_atom a in
    [mkEntry ids (vx (q_fRef q)) (vx (q_f q)); mkEntry ids (vy (q_fRef q)) (vy (q_f q)); mkEntry ids (vz (q_fRef q)) (vz (q_f q))]) (ct_atoms s)) as (tss & E & R).
  - intros a I. destruct (H a I) as [F F']. unfold atom_forces_lines.
    destruct (atom_rows a (vx (q_fRef (ca_atom a))) (vx (q_f (ca_atom a))) F F') as (x & -> & X). cbn [bindo].
    destruct (atom_rows a (vy (q_fRef (ca_atom a))) (vy (q_f (ca_atom a))) F F') as (y & -> & Y). cbn [bindo].
    destruct (atom_rows a (vz (q_fRef (ca_atom a))) (vz (q_f (ca_atom a))) F F') as (z & -> & Z). cbn [bindo].
    eexists. split; [reflexivity|]. cbn [List.concat]. rewrite app_nil_r. apply (rows_app x [_]); auto. apply (rows_app y [_]); auto.
  - rewrite E. cbn [bindo]. eexists. split; [reflexivity|exact R].
Qed.
Lemma charge_rows s : small s -> exists ts, getChargesLines s = Done ts /\ text_rows (List.concat ts) (entries (lit "charge") s).
Proof.
  intros [_ H]. unfold getChargesLines.
  apply (mapo_rows (fun a => atom_line a (q_chargeRef (ca_atom a)) (q_charge (ca_atom a)))
           (fun a => [mkEntry [ca_structure a; ca_index a] (q_chargeRef (ca_atom a)) (q_charge (ca_atom a))])).
  intros a I. destruct (H a I). now apply atom_rows.
Qed.
Lemma structure_rows k s : error_property k -> small s -> exists t, structure_text k s = Done t /\ text_rows t (entries k s).
Proof.
  intros [<-|[<-|[<-|[]]]] H.
  - apply energy_rows. apply H.
  - destruct (force_rows s H) as (ts & E & R). change (structure_text (lit "force") s) with (ls <- getForcesLines s; Done (List.concat ls)).
    rewrite E. cbn [bindo]. eauto.
  - destruct (charge_rows s H) as (ts & E & R). change (structure_text (lit "charge") s) with (ls <- getChargesLines s; Done (List.concat ls)).
    rewrite E. cbn [bindo]. eauto.
Qed.

(** ** Processes *)
Definition assigned (s : cstructure) : Prop := ct_sample s = Errors.ST_TRAINING \/ ct_sample s = Errors.ST_TEST.
Lemma process_rows k l : error_property k -> (forall s, In s l -> small s /\ assigned s) -> exists t u, process_texts k l = Done (t, u) /\
  text_rows t (flat_map (entries k) (of_type Errors.ST_TRAINING l)) /\ text_rows u (flat_map (entries k) (of_type Errors.ST_TEST l)).
Proof.
  intros Ek. induction l as [|s l IH]; intros H; cbn [process_texts].
  - exists [], []. split; auto. split; apply rows_nil.
  - destruct (H s (or_introl eq_refl)) as [Hs A]. destruct IH as (t & u & E & T & U); [intros x I; apply H; now right|].
    destruct (structure_rows k s Ek Hs) as (w & Ew & W). unfold of_type in *. cbn [filter].
    destruct A as [A|A]; rewrite A, Ew; cbn [bindo]; rewrite E; cbn [bindo fst snd flat_map app].
    + exists (w ++ t), u. split; auto. split; auto. now apply rows_app.
    + exists t, (w ++ u). split; auto. split; auto. now apply rows_app.
Qed.
Lemma header_ok k : error_property k -> exists h, comparison_header k = Done h.
Proof. intros [<-|[<-|[<-|[]]]]; eexists; reflexivity. Qed.

Section Files.
Variables (k : str) (Ek : error_property k) (h : list str) (Hh : comparison_header k = Done h).
Definition prefix (i : nat) : str := if Nat.eqb i 0 then appendLines h else [].
Lemma process_done i l : (forall s, In s l -> small s /\ assigned s) -> exists t u, process_files k i l = Done (prefix i ++ t, prefix i ++ u) /\
  text_rows t (flat_map (entries k) (of_type Errors.ST_TRAINING l)) /\ text_rows u (flat_map (entries k) (of_type Errors.ST_TEST l)).
Proof.
  intros H. destruct (process_rows k l Ek H) as (t & u & E & T & U). exists t, u. split; auto. unfold process_files, prefix. rewrite Hh.
  destruct (Nat.eqb i 0); cbn [bindo]; rewrite E; reflexivity.
Qed.
(** All processes, numbered from [i] on. *)
Lemma all_done procs : forall i, (forall l s, In l procs -> In s l -> small s /\ assigned s) -> exists res,
  mapo (fun p => process_files k (fst p) (snd p)) (List.combine (seq i (List.length procs)) procs) = Done res /\ List.length res = List.length procs /\
  exists ts us, List.concat (map fst res) = (if andb (Nat.eqb i 0) (negb (Nat.eqb (List.length procs) 0)) then appendLines h else []) ++ ts /\
    List.concat (map snd res) = (if andb (Nat.eqb i 0) (negb (Nat.eqb (List.length procs) 0)) then appendLines h else []) ++ us /\
    text_rows ts (flat_map (entries k) (of_type Errors.ST_TRAINING (List.concat procs))) /\ text_rows us (flat_map (entries k) (of_type Errors.ST_TEST (List.concat procs))).
Proof.
  induction procs as [|l procs IH]; intros i H.
  - exists []. split; auto. split; auto. exists [], []. rewrite andb_false_r. split; auto. split; auto. split; apply rows_nil.
  - cbn [List.length seq List.combine mapo fst snd]. destruct (process_done i l) as (t & u & E & T & U); [intros s I; apply (H l); [now left|auto]|].
    destruct (IH (S i)) as (res & Er & Lr & ts & us & Ets & Eus & Tr & Ur); [intros m s I J; apply (H m); [now right|auto]|].
    rewrite E. cbn [bindo]. rewrite Er. cbn [bindo]. eexists. split; [reflexivity|]. split; [cbn [List.length]; now rewrite Lr|].
    cbn [Nat.eqb andb app] in Ets, Eus. cbn [map List.concat fst snd]. rewrite Ets, Eus. exists (t ++ ts), (u ++ us). unfold prefix. cbn [Nat.eqb negb]. rewrite andb_true_r.
    rewrite <- !app_assoc. split; auto. split; auto. unfold of_type in *. rewrite !filter_app, !flat_map_app. split; now apply rows_app.
Qed.
Lemma concat_nth {A B} (f : A -> list B) (d : A) (l : list A) : List.concat (map (fun i => f (nth i l d)) (seq 0 (List.length l))) = List.concat (map f l).
Proof.
  f_equal. rewrite <- (map_map (fun i => nth i l d) f). f_equal. clear. induction l as [|x l IH]; auto.
  cbn [List.length seq map nth]. f_equal. rewrite <- seq_shift, map_map. exact IH.
Qed.
Lemma combine_all (res : list (str * str)) (f : str * str -> str) : exists g, combineFiles (List.length res) (fun i => option_map f (nth_error res i)) = (true, g) /\ f_combined g = List.concat (map f res).
Proof.
  destruct (combine_files (List.length res) (fun i => option_map f (nth_error res i)) (fun i => f (nth i res ([], [])))) as (g & E & C & _).
  - intros i Hi. rewrite (nth_error_nth' res ([], []) Hi). reflexivity.
  - exists g. split; auto. rewrite C. apply concat_nth.
Qed.
Theorem files_of procs : procs <> [] -> (forall s, In s (List.concat procs) -> small s /\ assigned s) -> exists train test,
  comparison_files k procs = Done (appendLines h ++ train, appendLines h ++ test) /\
  text_rows train (flat_map (entries k) (of_type Errors.ST_TRAINING (List.concat procs))) /\ text_rows test (flat_map (entries k) (of_type Errors.ST_TEST (List.concat procs))).
Proof.
  intros Hne H. destruct (all_done procs 0) as (res & Er & Lr & ts & us & Ets & Eus & T & U).
  { intros l s I J. apply H. apply in_concat. eauto. }
  exists ts, us. split; auto. unfold comparison_files. fold (number_list procs) in Er. rewrite Er. cbn [bindo]. rewrite <- Lr.
  destruct (combine_all res fst) as (g & -> & G). destruct (combine_all res snd) as (g' & -> & G'). cbn [andb]. rewrite G, G', Ets, Eus.
  destruct procs; [congruence|]. reflexivity.
Qed.
End Files.
Theorem comparison k procs : error_property k -> procs <> [] ->
  (forall s, In s (List.concat procs) -> (ct_sample s = Errors.ST_TRAINING \/ ct_sample s = Errors.ST_TEST) /\ fits (ct_index s) /\
     forall a, In a (ct_atoms s) -> fits (ca_structure a) /\ fits (ca_index a)) ->
  exists h train test, comparison_header k = Done h /\
    comparison_files k procs = Done (appendLines h ++ List.concat (map (fun l => l ++ [ch_lf]) train), appendLines h ++ List.concat (map (fun l => l ++ [ch_lf]) test)) /\
    Forall2 (fun l e => ~ In ch_lf l /\ is_words l (entry_words e)) train (flat_map (entries k) (of_type Errors.ST_TRAINING (List.concat procs))) /\
    Forall2 (fun l e => ~ In ch_lf l /\ is_words l (entry_words e)) test (flat_map (entries k) (of_type Errors.ST_TEST (List.concat procs))).
Proof.
  intros Ek Hne H. destruct (header_ok k Ek) as [h Eh].
  destruct (files_of k Ek h Eh procs Hne) as (t & u & E & (ls & -> & F) & (ms & -> & G)); [intros s I; destruct (H s I) as (A & B); split; [exact B|exact A]|].
  exists h, ls, ms. auto.
Qed.
Theorem unassigned_undefined k procs s : error_property k -> In s (List.concat procs) ->
  ct_sample s = Errors.ST_UNKNOWN \/ ct_sample s = Errors.ST_VALIDATION -> forall f, comparison_files k procs <> Done f.
Proof.
  intros Ek I Hs f E. apply in_concat in I as (l & Il & Is). unfold comparison_files in E.
  assert (X : forall l, In s l -> forall r, process_texts k l <> Done r).
  { clear - Hs. induction l as [|x l IH]; intros I r E; [easy|]. cbn [process_texts] in E. destruct I as [->|I].
    - destruct Hs as [A|A]; rewrite A in E; discriminate E.
    - match type of E with bindo ?X _ = _ => destruct X as [ab| |] end; try discriminate E. cbn [bindo] in E.
      destruct (process_texts k l) as [xy| |] eqn:Ex; try discriminate E. now apply (IH I xy). }
  assert (Y : forall ps i r, In l ps -> mapo (fun p => process_files k (fst p) (snd p)) (List.combine (seq i (List.length ps)) ps) <> Done r).
  { clear - X Is. induction ps as [|p ps IH]; intros i r I E; [easy|]. cbn [List.length seq List.combine mapo fst snd] in E. destruct I as [->|I].
    - unfold process_files in E. destruct (if Nat.eqb i 0 then _ else _) as [h| |]; try discriminate E. cbn [bindo] in E.
      destruct (process_texts k l) as [xy| |] eqn:Ex; try discriminate E. now apply (X l Is xy).
    - destruct (process_files k i p) as [q| |]; try discriminate E. cbn [bindo] in E. 
      destruct (mapo _ (List.combine (seq (S i) (List.length ps)) ps)) as [q'| |] eqn:Ex; try discriminate E. now apply (IH (S i) q' I). }
  unfold number_list in E. destruct (mapo _ _) as [res| |] eqn:Em; try discriminate E. now apply (Y procs 0%nat res Il).
Qed.

Theorem header_text k : error_property k -> exists h l, comparison_header k = Done h /\ (forall t, In t h -> exists r, t = ch_hash :: r) /\
  In (l ++ [ch_lf]) h /\ is_words l ([ch_hash] :: compared_names k).
Proof.
  intros [<-|[<-|[<-|[]]]].
  - eexists. exists (removelast (nth 10 (match comparison_header (lit "energy") with Done h => h | _ => [] end) [])). split; [reflexivity|]. split; [|split].
    + intros t I. repeat (destruct I as [<-|I]; [eexists; vm_compute; reflexivity|]). easy.
    + vm_compute. tauto.
    + apply words_of_is. vm_compute. reflexivity.
  - eexists. exists (removelast (nth 11 (match comparison_header (lit "force") with Done h => h | _ => [] end) [])). split; [reflexivity|]. split; [|split].
    + intros t I. repeat (destruct I as [<-|I]; [eexists; vm_compute; reflexivity|]). easy.
    + vm_compute. tauto.
    + apply words_of_is. vm_compute. reflexivity.
  - eexists. exists (removelast (nth 11 (match comparison_header (lit "charge") with Done h => h | _ => [] end) [])). split; [reflexivity|]. split; [|split].
    + intros t I. repeat (destruct I as [<-|I]; [eexists; vm_compute; reflexivity|]). easy.
    + vm_compute. tauto.
    + apply words_of_is. vm_compute. reflexivity.
Qed.

(** ** Errors of the numbers in the file *)
Lemma energy_entries D : (forall s, In s D -> (0 < ct_numAtoms s)%nat) ->
  map (fun e => er_ref e - er_nnp e) (flat_map (entries (lit "energy")) D) = energy_per_atom_deviations (map metric_structure D).
Proof.
  unfold energy_per_atom_deviations. induction D as [|s D IH]; intros H; auto. cbn [flat_map map]. rewrite map_app, IH by (intros; apply H; now right).
  unfold entries at 1. change (str_eqb (lit "energy") (lit "energy")) with true. cbn [map app er_ref er_nnp metric_structure qs_energyRef qs_energy qs_numAtoms].
  apply f_equal2; [unfold Rdiv; ring|reflexivity].
Qed.
Lemma force_entries D : map (fun e => er_ref e - er_nnp e) (flat_map (entries (lit "force")) D) = force_deviations (map metric_structure D).
Proof.
  unfold force_deviations. induction D as [|s D IH]; auto. cbn [flat_map map]. rewrite map_app, IH. f_equal. unfold entries. cbn [metric_structure qs_atoms].
  change (str_eqb (lit "force") (lit "energy")) with false. change (str_eqb (lit "force") (lit "force")) with true. cbv iota zeta.
  induction (ct_atoms s) as [|a l IHa]; auto. cbn [flat_map map app]. now rewrite IHa.
Qed.
Lemma charge_entries D : map (fun e => er_ref e - er_nnp e) (flat_map (entries (lit "charge")) D) = charge_deviations (map metric_structure D).
Proof.
  unfold charge_deviations. induction D as [|s D IH]; auto. cbn [flat_map map]. rewrite map_app, IH. f_equal. unfold entries. cbn [metric_structure qs_atoms].
  change (str_eqb (lit "charge") (lit "energy")) with false. change (str_eqb (lit "charge") (lit "force")) with false. cbv iota zeta.
  induction (ct_atoms s) as [|a l IHa]; auto. cbn [flat_map map app]. now rewrite IHa.
Qed.
Theorem file_errors k D : error_property k -> (forall s, In s D -> (0 < ct_numAtoms s)%nat) ->
  let diffs := map (fun e => er_ref e - er_nnp e) (flat_map (entries k) D) in
  mget str_eqb (rmse_name k) (metrics k (map metric_structure D)) = Some (rmse diffs) /\
  mget str_eqb (mae_name k) (metrics k (map metric_structure D)) = Some (mae diffs).
Proof.
  intros Ek H. cbv zeta. destruct Ek as [<-|[<-|[<-|[]]]].
  - rewrite energy_entries by auto. split; reflexivity.
  - rewrite force_entries. split; reflexivity.
  - rewrite charge_entries. split; reflexivity.
Qed.

Definition ranks_of (procs : list (list cstructure)) := map (map (fun s => (ct_sample s, metric_structure s))) procs.
Lemma part_of t l : (t = Errors.ST_TRAINING \/ t = Errors.ST_TEST) ->
  part t (map (fun s => (ct_sample s, metric_structure s)) l) = map metric_structure (of_type t l).
Proof.
  intros Ht. unfold part, of_type. induction l as [|s l IH]; auto. cbn [map filter fst]. destruct Ht as [->| ->], (ct_sample s); cbn; now rewrite IH.
Qed.
Lemma samples_entries k D : error_property k -> samples k (map metric_structure D) = List.length (flat_map (entries k) D).
Proof.
  intros [<-|[<-|[<-|[]]]].
  - change (samples (lit "energy") (map metric_structure D)) with (List.length (map metric_structure D)). rewrite map_length. induction D as [|s D IH]; auto. cbn [flat_map List.length]. rewrite app_length, IH. reflexivity.
  - change (samples (lit "force") (map metric_structure D)) with (List.length (force_deviations (map metric_structure D))). now rewrite <- force_entries, map_length.
  - change (samples (lit "charge") (map metric_structure D)) with (List.length (charge_deviations (map metric_structure D))). now rewrite <- charge_entries, map_length.
Qed.
Theorem program_errors k procs : error_property k ->
  (forall s, In s (List.concat procs) -> (ct_sample s = Errors.ST_TRAINING \/ ct_sample s = Errors.ST_TEST) /\ (0 < ct_numAtoms s)%nat) ->
  exists train test, calculateError k (map (map (fun s => (ct_sample s, metric_structure s))) procs) = Some (train, test) /\
    forall r t, (In r train /\ t = Errors.ST_TRAINING) \/ (In r test /\ t = Errors.ST_TEST) ->
      let file := flat_map (entries k) (of_type t (List.concat procs)) in
      let diffs := map (fun e => er_ref e - er_nnp e) file in
      snd r = List.length file /\
      (file <> [] -> mget str_eqb (rmse_name k) (fst r) = Some (rmse diffs) /\ mget str_eqb (mae_name k) (fst r) = Some (mae diffs)).
Proof.
  intros Ek H. set (D := map (fun s => (ct_sample s, metric_structure s)) (List.concat procs)).
  destruct (error_metrics k (ranks_of procs) D Ek) as (train & test & E & _ & _ & T & U).
  - unfold ranks_of, D. rewrite concat_map. apply Permutation_refl.
  - intros ts I. apply in_map_iff in I as (s & <- & I). apply (H s I).
  - intros ts I. apply in_map_iff in I as (s & <- & I). apply (H s I).
  - exists train, test. split; [exact E|]. intros r t Hr. cbv zeta.
    assert (Ht : t = Errors.ST_TRAINING \/ t = Errors.ST_TEST) by (destruct Hr as [[_ ->]|[_ ->]]; auto).
    assert (X : snd r = samples k (part t D) /\ ((0 < snd r)%nat -> fst r = metrics k (part t D))) by (destruct Hr as [[I ->]|[I ->]]; auto).
    destruct X as [X Y]. unfold D in X, Y. rewrite part_of in X, Y by auto. rewrite samples_entries in X by auto. split; auto.
    intros Hf. rewrite Y.
    + apply file_errors; auto. intros s I. apply H. unfold of_type in I. now apply filter_In in I.
    + rewrite X. destruct (flat_map _ _); [congruence|cbn; lia].
Qed.

(** ** Example *)
Definition cmp_atom (s i : nat) : catom := mkCA s i (mkQA true true false 0 0 vzero (mkVec 1 0 0) (mkVec 3 0 1) (INR i) 2 [] [] []).
Definition cmp_structure (i : nat) (t : Errors.sample_type) : cstructure := mkCT i t 2 (-5) (-4) [cmp_atom i 0; cmp_atom i 1].
Definition cmp_procs : list (list cstructure) :=
  [[cmp_structure 0 Errors.ST_TRAINING; cmp_structure 1 Errors.ST_TEST]; []; [cmp_structure 2 Errors.ST_TRAINING]].
Lemma cmp_case : (forall s, In s (List.concat cmp_procs) -> (ct_sample s = Errors.ST_TRAINING \/ ct_sample s = Errors.ST_TEST) /\ (Z.of_nat (ct_index s) < 2 ^ 31)%Z /\ (0 < ct_numAtoms s)%nat /\
     forall a, In a (ct_atoms s) -> (Z.of_nat (ca_structure a) < 2 ^ 31)%Z /\ (Z.of_nat (ca_index a) < 2 ^ 31)%Z) /\
  List.length (flat_map (entries (lit "force")) (of_type Errors.ST_TRAINING (List.concat cmp_procs))) = 12%nat /\
  map er_ids (flat_map (entries (lit "charge")) (of_type Errors.ST_TRAINING (List.concat cmp_procs))) = [[0; 0]; [0; 1]; [2; 0]; [2; 1]]%nat.
Proof.
  split; [|split; reflexivity]. intros s [<-|[<-|[<-|[]]]]; cbn; repeat split; auto; try lia; destruct H as [<-|[<-|[]]]; cbn; lia.
Qed.
