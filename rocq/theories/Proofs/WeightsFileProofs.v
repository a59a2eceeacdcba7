(** Weights files. *)
From Coq Require Import Reals Lra ZArith Ascii String Bool Arith Lia.
From Coq Require Import List.
From Verif Require Import Base.SumR Base.AssocMap Model.Strings Model.Printf Model.Settings Model.Scaling Model.SymLines Model.StructureFile
  Model.NeuralNetwork Model.DataFiles Spec.StringSpec Spec.ScalingSpec Spec.PrintfSpec Spec.NetworkSpec Spec.InitSpec Spec.DataFilesSpec
  Proofs.StringProofs Proofs.PrintfProofs Proofs.StructureFileText Proofs.SymLineProofs Proofs.NetworkSetupProofs Proofs.NetLayout Proofs.NetMore Proofs.NetInit
  Proofs.DataFilesText Proofs.ScalingFileProofs.
Import ListNotations.
Local Open Scope R_scope.

Lemma print_E_first v c s : print_E 16 v = c :: s -> c <> ch_hash.
Proof.
  unfold print_E. destruct (sci 16 v) as [m e]. destruct (Rlt_dec v 0).
  - cbn [lit list_ascii_of_string app]. intros E. injection E as <- _. discriminate.
  - cbn [app]. cbn [decimals app]. intros E. injection E as <- _. apply digit_not_hash. apply Z.mod_pos_bound. lia.
Qed.
Definition weight_line (v : R) (l : str) : Prop := one_line l /\ data_line l /\ exists ws, words_of l = print_E 16 v :: ws.
Definition small_row (r : conn_row) : Prop := fits (row_index r) /\ fits (row_ls r) /\ fits (row_ns r) /\
  match row_end r with Some (l, n) => fits l /\ fits n | None => True end.
Lemma letter_field (b : bool) : field (if b then lit " a" else lit " b") (if b then lit "a" else lit "b").
Proof. destruct b; exists (lit " "); (split; [discriminate|]); (split; [repeat constructor|]); (split; [reflexivity|]); (split; [plain_lit|discriminate]). Qed.
Lemma weights_line_good r : small_row r -> exists l, weights_line r = Done (l ++ [ch_lf]) /\ weight_line (row_value r) l.
Proof.
  intros (F1 & F2 & F3 & F4). unfold weights_line.
  match goal with |- context [line ?X] => set (l := X) end. exists l.
  set (tail := match row_end r with Some (a, n) => [lit " " ++ fmt_d 5 a; lit " " ++ fmt_d 5 n] | None => [] end).
  set (wtail := match row_end r with Some (a, n) => [print_d a; print_d n] | None => [] end).
  assert (Ft : Forall2 field tail wtail).
  { unfold tail, wtail. destruct (row_end r) as [[a n]|]; repeat constructor; apply fmt_d_field; lia. }
  set (ts := (if row_isweight r then lit " a" else lit " b") :: (lit " " ++ fmt_d 9 (row_index r)) :: (lit " " ++ fmt_d 5 (row_ls r)) :: (lit " " ++ fmt_d 5 (row_ns r)) :: tail).
  set (ws := (if row_isweight r then lit "a" else lit "b") :: print_d (row_index r) :: print_d (row_ls r) :: print_d (row_ns r) :: wtail).
  assert (Fts : Forall2 field ts ws).
  { unfold ts, ws. constructor; [apply letter_field|]. do 3 (constructor; [apply fmt_d_field; lia|]). exact Ft. }
  assert (El : l = fmt24 (row_value r) ++ List.concat ts).
  { unfold l, ts, tail. f_equal. cbn [List.concat]. destruct (row_isweight r), (row_end r) as [[a n]|]; cbn [List.concat lit list_ascii_of_string app]; rewrite <- ?app_assoc; cbn [app]; rewrite ?app_nil_r; reflexivity. }
  assert (Ll : (List.length l < 1023)%nat).
  { unfold l. rewrite !app_length. destruct (fmt_d_field 9 (row_index r)) as [_ L1]; [lia|]. destruct (fmt_d_field 5 (row_ls r)) as [_ L2]; [lia|].
    destruct (fmt_d_field 5 (row_ns r)) as [_ L3]; [lia|]. specialize (L1 F1). specialize (L2 F2). specialize (L3 F3). rewrite column_width.
    assert (L4 : (List.length (if row_isweight r then lit " a " else lit " b ") = 3)%nat) by (now destruct (row_isweight r)).
    assert (L5 : (List.length (match row_end r with Some (a, n) => lit " " ++ fmt_d 5 a ++ lit " " ++ fmt_d 5 n | None => [] end) <= 202)%nat).
    { destruct (row_end r) as [[a n]|]; [|cbn; lia]. destruct F4 as [Fa Fn]. destruct (fmt_d_field 5 a) as [_ La]; [lia|]. destruct (fmt_d_field 5 n) as [_ Ln]; [lia|].
      specialize (La Fa). specialize (Ln Fn). rewrite !app_length. change (List.length (lit " ")) with 1%nat. lia. }
    unfold str in *. change (List.length (lit " ")) with 1%nat. lia. }
  split; [rewrite line_short by auto; reflexivity|].
  destruct (print_plain (row_value r)) as [P N]. destruct (pad_left (print_E 16 (row_value r)) 24) as (b & A & B & _).
  assert (El' : l = b ++ print_E 16 (row_value r) ++ List.concat ts).
  { rewrite El. unfold fmt24. rewrite B. now rewrite <- app_assoc. }
  destruct (padded_fields b (print_E 16 (row_value r)) ts ws A P N Fts) as [W Nl].
  split; [unfold one_line; rewrite El'; exact Nl|]. split.
  - rewrite El. unfold fmt24. apply padded_first; auto. { destruct (print_E 16 (row_value r)); [congruence|cbn; lia]. } intros c s. apply print_E_first.
  - exists ws. rewrite El'. exact W.
Qed.
Lemma header_of_weights : exists ls, weights_header = Done (map (fun l => l ++ [ch_lf]) ls) /\ (forall l, In l ls -> one_line l /\ comment_line l).
Proof.
  destruct weights_header as [h| |] eqn:E; [|vm_compute in E; discriminate|vm_compute in E; discriminate].
  assert (C : forall t, In t h -> comment_text ch_hash t).
  { unfold weights_header in E.
    match type of E with createFileHeader ?a0 _ ?b0 ?c0 _ = _ => assert (G : forallb (fun t => forallb (fun c => negb (ch_eqb c ch_lf)) t) (a0 ++ b0 ++ c0) = true) by (vm_compute; reflexivity) end.
    eapply header_comments; [| | |exact E]; [discriminate| |exists 24%nat; split; [now left|lia]].
    intros t Ht I. rewrite forallb_forall in G. apply G in Ht. rewrite forallb_forall in Ht. apply Ht in I. vm_compute in I. discriminate. }
  clear E. assert (exists ls, h = map (fun l => l ++ [ch_lf]) ls /\ (forall l, In l ls -> one_line l /\ comment_line l)) as (ls & -> & H).
  { induction h as [|t h IH]; [exists []; split; auto; intros l []|]. destruct (C t (or_introl eq_refl)) as (r & -> & N).
    destruct IH as (ls & -> & H); [intros; apply C; now right|]. exists ((ch_hash :: r) :: ls). split; auto.
    intros l [<-|I]; auto. split; auto. exists r. reflexivity. }
  exists ls. split; auto.
Qed.
Lemma rows_small net : (1 <= numLayers net)%nat -> small_network net -> forall r, In r (writeConnections net) -> small_row r.
Proof.
  intros HL (S1 & S2 & S3) r I. assert (Lb := rows_labelled net HL r I). destruct (writeConnections_spec net (fun _ => 0) HL) as [_ Ei].
  assert (Ii : In (row_index r) (seq 1 (numConnections net))) by (rewrite <- Ei; now apply in_map). apply in_seq in Ii.
  unfold small_row, fits. unfold labelled in Lb. destruct (row_end r) as [[le ne]|].
  - destruct Lb as (_ & -> & L1 & L2 & L3 & _). assert (A := S2 (row_ls r) ltac:(lia)). assert (B := S2 _ L1). lia.
  - destruct Lb as (_ & L1 & L2 & _). assert (A := S2 (row_ls r) ltac:(lia)). lia.
Qed.
Lemma write_weights_lines net : (1 <= numLayers net)%nat -> small_network net -> exists hl ls,
  (forall l, In l hl -> one_line l /\ comment_line l) /\ writeWeights net = Done (file_of (hl ++ ls)) /\
  Forall2 weight_line (map row_value (writeConnections net)) ls.
Proof.
  intros HL HS. destruct header_of_weights as (hl & Eh & Hh).
  destruct (mapo_rel weights_line (fun r t => exists l, t = l ++ [ch_lf] /\ weight_line (row_value r) l) (writeConnections net)) as (ts & E & F).
  { intros r I. destruct (weights_line_good r (rows_small net HL HS r I)) as (l & El & G). eauto. }
  assert (exists ls, List.concat ts = file_of ls /\ Forall2 weight_line (map row_value (writeConnections net)) ls) as (ls & E1 & E2).
  { clear E. induction F as [|r t rs ts (l & -> & G) F (ls & A & B)]; [exists []; split; [reflexivity|constructor]|].
    exists (l :: ls). unfold file_of in *. cbn [map List.concat]. rewrite A. split; [reflexivity|constructor; auto]. }
  exists hl, ls. split; auto. split; auto. unfold writeWeights. rewrite Eh. cbn [bindo]. rewrite E. cbn [bindo]. now rewrite file_of_app, E1.
Qed.
Lemma data_lines_of v ls : Forall2 weight_line v ls -> (forall l, In l ls -> one_line l /\ data_line l).
Proof. induction 1 as [|x l v ls (A & B & _) F IH]; intros y I; [easy|]. destruct I as [<-|I]; auto. Qed.
Lemma column_of v ls : Forall2 weight_line v ls -> (forall x, In x v -> double x) ->
  map (fun l => match nth_error (words_of l) 0 with Some w => Some (atof w) | None => None end) ls = map Some v.
Proof.
  induction 1 as [|x l v ls (_ & _ & ws & W) F IH]; intros D; auto. cbn [map]. rewrite W. cbn [nth_error]. rewrite read_back_exact by (apply D; now left).
  f_equal. apply IH. intros; apply D; now right.
Qed.
Lemma all_some_map {A} (v : list A) : all_some (map Some v) = Some v. Proof. induction v as [|x v IH]; auto. cbn. now rewrite IH. Qed.
Lemma all_some_inv {A} (l : list (option A)) : forall v, all_some l = Some v -> l = map Some v.
Proof. induction l as [|[x|] l IH]; intros v; cbn; [intros E; injection E as <-; auto| |discriminate]. destruct (all_some l) as [r|]; [|discriminate]. intros E; injection E as <-. cbn. now rewrite (IH r). Qed.
Lemma block_start_ext N M l : (forall i, N i = M i) -> block_start N l = block_start M l.
Proof. intros H. induction l as [|l IH]; cbn; [reflexivity|rewrite IH, !H; reflexivity]. Qed.
Lemma connections_same a b : same_architecture a b -> (1 <= numLayers a)%nat -> numConnections a = numConnections b.
Proof. intros [A B] H. rewrite !numConnections_block by congruence. rewrite A. now apply block_start_ext. Qed.
Lemma connections_positive net : well_formed net -> (0 < numConnections net)%nat.
Proof.
  intros [A B]. rewrite numConnections_block by lia. destruct (numLayers net - 1)%nat as [|k] eqn:E; [lia|]. cbn. assert (0 < numNeurons net (S k))%nat by (apply B; lia). lia.
Qed.
Lemma weights_round_trip net net0 : well_formed net -> small_network net -> double_weights net -> same_architecture net0 net ->
  exists text net', writeWeights net = Done text /\ readWeights net0 text = Done (Some net') /\ same_weights net' net /\ same_architecture net' net.
Proof.
  intros W Sm D A. assert (HL : (1 <= numLayers net)%nat) by (destruct W; lia).
  destruct (write_weights_lines net HL Sm) as (hl & ls & Hh & E & F). set (v := map row_value (writeConnections net)) in *.
  destruct (writeConnections_spec net (fun _ => 0) HL) as [Ev _]. fold v in Ev.
  assert (Dv : forall x, In x v -> double x).
  { intros x I. rewrite Ev in I. apply in_map_iff in I as (p & <- & Ip). apply in_seq in Ip. rewrite numConnections_block in Ip by auto.
    destruct (getConnections_positions net (fun _ => 0) HL) as [Cw Cb]. destruct D as [Dw Db].
    destruct (position_cover net (numLayers net - 1) p) as [(l & j & k & L1 & L2 & L3 & ->)|(l & k & L1 & L2 & ->)]; [lia| |].
    - rewrite Cw by (auto; lia). apply Dw; auto; lia.
    - rewrite Cb by (auto; lia). apply Db; auto; lia. }
  exists (file_of (hl ++ ls)). assert (HL0 : (1 <= numLayers net0)%nat) by (destruct A as [A _]; lia).
  exists (setConnections (fun p => nth p v 0) net0). split; auto.
  assert (C0 := connections_same _ _ A HL0). assert (Lv : List.length v = numConnections net) by (rewrite Ev, map_length, seq_length; auto).
  split.
  - unfold readWeights, readColumn. rewrite split_file.
    2:{ intros l I. apply in_app_iff in I as [I|I]; [now apply Hh|now apply (data_lines_of v ls)]. }
    rewrite filter_app, filter_comments, filter_data; [|intros l I; now apply (data_lines_of v ls)|intros; now apply Hh]. cbn [app].
    rewrite (column_of v ls) by auto. rewrite map_length, Lv, C0. destruct (Nat.ltb_spec (numConnections net) (numConnections net)); [lia|].
    assert (P := connections_positive net W). destruct (Nat.eqb_spec (numConnections net) 0); [lia|].
    rewrite firstn_all2 by (rewrite map_length; lia). rewrite all_some_map. reflexivity.
  - destruct (setConnections_spec net0 (fun p => nth p v 0) HL0) as (S1 & S2 & S3 & _). destruct A as [A1 A2].
    destruct (getConnections_positions net (fun _ => 0) HL) as [Cw Cb].
    assert (Nv : forall p, (p < numConnections net)%nat -> nth p v 0 = getConnections net (fun _ => 0) p).
    { intros p Hp. rewrite Ev. rewrite (nth_indep _ 0 (getConnections net (fun _ => 0) 0%nat)) by (rewrite map_length, seq_length; auto). rewrite map_nth. now rewrite seq_nth. }
    assert (Pw : forall l j k, weight_position (numNeurons net0) l j k = weight_position (numNeurons net) l j k).
    { intros. unfold weight_position. now rewrite (block_start_ext _ _ _ A2), A2. }
    assert (Pb : forall l k, bias_position (numNeurons net0) l k = bias_position (numNeurons net) l k).
    { intros. unfold bias_position. now rewrite (block_start_ext _ _ _ A2), !A2. }
    split; [|destruct S1 as (T1 & T2 & _); split; [congruence|intros l; now rewrite T2, A2]].
    split.
    + intros l j k L1 L2 L3. rewrite S2 by (rewrite ?A1, ?A2; auto). rewrite Pw, Nv; [now apply Cw|].
      rewrite numConnections_block by auto. destruct (weight_in_block net l j k L2 L3) as [_ B]. assert (M := block_mono net (S l) (numLayers net - 1) ltac:(lia)). lia.
    + intros l k L1 L2. rewrite S3 by (rewrite ?A1, ?A2; auto). rewrite Pb, Nv; [now apply Cb|].
      rewrite numConnections_block by auto. destruct (bias_in_block net l k L2) as [_ B]. assert (M := block_mono net (S l) (numLayers net - 1) ltac:(lia)). lia.
Qed.

(** What a loaded file contains. *)
Lemma nth_map_some {A} (v : list A) d p : (p < List.length v)%nat -> nth_error (map Some v) p = Some (Some (nth p v d)).
Proof. intros H. rewrite nth_error_map, (nth_error_nth' v d) by auto. reflexivity. Qed.
Lemma nth_error_firstn_ {A} n (l : list A) : forall p, (p < n)%nat -> nth_error (firstn n l) p = nth_error l p.
Proof. revert l. induction n as [|n IH]; intros [|x l] [|p] H; cbn; auto; try lia. apply IH. lia. Qed.
Lemma weights_loaded net ls net' : (1 <= numLayers net)%nat -> (forall l, In l ls -> one_line l) -> readWeights net (file_of ls) = Done (Some net') ->
  exists data, selected data_line ls data /\ same_architecture net' net /\
  (forall l j k, (S l < numLayers net)%nat -> (j < numNeurons net l)%nat -> (k < numNeurons net (S l))%nat ->
     exists t w ws, nth_error data (weight_position (numNeurons net) l j k) = Some t /\ is_words t (w :: ws) /\ weight net' l j k = atof w) /\
  (forall l k, (S l < numLayers net)%nat -> (k < numNeurons net (S l))%nat ->
     exists t w ws, nth_error data (bias_position (numNeurons net) l k) = Some t /\ is_words t (w :: ws) /\ bias net' l k = atof w).
Proof.
  intros HL Hl E. unfold readWeights, readColumn in E. rewrite split_file in E by auto. set (data := filter (is_data ch_hash) ls) in *.
  exists data. split; [apply filter_selected|]. rewrite map_length in E.
  destruct (Nat.ltb_spec (List.length data) (numConnections net)) as [|Ld]; [discriminate E|].
  destruct (Nat.eqb (List.length data) 0); [discriminate E|].
  destruct (all_some _) as [v|] eqn:Ev; [|discriminate E]. apply done_inj in E. apply some_inj in E. subst net'. apply all_some_inv in Ev.
  assert (Lv : List.length v = numConnections net).
  { apply (f_equal (@List.length _)) in Ev. rewrite firstn_length, !map_length in Ev. lia. }
  assert (G : forall p, (p < numConnections net)%nat -> exists t w ws, nth_error data p = Some t /\ is_words t (w :: ws) /\ nth p v 0 = atof w).
  { intros p Hp. assert (N : nth_error (firstn (numConnections net) (map (fun l => match nth_error (words_of l) 0 with Some w => Some (atof w) | None => None end) data)) p = Some (Some (nth p v 0))).
    { rewrite Ev. apply nth_map_some. lia. }
    rewrite nth_error_firstn_, nth_error_map in N by auto. destruct (nth_error data p) as [t|]; [|discriminate N]. cbn [option_map] in N.
    exists t. assert (W := words_of_spec t). destruct (words_of t) as [|w ws]; [discriminate N|]. cbn in N. exists w, ws. split; auto. split; auto. congruence. }
  destruct (setConnections_spec net (fun p => nth p v 0) HL) as ((T1 & T2 & _) & S2 & S3 & _).
  split; [split; [auto|intros l; now rewrite T2]|]. split.
  - intros l j k L1 L2 L3. rewrite S2 by auto. apply G. rewrite numConnections_block by auto.
    destruct (weight_in_block net l j k L2 L3) as [_ B]. assert (M := block_mono net (S l) (numLayers net - 1) ltac:(lia)). lia.
  - intros l k L1 L2. rewrite S3 by auto. apply G. rewrite numConnections_block by auto.
    destruct (bias_in_block net l k L2) as [_ B]. assert (M := block_mono net (S l) (numLayers net - 1) ltac:(lia)). lia.
Qed.
