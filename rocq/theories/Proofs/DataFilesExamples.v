(** Data files: counterexamples and examples. *)
From Coq Require Import Reals Lra ZArith Ascii String Bool Arith Lia.
From Flocq Require Import Core.
From Coq Require Import List.
From Verif Require Import Base.SumR Base.AssocMap Model.Strings Model.Printf Model.Settings Model.Scaling Model.SymLines Model.StructureFile
  Model.NeuralNetwork Model.DataFiles Spec.StringSpec Spec.ScalingSpec Spec.PrintfSpec Spec.NetworkSpec Spec.InitSpec Spec.DataFilesSpec
  Proofs.StringProofs Proofs.PrintfProofs Proofs.StructureFileText Proofs.SymLineProofs Proofs.NetworkSetupProofs Proofs.NetLayout Proofs.NetMore Proofs.NetInit
  Proofs.NetExamples Proofs.DataFilesText Proofs.ScalingFileProofs Proofs.WeightsFileProofs.
Import ListNotations.
Local Open Scope R_scope.

(** ** Lines of another element *)
Lemma swapped_lines : exists s ls elements scs l w0 ws sc, (forall l, In l ls -> one_line l) /\ numbered_functions elements /\
  setupScaling s (file_of ls) elements = Done scs /\
  selected data_line ls ls /\ nth_error ls 0 = Some l /\ is_words l (w0 :: ws) /\ atoi w0 = Done 2%Z /\
  entry scs 0 0 sc /\ Some (s_Gmin sc) = option_map atof (nth_error ws 1).
Proof.
  set (l1 := lit "2 1 0.0 1.0 0.5 0.1"). set (l2 := lit "1 1 2.0 3.0 2.5 0.1").
  set (els := [[mkSfId 0 0 0]; [mkSfId 1 0 0]]).
  assert (N : forall l, In l [l1; l2] -> one_line l).
  { intros l Hl I. assert (G : forallb (fun t => forallb (fun c => negb (ch_eqb c ch_lf)) t) [l1; l2] = true) by (vm_compute; reflexivity).
    rewrite forallb_forall in G. apply G in Hl. rewrite forallb_forall in Hl. apply Hl in I. vm_compute in I. discriminate. }
  assert (D : forall l, In l [l1; l2] -> data_line l).
  { intros l Hl. apply is_data_spec. destruct Hl as [<-|[<-|[]]]; reflexivity. }
  assert (W1 : words_of l1 = map lit ["2"; "1"; "0.0"; "1.0"; "0.5"; "0.1"]%string) by (vm_compute; reflexivity).
  assert (W2 : words_of l2 = map lit ["1"; "1"; "2.0"; "3.0"; "2.5"; "0.1"]%string) by (vm_compute; reflexivity).
  exists settings_init, [l1; l2], els.
  assert (A : forall f l a b c d e w, words_of l = [a; b; c; d; e; w] -> forall x y, atoi a = Done x -> atoi b = Done y -> Z.to_nat y = (id_index f + 1)%nat ->
     exists sc, setScalingLine f ST_NONE l 0 0 = Done sc /\ s_Gmin sc = atof c).
  { intros f l a b c d e w E x y Ea Eb Ey. unfold setScalingLine. rewrite E. cbn [at_ nth_error throwing bindo]. rewrite Ea. cbn [bindo]. unfold at_; cbn [nth_error throwing bindo].
    destruct (Nat.eqb_spec (Z.to_nat x) (id_ec f + 1)) as [Ex|Ex].
    - cbn [bindo negb andb]. unfold SymLines.number_at, at_. cbn [nth_error throwing bindo]. unfold setScalingType. cbn [l_ec l_index]. rewrite Ex, Nat.eqb_refl. cbn [negb andb throwing].
      eexists. split; [reflexivity|reflexivity].
    - rewrite Eb. cbn [bindo]. rewrite Ey, Nat.eqb_refl. cbn [negb andb]. unfold SymLines.number_at, at_. cbn [nth_error throwing bindo]. unfold setScalingType. cbn [l_ec l_index]. rewrite Nat.eqb_refl.
      rewrite andb_false_r. cbn [throwing]. eexists. split; reflexivity. }
  destruct (A (mkSfId 0 0 0) l1 _ _ _ _ _ _ W1 2%Z 1%Z eq_refl eq_refl eq_refl) as (s1 & E1 & G1).
  destruct (A (mkSfId 1 0 0) l2 _ _ _ _ _ _ W2 1%Z 1%Z eq_refl eq_refl eq_refl) as (s2 & E2 & _).
  exists [[s1]; [s2]], l1, (lit "2"), (map lit ["1"; "0.0"; "1.0"; "0.5"; "0.1"]%string), s1.
  split; [exact N|]. split.
  { intros [|[|e]] i fs f Ef Ei; cbn in Ef; try (injection Ef as <-); try (destruct e; discriminate);
      destruct i as [|i]; cbn in Ei; try (injection Ei as <-; auto); destruct i; discriminate. }
  split.
  { unfold setupScaling. replace (scaling_type_of settings_init) with (@Done scaling_type ST_NONE) by (vm_compute; reflexivity). cbn [bindo target_range fst snd].
    unfold scaling_data. rewrite split_file by exact N. rewrite keep_lines by (intros l I; now apply D). rewrite filter_data by exact D. cbn [app bindo].
    unfold scale_elements, els. cbn [foldo]. unfold setScaling. cbn [fst snd number_list List.length seq List.combine mapo nth_error throwing bindo]. rewrite E1. cbn [bindo Nat.leb skipn app fst snd].
    cbn [nth_error throwing bindo]. rewrite E2. reflexivity. }
  split; [rewrite <- (filter_data [l1; l2] D) at 2; apply filter_selected|]. split; [reflexivity|]. split.
  { assert (W := words_of_spec l1). rewrite W1 in W. exact W. }
  split; [reflexivity|]. split; [exists [s1]; auto|]. rewrite G1. reflexivity.
Qed.

(** ** Truncated weights file *)
Lemma truncated_weights net : well_formed net -> small_network net -> exists ls l, writeWeights net = Done (file_of (ls ++ [l])) /\
  (forall x, In x (ls ++ [l]) -> one_line x) /\ forall net0, same_architecture net0 net -> readWeights net0 (file_of ls) = Undefined.
Proof.
  intros W S. assert (HL : (1 <= numLayers net)%nat) by (destruct W; lia). destruct (write_weights_lines net HL S) as (hl & ls & Hh & E & F).
  destruct (F2_nth _ _ _ F) as (L & _). destruct (writeConnections_spec net (fun _ => 0) HL) as [Ev _].
  rewrite Ev, map_length, seq_length in L. assert (P := connections_positive net W).
  destruct (exists_last (l := ls)) as (ls' & l & El); [intros ->; cbn in L; lia|]. subst ls.
  exists (hl ++ ls'), l. rewrite <- app_assoc. split; auto.
  assert (O : forall x, In x (hl ++ ls' ++ [l]) -> one_line x).
  { intros x I. apply in_app_iff in I as [I|I]; [now apply Hh|now apply (data_lines_of _ _ F)]. }
  split; auto. intros net0 A. assert (HL0 : (1 <= numLayers net0)%nat) by (destruct A as [A _]; lia). rewrite <- (connections_same _ _ A HL0) in *.
  unfold readWeights, readColumn. rewrite split_file by (intros x I; apply O; rewrite in_app_iff in *; rewrite in_app_iff; tauto).
  rewrite filter_app, filter_comments, filter_data; [|intros x I; apply (data_lines_of _ _ F); rewrite in_app_iff; now left|intros; now apply Hh].
  cbn [app]. rewrite map_length. rewrite app_length in L. cbn [List.length] in L. destruct (Nat.ltb_spec (List.length ls') (numConnections net0)); auto. lia.
Qed.

(** ** Hardness *)
Lemma print_E5_plain v : plain (print_E 5 v) /\ print_E 5 v <> [] /\ (forall c s, print_E 5 v = c :: s -> c <> ch_hash).
Proof.
  unfold print_E. destruct (sci 5 v) as [m e]. split; [|split].
  - apply plain_app; [destruct (Rlt_dec v 0); plain_lit|]. apply plain_app; [apply plain_decimals|]. apply plain_app; [plain_lit|].
    apply plain_app; [apply plain_decimals|]. apply plain_app; [plain_lit|].
    unfold exponent_text. apply plain_app; [|apply plain_decimals]. destruct (Z.ltb e 0); plain_lit.
  - intros E. apply (f_equal (@List.length _)) in E. rewrite !app_length, !decimals_length in E. cbn in E. lia.
  - intros c s. destruct (Rlt_dec v 0).
    + cbn [lit list_ascii_of_string app]. intros E. injection E as <- _. discriminate.
    + cbn [app]. cbn [decimals app]. intros E. injection E as <- _. apply digit_not_hash. apply Z.mod_pos_bound. lia.
Qed.
Lemma hardness_text h : readHardness (writeHardness h) = Done (Some (atof (print_E 5 h))).
Proof.
  destruct (print_E5_plain h) as (P & N & F). unfold readHardness, readColumn, writeHardness.
  assert (E : print_E 5 h ++ [ch_lf] = file_of [print_E 5 h]) by (unfold file_of; cbn [map List.concat]; now rewrite app_nil_r).
  rewrite E, split_file by (intros l [<-|[]]; now apply no_lf_plain). rewrite filter_data.
  2:{ intros l [<-|[]]. split; auto. intros (r & Er). now apply (F _ _ Er). }
  cbn [map]. destruct (fields_of (print_E 5 h) [] [] P N) as [W _]; [constructor|]. cbn [List.concat] in W. rewrite app_nil_r in W. rewrite W. reflexivity.
Qed.
Lemma no_data ls : (forall l, In l ls -> ~ data_line l) -> filter (is_data ch_hash) ls = [].
Proof.
  induction ls as [|l ls IH]; intros H; auto. cbn [filter]. destruct (is_data ch_hash l) eqn:E.
  - exfalso. apply (H l); [now left|]. now apply is_data_spec.
  - apply IH. intros; apply H; now right.
Qed.
Lemma filter_nil_inv ls : filter (is_data ch_hash) ls = [] -> forall l, In l ls -> ~ data_line l.
Proof. intros E l I D. assert (X : In l (filter (is_data ch_hash) ls)) by (apply filter_In; split; [exact I|now apply is_data_spec]). rewrite E in X. destruct X. Qed.
Lemma filter_one ls d : filter (is_data ch_hash) ls = [d] -> exists c1 c2, ls = c1 ++ d :: c2 /\ data_line d /\ forall l, In l (c1 ++ c2) -> ~ data_line l.
Proof.
  induction ls as [|l ls IH]; cbn [filter]; [discriminate|]. destruct (is_data ch_hash l) eqn:E.
  - intros X. injection X as -> X. exists [], ls. split; auto. split; [now apply is_data_spec|]. now apply filter_nil_inv.
  - intros X. destruct (IH X) as (c1 & c2 & -> & D & N). exists (l :: c1), c2. split; auto. split; auto.
    intros x [<-|I]; [|now apply N]. intros Y. apply is_data_spec in Y. congruence.
Qed.
Lemma hardness_lines ls : (forall l, In l ls -> one_line l) ->
  (readHardness (file_of ls) <> Thrown <-> exists c1 d c2, ls = c1 ++ d :: c2 /\ data_line d /\ forall l, In l (c1 ++ c2) -> ~ data_line l).
Proof.
  intros H. unfold readHardness, readColumn. rewrite split_file by exact H. split.
  - destruct (filter (is_data ch_hash) ls) as [|d [|e r]] eqn:E; cbn [map]; [congruence| |congruence]. intros _.
    destruct (filter_one _ _ E) as (c1 & c2 & X). now exists c1, d, c2.
  - intros (c1 & d & c2 & -> & D & N). rewrite filter_app. cbn [filter]. rewrite (proj2 (is_data_spec d) D).
    rewrite !no_data by (intros l I; apply N, in_or_app; auto). cbn [map app]. discriminate.
Qed.
Lemma hardness_comment : exists c1 d c2, [lit "# hardness"; lit "1.5"] = c1 ++ d :: c2 /\ data_line d /\ forall l, In l (c1 ++ c2) -> ~ data_line l.
Proof. destruct (filter_one [lit "# hardness"; lit "1.5"] (lit "1.5") eq_refl) as (c1 & c2 & H). now exists c1, (lit "1.5"), c2. Qed.
Lemma round_nearest x g : double g -> Rabs (round64 x - x) <= Rabs (g - x).
Proof.
  intros D. apply double_format in D. unfold round64. assert (Ve : Valid_exp (FLT_exp (-1074) 53)) by (apply FLT_exp_valid; reflexivity).
  destruct (round_N_pt radix2 (FLT_exp (-1074) 53) (fun z => negb (Z.even z)) x) as [_ H]. exact (H g D).
Qed.
Lemma hardness_error h : double h -> exists h', readHardness (writeHardness h) = Done (Some h') /\ Rabs (h' - h) <= / 10 ^ 5 * Rabs h.
Proof.
  intros D. exists (atof (print_E 5 h)). split; [apply hardness_text|].
  assert (A := relative_error 5 h ltac:(lia) D). assert (B := round_nearest (decimal_value (print_E 5 h)) h D). unfold atof. set (x := decimal_value (print_E 5 h)) in *.
  rewrite (Rabs_minus_sym h x) in B. assert (T := Rabs_triang (round64 x - x) (x - h)). replace (round64 x - x + (x - h)) with (round64 x - h) in T by ring.
  change (10 ^ (5 + 1)) with (10 ^ 6) in A. replace (/ 10 ^ 5 * Rabs h) with (5 / 10 ^ 6 * Rabs h + 5 / 10 ^ 6 * Rabs h) by (field). lra.
Qed.
Lemma sci_one v : 1 <= v <= 1 + / 1000000 -> sci 5 v = (100000, 0)%Z.
Proof.
  intros Hv. unfold sci. destruct (Req_EM_T v 0) as [E|_]; [lra|].
  assert (M : (mag radix10 v : Z) = 1%Z).
  { apply mag_unique. rewrite Rabs_pos_eq by lra. change (bpow radix10 (1 - 1)) with 1. change (bpow radix10 1) with 10. lra. }
  rewrite M. change (1 - 1)%Z with 0%Z. change (bpow radix10 (Z.of_nat 5 - 0)) with 100000. rewrite Rabs_pos_eq by lra.
  replace (ZnearestE (v * 100000)) with 100000%Z; [reflexivity|]. symmetry. apply Znearest_imp. rewrite Rabs_pos_eq; lra.
Qed.
Lemma hardness_lost : exists h, double h /\ readHardness (writeHardness h) <> Done (Some h).
Proof.
  set (g := 1 + / 2 ^ 30).
  assert (D1 : double 1). { exists 1%Z, 0%Z. split; [reflexivity|]. split; [lia|]. cbn. lra. }
  assert (Dg : double g). { exists (2 ^ 30 + 1)%Z, (-30)%Z. split; [reflexivity|]. split; [lia|]. unfold g. rewrite plus_IZR.
    change (powerRZ 2 (-30)) with (/ 2 ^ 30). change (IZR (2 ^ 30)) with (IZR 1073741824). replace (2 ^ 30) with (IZR 1073741824) by (cbn; lra). field. }
  assert (Hg : 1 <= g <= 1 + / 1000000).
  { unfold g. replace (2 ^ 30) with (IZR 1073741824) by (cbn; lra). split; [|]; lra. }
  assert (E : print_E 5 g = print_E 5 1).
  { unfold print_E. rewrite (sci_one g Hg), (sci_one 1) by lra. destruct (Rlt_dec g 0), (Rlt_dec 1 0); auto; lra. }
  destruct (Req_EM_T (atof (print_E 5 1)) 1) as [A|A].
  - exists g. split; auto. rewrite hardness_text, E, A. intros H. apply done_inj in H. apply some_inj in H.
    unfold g in H. replace (2 ^ 30) with (IZR 1073741824) in H by (cbn; lra). lra.
  - exists 1. split; auto. rewrite hardness_text. intros H. apply done_inj in H. apply some_inj in H. contradiction.
Qed.

(** ** Examples *)
Lemma double_int z : (Z.abs z < 2 ^ 53)%Z -> double (IZR z). Proof. intros H. exists z, 0%Z. split; auto. split; [lia|]. cbn. lra. Qed.
Definition ex_settings : settings := fst (loadFile settings_init (file_of [lit "scale_symmetry_functions"; lit "scale_min_short -1"])).
Definition ex_functions : list (list sf_id) := [[mkSfId 0 0 0; mkSfId 0 1 0]; [mkSfId 1 0 0]].
Definition ex_rows : list (list sf_row) := [[mkSfRow 0 3 1 2; mkSfRow (-5) 7 2 3]; [mkSfRow 4 6 5 1]].
Lemma ex_atof : atof (lit "-1") = -1.
Proof.
  unfold atof. replace (decimal_value (lit "-1")) with (-1).
  - unfold round64. apply round_generic; [apply valid_rnd_N|]. apply double_format. replace (-1) with (IZR (-1)) by lra. now apply double_int.
  - unfold decimal_value. destruct (scan_sign (skip_space (lit "-1"))) as [neg s] eqn:E. vm_compute in E. injection E as <- <-.
    destruct (scan_digits _ 0) as [[a n1] s] eqn:E. vm_compute in E. injection E as <- <- <-. cbv beta iota zeta. change (Nat.eqb (1 + 0) 0) with false. cbv iota.
    cbn [scan_exponent]. change (0 - Z.of_nat 0)%Z with 0%Z. change (bpow radix10 0) with 1. lra.
Qed.
Lemma ex_requested : requested ex_settings ST_SCALE (-1) 1.
Proof.
  split.
  - split; [vm_compute; reflexivity|]. unfold has. intros H. vm_compute in H. discriminate.
  - split.
    + left. split; [vm_compute; reflexivity|]. exists (lit "-1"). split; [vm_compute; reflexivity|]. symmetry. exact ex_atof.
    + right. split; auto. unfold has. intros H. vm_compute in H. discriminate.
Qed.
Lemma entry_cases {A} (l : list (list A)) e i x : entry l e i x -> exists r, In r l /\ In x r.
Proof. intros (r & A1 & A2). exists r. split; eapply nth_error_In; eauto. Qed.
Lemma ex_scaling : requested ex_settings ST_SCALE (-1) 1 /\ numbered_functions ex_functions /\
  Forall2 (fun fs (rs : list sf_row) => List.length fs = List.length rs) ex_functions ex_rows /\ countable ex_rows /\
  (forall e i r, entry ex_rows e i r -> double_row r) /\ entry ex_rows 0 1 (mkSfRow (-5) 7 2 3).
Proof.
  split; [exact ex_requested|]. split; [|split; [|split; [|split]]].
  - intros [|[|e]] i fs f Ef Ei; cbn in Ef; try (injection Ef as <-); try (destruct e; discriminate);
      (destruct i as [|[|i]]; cbn in Ei; try (injection Ei as <-; auto); try discriminate; destruct i; discriminate).
  - repeat constructor.
  - split; [reflexivity|]. intros r [<-|[<-|[]]]; reflexivity.
  - intros e i r H. apply entry_cases in H as (rs & [<-|[<-|[]]] & I).
    + destruct I as [<-|[<-|[]]]; (split; [|split; [|split]]); cbn; try (apply double_int; reflexivity).
    + destruct I as [<-|[]]. unfold double_row. cbn [r_min r_max r_mean r_sigma]. repeat (apply conj); apply double_int; reflexivity.
  - exists [mkSfRow 0 3 1 2; mkSfRow (-5) 7 2 3]. split; reflexivity.
Qed.
Lemma ex_weights : well_formed ex_net /\ small_network ex_net /\ double_weights ex_net /\ same_architecture (setConnections ex_c ex_net) ex_net.
Proof.
  split; [exact ex_wf|]. split; [|split].
  - split; [reflexivity|]. split; [|reflexivity]. intros l _. cbn. destruct (Nat.eqb l 0); [lia|]. destruct (Nat.eqb l 1); lia.
  - assert (H : forall n, (n < 10)%nat -> double (INR n)). { intros n Hn. rewrite INR_IZR_INZ. apply double_int. lia. }
    assert (B : forall l, (numNeurons ex_net l <= 3)%nat) by (intros l; cbn; destruct (Nat.eqb l 0); [lia|]; destruct (Nat.eqb l 1); lia).
    split.
    + intros l j k L1 L2 L3. unfold weight. cbn [ex_net neurons n_weights]. apply H. assert (Bl := B l). cbn [ex_net numLayers] in L1. lia.
    + intros l k L1 L2. unfold bias. cbn [ex_net neurons n_bias]. apply H. assert (Bl := B (S l)). lia.
  - destruct (setConnections_spec ex_net ex_c ltac:(simpl; lia)) as ((A & B & _) & _). split; [auto|]. intros l. now rewrite B.
Qed.
Definition ex_container : container := mkContainer 2 0 0 0 2 0 0 2 4 [] [] [] [].
Definition ex_stats : list (nat * stat_data) := [(1%nat, [(0%nat, ex_container)])].
Lemma ex_training : numbered_functions [[mkSfId 0 0 0]] /\
  Forall2 (fun fs (st : nat * stat_data) => List.length fs = fst st) [[mkSfId 0 0 0]] ex_stats /\
  (forall e st, nth_error ex_stats e = Some st -> (Z.of_nat (fst st) < 2 ^ 31)%Z /\ forall i, (i < fst st)%nat ->
     (forall v, In v [0; 2] -> double v) /\ (exists v w, In v [0; 2] /\ In w [0; 2] /\ v < w) /\
     exists c, mget Nat.eqb i (snd st) = Some c /\ holds [0; 2] c).
Proof.
  split; [|split].
  - intros [|e] [|i] fs f Ef Ei; cbn in Ef; try (destruct e; discriminate); injection Ef as <-; cbn in Ei; [injection Ei as <-; auto|destruct i; discriminate].
  - repeat constructor.
  - intros [|e] st E; [|destruct e; discriminate]. cbn in E. injection E as <-. cbn [fst snd]. split; [reflexivity|].
    intros [|i] Hi; [|lia]. split; [|split].
    + intros v [<-|[<-|[]]]; apply double_int; reflexivity.
    + exists 0, 2. cbn [In]. split; auto. split; auto. lra.
    + exists ex_container. split; [reflexivity|]. split; [|split].
      * split; [reflexivity|]. cbn [ex_container c_sum c_sum2 c_min c_max rsum map fold_right]. split; [cbn; lra|]. split; [cbn; lra|]. intros _.
        split; (split; [cbn; auto|]); intros x [<-|[<-|[]]]; lra.
      * discriminate.
      * assert (B : 2 <= dbl_max).
        { unfold dbl_max. assert (P : 2 ^ 2 <= 2 ^ 1023) by (apply Rle_pow; [lra|lia]). assert (Q : / 2 ^ 52 < 1) by (rewrite <- Rinv_1; apply Rinv_lt_contravar; [|apply Rlt_pow_R1; [lra|lia]]; rewrite Rmult_1_l; apply pow_lt; lra).
          assert (T : (2 - 1) * 2 ^ 2 <= (2 - / 2 ^ 52) * 2 ^ 1023) by (apply Rmult_le_compat; lra). lra. }
        apply Forall_forall. intros x [<-|[<-|[]]]; unfold finite_double; lra.
Qed.
