(** Cutoff setting and concrete cases for C72 and C73. *)
From Coq Require Import Reals ZArith Ascii String Bool Arith Lia Lra Permutation Sorted.
From Flocq Require Import Core.
From Coq Require Import List.
From Verif Require Import Base.AssocMap Model.Strings Model.Printf Model.ElementMap Model.CoreFunction Model.CutoffFunction
  Model.CompactScreening Model.Scaling Model.SymFunctions Model.SymSetup Model.SymLines Model.Settings Spec.StringSpec Spec.ElementSpec Spec.CompactSpec
  Spec.SymSpec Spec.SetupSpec Spec.ForceSpec Spec.SymLineSpec Proofs.StringProofs Proofs.ElementMapProofs Proofs.SetupProofs Proofs.SetupExamples Proofs.UnitProofs
  Proofs.SymLineProofs Proofs.SymLineSetup Proofs.SymLineMode Proofs.SymLineFinal Proofs.SymLineResult Proofs.PruneSettings Proofs.SymLinePrune.
Import ListNotations.
Local Open Scope R_scope.

(** ** Cutoff *)
Lemma kinds_number t : nth_error cutoff_kinds (cutoff_number t) = Some t.
Proof. now destruct t. Qed.
Lemma number_kinds n t : nth_error cutoff_kinds n = Some t -> n = cutoff_number t.
Proof. do 9 (destruct n as [|n]; [cbn; intros H; injection H as <-; reflexivity|]). destruct n; discriminate. Qed.
Theorem cutoff_setting value t alpha : reduce value = value ->
  setupCutoff value = Done (t, alpha) <->
  exists ws, is_words value ws /\ type_no ws 0 (Z.of_nat (cutoff_number t)) /\
    (num ws 1 alpha \/ (List.length ws <= 1)%nat /\ alpha = 0) /\ alpha < 1.
Proof.
  intros Hr. destruct (words_exist_unique value) as (ws & Hw & Uw). 
  assert (Es : split value ch_space = ws) by (rewrite <- Hr; apply split_reduce_tokens, Hw). unfold setupCutoff. rewrite Es. clear Es. split.
  - intros H. apply bindo_done in H. destruct H as (w & E0 & H). apply throwing_done in E0.
    apply bindo_done in H. destruct H as (z & E1 & H). apply bindo_done in H. destruct H as (a & E2 & H).
    apply bindo_done in H. destruct H as (t' & E3 & H). injection H as <- <-. exists ws. split; auto.
    assert (T : z = Z.of_nat (cutoff_number t')).
    { destruct (Z.ltb z 0) eqn:Q; [discriminate|]. apply throwing_done in E3. apply number_kinds in E3. apply Z.ltb_ge in Q. lia. }
    split. { exists w. split; [exact E0|congruence]. }
    destruct (Nat.ltb 1 (List.length ws)) eqn:Q.
    + apply bindo_done in E2. destruct E2 as (a' & Ea & E2). unfold number_at in Ea. apply bindo_done in Ea. destruct Ea as (w' & Ew & Ea).
      apply throwing_done in Ew. injection Ea as <-. destruct (ltR 0 (atof w') && leR 1 (atof w'))%bool eqn:Q2; [discriminate|]. injection E2 as <-.
      split; [left; exists w'; auto|]. apply andb_false_iff in Q2. unfold ltR, leR in Q2.
      destruct (Rlt_dec 0 (atof w')), (Rle_dec 1 (atof w')); destruct Q2; try discriminate; lra.
    + injection E2 as <-. apply Nat.ltb_ge in Q. split; [right; auto|lra].
  - intros (ws' & Hw' & (w & Ew & Ez) & Ha & Hl). rewrite (Uw _ Hw') in *. clear Uw Hw'.
    apply bindo_done. exists w. split; [now apply throwing_done|]. apply bindo_done. eexists. split; [exact Ez|].
    apply bindo_done. exists alpha. split.
    + destruct (Nat.ltb 1 (List.length ws')) eqn:Q.
      * destruct Ha as [(w' & Ew' & ->)|(L & _)]; [|apply Nat.ltb_lt in Q; lia]. unfold word in Ew'. unfold number_at, at_. rewrite Ew'.
        cbn [throwing bindo]. unfold leR. destruct (Rle_dec 1 (atof w')); [lra|]. rewrite andb_false_r. reflexivity.
      * apply Nat.ltb_ge in Q. destruct Ha as [(w' & Ew' & _)|(_ & ->)]; [|reflexivity]. unfold word in Ew'.
        assert (1 < List.length ws')%nat by (apply nth_error_Some; congruence). lia.
    + apply bindo_done. exists t. split; [|reflexivity]. destruct (Z.ltb _ 0) eqn:Q; [apply Z.ltb_lt in Q; lia|].
      apply throwing_done. rewrite Nat2Z.id. apply kinds_number.
Qed.

(** ** Numbers *)
Lemma atof_int (s : str) (z : Z) : decimal_value s = IZR z -> (Z.abs z <= 2 ^ 53)%Z -> atof s = IZR z.
Proof.
  intros E L. unfold atof, round64. rewrite E.
  assert (Ve : Valid_exp (FLT_exp (-1074) 53)) by (apply FLT_exp_valid; reflexivity).
  apply round_generic; [apply valid_rnd_N|]. apply generic_format_FLT. destruct (Z.eq_dec (Z.abs z) (2 ^ 53)) as [Q|Q].
  - exists (Float radix2 (Z.sgn z) 53); cbn [Fnum Fexp].
    + unfold F2R. cbn [Fnum Fexp]. rewrite <- IZR_Zpower by lia. rewrite <- mult_IZR. f_equal. change (radix2 ^ 53)%Z with (2 ^ 53)%Z. rewrite <- Q. symmetry. rewrite Z.mul_comm. apply Z.abs_sgn.
    + change (radix2 ^ 53)%Z with (2 ^ 53)%Z. lia.
    + lia.
  - exists (Float radix2 z 0); cbn [Fnum Fexp]; [unfold F2R; cbn; ring|change (radix2 ^ 53)%Z with (2 ^ 53)%Z; lia|lia].
Qed.
Ltac number := apply atof_int; [cbv; lra|vm_compute; congruence].

(** ** A settings file *)
Definition ex_settings : str := join [ch_lf] (map lit
  ["number_of_elements 2"; "elements H O"; "cutoff_type 1"; "symfunction_short H 2 O 1 0 6";
   "symfunction_short O 3 H H 1 -1 4 6"; "symfunction_short O 21 H O 0 6 20 100 p2"]%string).
Definition ex_values : list (str * nat) :=
  [(lit "H 2 O 1 0 6", 3%nat); (lit "O 3 H H 1 -1 4 6", 4%nat); (lit "O 21 H O 0 6 20 100 p2", 5%nat)].
Definition HO : element_map := match registerElements em_init (lit "H O") with Some (m, _) => m | None => em_init end.
Lemma HO_registered : registered HO.
Proof.
  exists (lit "H O"), [lit "H"; lit "O"]. split. { apply is_words_iff. vm_compute. reflexivity. }
  split. { constructor; [intros [H|H]; [discriminate|easy]|constructor; [intros H; easy|constructor]]. }
  split; [|vm_compute; reflexivity]. intros s [<-|[<-|H]]; [exists 1%nat|exists 8%nat|easy]; split; try lia; reflexivity.
Qed.
Lemma ex_loaded : exists s, loadFile settings_init ex_settings = (s, 0%nat) /\ getValues s (lit "symfunction_short") = Some ex_values.
Proof. eexists. split; [vm_compute; reflexivity|]. vm_compute. reflexivity. Qed.
Lemma cutoff_ok t rc : exists fc, cf_configure t rc 0 = Some fc.
Proof. unfold cf_configure, cf_setCutoffParameter. destruct (Rlt_dec 0 0); [lra|]. destruct (Rge_dec 0 1); [lra|]. eauto. Qed.
Lemma compact_ok k asym l r : l < r -> exists c, compact_config k asym l r = Some c.
Proof. intros H. unfold compact_config, cp_setLeftRight. destruct (Rge_dec l r); [lra|]. eauto. Qed.
Lemma number_of ws i w z : nth_error ws i = Some w -> atof w = IZR z -> num ws i (IZR z).
Proof. intros H E. exists w. auto. Qed.
Lemma exponent_of z : (Z.abs z < 2 ^ 31)%Z -> exponent (IZR z) z true.
Proof.
  intros H. split. { symmetry. apply (Zrnd_IZR ZnearestA). } split; [lia|]. split; auto. intros _. rewrite Rminus_eq_0, Rabs_R0.
  unfold dbl_min. left. apply Rinv_0_lt_compat, pow_lt. lra.
Qed.
Lemma ex_described v : In v ex_values -> exists ec k, describes HO CT_COS 0 (fst v) ec k /\ ordinary k.
Proof.
  intros [<-|[<-|[<-|H]]]; [| | |easy]; cbn [fst].
  - destruct (cutoff_ok CT_COS 6) as (fc & E). exists 0%nat, (ExpRad (mkER 1 1 0 6 fc)). split; [|cbn; lra].
    exists [lit "H"; lit "2"; lit "O"; lit "1"; lit "0"; lit "6"], 2%Z.
    split; [apply is_words_iff; vm_compute; reflexivity|]. split; [exists (lit "H"); split; [reflexivity|vm_compute; reflexivity]|].
    split; [exists (lit "2"); split; reflexivity|]. constructor; auto.
    + exists (lit "O"). split; [reflexivity|vm_compute; reflexivity].
    + eapply number_of; [reflexivity|number].
    + eapply number_of; [reflexivity|number].
    + eapply number_of; [reflexivity|number].
  - destruct (cutoff_ok CT_COS 6) as (fc & E). exists 1%nat, (ExpAngn (mkEA 0 0 1 0 (-1) 4 4 true 6 fc)). split.
    2:{ cbn. split; [lra|]. unfold ordinary_exponent. rewrite Rabs_pos_eq by lra. split; [right|lra]. unfold dbl_min.
        apply Rlt_le_trans with (/ 1); [|lra]. apply Rinv_lt_contravar; [rewrite Rmult_1_l; apply pow_lt; lra|]. apply Rlt_pow_R1; [lra|apply Nat.ltb_lt; reflexivity]. }
    exists [lit "O"; lit "3"; lit "H"; lit "H"; lit "1"; lit "-1"; lit "4"; lit "6"], 3%Z.
    split; [apply is_words_iff; vm_compute; reflexivity|]. split; [exists (lit "O"); split; [reflexivity|vm_compute; reflexivity]|].
    split; [exists (lit "3"); split; reflexivity|].
    apply (doc_ExpAngn HO CT_COS 0 _ 0 0 1 (-1) 4 6 0 4 true fc); auto.
    + exists (lit "H"). split; [reflexivity|vm_compute; reflexivity].
    + exists (lit "H"). split; [reflexivity|vm_compute; reflexivity].
    + eapply number_of; [reflexivity|number].
    + eapply number_of; [reflexivity|number].
    + eapply number_of; [reflexivity|number].
    + eapply number_of; [reflexivity|number].
    + apply exponent_of. lia.
  - destruct (compact_ok CK_POLY2 false 0 6) as (c & Ec); [lra|].
    destruct (compact_ok CK_POLY2 false (degrees 20) (degrees 100)) as (a & Ea). { unfold degrees. pose proof PI_RGT_0. lra. }
    exists 1%nat, (CompAngn (mkCA (Nat.min 0 1) (Nat.max 0 1) 0 6 (degrees 20) (degrees 100) c a)). split; [|exact I].
    exists [lit "O"; lit "21"; lit "H"; lit "O"; lit "0"; lit "6"; lit "20"; lit "100"; lit "p2"], 21%Z.
    split; [apply is_words_iff; vm_compute; reflexivity|]. split; [exists (lit "O"); split; [reflexivity|vm_compute; reflexivity]|].
    split; [exists (lit "21"); split; reflexivity|].
    apply (doc_CompAngn HO CT_COS 0 _ 0 1 0 6 20 100 (lit "p2") CK_POLY2 false c a); auto.
    + exists (lit "H"). split; [reflexivity|vm_compute; reflexivity].
    + exists (lit "O"). split; [reflexivity|vm_compute; reflexivity].
    + eapply number_of; [reflexivity|number].
    + eapply number_of; [reflexivity|number].
    + eapply number_of; [reflexivity|number].
    + eapply number_of; [reflexivity|number].
    + reflexivity.
    + constructor.
    + unfold window. lra.
Qed.
Lemma line_sorts : sorts lf_lt (isort lf_lt).
Proof. apply insertion_sorts, lf_lt_order. Qed.
Lemma ex_case : exists s fss rmax, registered HO /\ sorts lf_lt (isort lf_lt) /\
  loadFile settings_init ex_settings = (s, 0%nat) /\ getValues s (lit "symfunction_short") = Some ex_values /\
  setupSymmetryFunctions (isort lf_lt) HO true (/ 2) CT_COS 0 ex_values = Done (fss, rmax) /\
  (forall v ec k, In v ex_values -> describes HO CT_COS 0 (fst v) ec k -> ordinary k).
Proof.
  destruct ex_loaded as (s & E1 & E2).
  destruct (proj2 (accepted HO true (/ 2) CT_COS 0 HO_registered ltac:(lra) (isort lf_lt) ex_values line_sorts)) as (fss & rmax & E).
  { intros v Hv. destruct (ex_described v Hv) as (ec & k & D & _). eauto. }
  exists s, fss, rmax. split; [apply HO_registered|]. split; [apply line_sorts|]. split; auto. split; auto. split; auto.
  intros v ec k Hv D. destruct (ex_described v Hv) as (ec' & k' & D' & O). destruct (describes_unique _ _ _ _ _ _ _ _ D D') as (_ & ->). exact O.
Qed.

(** Ranges 3, 4 and 5 (the line numbers), threshold 4; sensitivities. *)
Definition with_range (f : linefn) : linefn :=
  mkLF (lf_ec f) (lf_subtype f) (lf_line f) (mkSF (mkCommon (sf_index (sf_c (lf_sf f))) (sf_perElement (sf_c (lf_sf f)))
    (sf_ci (sf_c (lf_sf f))) (mkScaling ST_NONE 0 (INR (lf_line f)) 0 0 0 0 1)) (lf_kind f)).
Definition ex_sensitivity : list (list R) := [[0.5]; [0.1; 2]].
Lemma ex_prune : exists s fss rmax elements prune, registered HO /\ sorts lf_lt (isort lf_lt) /\
  loadFile settings_init ex_settings = (s, 0%nat) /\ getValues s (lit "symfunction_short") = Some ex_values /\
  setupSymmetryFunctions (isort lf_lt) HO true (/ 2) CT_COS 0 ex_values = Done (fss, rmax) /\
  same_functions fss elements /\ (exists fs f, In fs elements /\ In f fs /\ wide 4 f = true) /\
  (exists fs f, In fs elements /\ In f fs /\ wide 4 f = false) /\
  pruneSensitivity 1 ex_sensitivity elements = Done prune /\
  exists e fs, nth_error elements e = Some fs /\ sensitive 1 ex_sensitivity e fs <> [].
Proof.
  destruct ex_case as (s & fss & rmax & HR & Hs & E1 & E2 & E & O).
  pose proof (made_lines HO true (/ 2) CT_COS 0 HO_registered ltac:(lra) ex_values _ fss rmax Hs E) as P. cbn [map snd ex_values] in P.
  set (elements := map (map with_range) fss).
  assert (Sf : same_functions fss elements).
  { unfold elements, same_functions. clear. induction fss as [|fs fss IH]; cbn; constructor; auto. clear. induction fs; cbn; constructor; auto. }
  assert (G : forall n, In n [3; 4; 5]%nat -> exists fs f, In fs elements /\ In f fs /\ lf_line f = n /\ (wide 4 f = true <-> (4 <= n)%nat)).
  { clear E1 E2 E O. intros n Hn. apply (Permutation_in _ (Permutation_sym P)) in Hn. apply in_map_iff in Hn. destruct Hn as (f & Ef & Hf). apply in_concat in Hf. destruct Hf as (fs & Hfs & Hf).
    exists (map with_range fs), (with_range f). split; [now apply in_map|]. split; [now apply in_map|]. split; [exact Ef|].
    unfold wide. cbn. rewrite Rminus_0_r, Rabs_pos_eq by apply pos_INR. rewrite Ef. replace 4 with (INR 4) by (cbn; lra).
    destruct (Rle_dec (INR 4) (INR n)) as [Q|Q]; split; intros X; auto; try discriminate; [now apply INR_le|]. exfalso. apply Q. now apply le_INR. }
  assert (L : map (fun fs => List.length fs) elements = [1; 2]%nat).
  { clear E1 E2 O. destruct (functions HO true (/ 2) CT_COS 0 HO_registered ltac:(lra) _ ex_values fss rmax Hs E) as (L & (vss & Pv & F) & Hec & _).
    assert (Ln : em_size HO = 2%nat) by (vm_compute; reflexivity). rewrite Ln in L.
    destruct fss as [|f0 [|f1 [|]]]; try discriminate. cbn [elements map concat] in *. rewrite app_nil_r in P.
    inversion F as [|v0 ? vr ? F0 Fr]; subst. inversion Fr as [|v1 ? vr' ? F1 Fr']; subst. inversion Fr'; subst. cbn [concat] in Pv. rewrite app_nil_r in Pv.
    assert (Q : forall v f e, In v ex_values -> made_from HO true (/ 2) CT_COS 0 v f -> lf_ec f = e -> (e = 0%nat <-> v = (lit "H 2 O 1 0 6", 3%nat))).
    { intros v f e Hv (_ & _ & k & D & _) Hf. destruct D as (ws & n & W & (w & Ew & Ei) & _). unfold word in Ew. rewrite Hf in Ei. clear Hf.
      destruct Hv as [<-|[<-|[<-|Hv]]]; [| | |easy]; apply is_words_iff in W; vm_compute in W; subst ws; cbn [nth_error] in Ew; injection Ew as <-; vm_compute in Ei; injection Ei as <-; split; intros X; try discriminate; auto. }
    assert (L0 : List.length f0 = List.length (filter (fun v => Nat.eqb (snd v) 3) (v0 ++ v1))).
    { rewrite filter_app. replace (filter _ v1) with (@nil (str * nat)).
      - rewrite app_nil_r. assert (A : forall v, In v v0 -> Nat.eqb (snd v) 3 = true).
        { intros v Hv. destruct (F2_in_l _ _ _ _ F0 Hv) as (f & Hf & M). assert (v = (lit "H 2 O 1 0 6", 3%nat)) as ->; [|reflexivity].
          apply (Q v f (lf_ec f)); auto; [apply (Permutation_in _ Pv); apply in_or_app; auto|]. now apply (Hec 0%nat f0). }
        rewrite <- (F2_len _ _ _ F0). clear - A. induction v0 as [|v v0 IH]; auto. cbn [filter]. rewrite A by now left. cbn. f_equal. apply IH. intros; apply A; now right.
      - assert (A : forall v, In v v1 -> Nat.eqb (snd v) 3 = false).
        { intros v Hv. destruct (F2_in_l _ _ _ _ F1 Hv) as (f & Hf & M). assert (Hin : In v ex_values) by (apply (Permutation_in _ Pv); apply in_or_app; auto).
          pose proof (Q v f _ Hin M (Hec 1%nat f1 f eq_refl Hf)) as Qv. destruct Hin as [<-|[<-|[<-|H]]]; [|reflexivity|reflexivity|easy].
          exfalso. assert (1%nat = 0%nat) by (apply Qv; reflexivity). discriminate. }
        clear - A. induction v1 as [|v v1 IH]; auto. cbn [filter]. rewrite A by now left. apply IH. intros; apply A; now right. }
    assert (Lt : (List.length f0 + List.length f1 = 3)%nat). { rewrite <- app_length, <- (map_length lf_line). rewrite (Permutation_length P). reflexivity. }
    assert (L1 : List.length f0 = 1%nat). { rewrite L0. rewrite (Permutation_length (filter_perm _ _ _ Pv)). reflexivity. }
    rewrite !map_length. rewrite L1 in *. repeat f_equal. lia. }
  assert (Ls : forall e fs, nth_error elements e = Some fs -> List.length (nth e ex_sensitivity []) = List.length fs).
  { clear E1 E2 E O. intros e fs H. apply (map_nth_error (fun fs => List.length fs)) in H. rewrite L in H. destruct e as [|[|[|]]]; cbn in H; try discriminate; injection H as <-; reflexivity. }
  destruct (proj2 (sensitivity_accepted elements 1 ex_sensitivity)) as (prune & Hp). { intros e fs H. rewrite (Ls e fs H). apply le_n. }
  exists s, fss, rmax, elements, prune. do 4 (split; [assumption|]). split; [exact E|]. split; [exact Sf|]. clear E1 E2 E O.
  split. { destruct (G 5%nat) as (fs & f & H1 & H2 & _ & H3); [cbn; auto|]. exists fs, f. repeat split; auto. apply H3. lia. }
  split. { destruct (G 3%nat) as (fs & f & H1 & H2 & _ & H3); [cbn; auto|]. exists fs, f. repeat split; auto. destruct (wide 4 f) eqn:W; auto. assert (4 <= 3)%nat by now apply H3. lia. }
  split; auto. destruct elements as [|f0 [|f1 [|]]]; try discriminate. exists 1%nat, f1. split; [reflexivity|].
  injection L as _ L1. destruct f1 as [|a [|b [|]]]; try discriminate. unfold sensitive. cbn.
  destruct (Rle_dec 1 0.1) as [Q|Q]; [lra|]. destruct (Rle_dec 1 2) as [Q'|Q']; [|lra]. discriminate.
Qed.

Theorem gaussian_alpha em t alpha line ec k : describes em t alpha line ec k -> is_gaussian k = true -> 0 <= alpha < 1.
Proof.
  intros (ws & n & _ & _ & _ & D) G.
  assert (X : forall rc fc, cf_configure t rc alpha = Some fc -> 0 <= alpha < 1).
  { intros rc fc. unfold cf_configure, cf_setCutoffParameter. destruct (Rlt_dec alpha 0); [discriminate|]. destruct (Rge_dec alpha 1); [discriminate|]. lra. }
  destruct D; try discriminate; eauto.
Qed.
Theorem negative_alpha : exists value t alpha, reduce value = value /\ setupCutoff value = Done (t, alpha) /\ alpha < 0.
Proof.
  exists (lit "1 -1"), CT_COS, (-1). split; [reflexivity|]. split; [|lra]. apply cutoff_setting; [reflexivity|].
  exists [lit "1"; lit "-1"]. split; [apply is_words_iff; vm_compute; reflexivity|]. split; [exists (lit "1"); split; reflexivity|].
  split; [|lra]. left. eapply number_of; [reflexivity|number].
Qed.
Lemma ex_cutoff : reduce (lit "5 0") = lit "5 0" /\ setupCutoff (lit "5 0") = Done (CT_POLY1, 0).
Proof.
  split; [reflexivity|]. apply cutoff_setting; [reflexivity|].
  exists [lit "5"; lit "0"]. split; [apply is_words_iff; vm_compute; reflexivity|]. split; [exists (lit "5"); split; reflexivity|].
  split; [|lra]. left. eapply number_of; [reflexivity|number].
Qed.
Lemma ex_values_case : exists v f k, In v ex_values /\ made_from HO true (/ 2) CT_COS 0 v f /\
  describes HO CT_COS 0 (fst v) (lf_ec f) k /\ ordinary k.
Proof.
  destruct ex_case as (s & fss & rmax & HR & Hs & _ & _ & E & O).
  destruct (functions HO true (/ 2) CT_COS 0 HO_registered ltac:(lra) _ ex_values fss rmax Hs E) as (_ & (vss & Pv & F) & _).
  assert (H : In (lit "H 2 O 1 0 6", 3%nat) (concat vss)). { apply (Permutation_in _ (Permutation_sym Pv)). left. reflexivity. }
  apply in_concat in H. destruct H as (vs & Hvs & H). destruct (F2_in_l _ _ _ _ F Hvs) as (fs & _ & F'). destruct (F2_in_l _ _ _ _ F' H) as (f & _ & M).
  assert (Hin : In (lit "H 2 O 1 0 6", 3%nat) ex_values) by (left; reflexivity).
  pose proof M as (_ & _ & k & D & _). eexists _, f, k. split; [exact Hin|]. split; [exact M|]. split; [exact D|]. eapply O; eauto.
Qed.
