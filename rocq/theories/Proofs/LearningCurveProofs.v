(** The columns of the learning curve file. *)
From Coq Require Import Reals Lra ZArith Ascii String Bool Arith Lia.
From Coq Require Import List.
From Verif Require Import Base.Vec3 Base.SumR Base.AssocMap Model.Strings Model.Printf Model.Settings Model.SymLines Model.StructureFile Model.DataFiles Model.Units
  Model.Errors Model.LearningCurve Spec.StringSpec Spec.PrintfSpec Spec.ErrorSpec Spec.LearningCurveSpec
  Proofs.StringProofs Proofs.PrintfProofs Proofs.StructureFileText Proofs.SymLineProofs Proofs.NetworkSetupProofs Proofs.DataFilesText.
From Coq Require Import List.
Import ListNotations.
Local Open Scope R_scope.

(** ** Scaling of error metrics *)
Lemma mean_scal c xs : mean (map (Rmult c) xs) = c * mean xs.
Proof. unfold mean. rewrite map_length, (rsum_scal (fun x => x)), map_id. unfold Rdiv. ring. Qed.
Lemma rmse_scal c xs : 0 <= c -> rmse (map (Rmult c) xs) = c * rmse xs.
Proof.
  intros H. unfold rmse. rewrite map_map.
  replace (map (fun x => c * x * (c * x)) xs) with (map (Rmult (c * c)) (map (fun x => x * x) xs)) by (rewrite map_map; apply map_ext; intros; ring).
  rewrite mean_scal. rewrite sqrt_mult_alt by nra. now rewrite sqrt_square.
Qed.
Lemma mae_scal c xs : 0 <= c -> mae (map (Rmult c) xs) = c * mae xs.
Proof.
  intros H. unfold mae. rewrite map_map.
  replace (map (fun x => Rabs (c * x)) xs) with (map (Rmult c) (map Rabs xs)) by (rewrite map_map; apply map_ext; intros; rewrite Rabs_mult, (Rabs_pos_eq c); auto).
  now rewrite mean_scal.
Qed.

Section Units.
Variables (mn cE cL cQ : R).
Hypotheses (HE : 0 < cE) (HL : 0 < cL) (HQ : 0 < cQ).
Definition conv (k : str) : R := if str_eqb k (lit "energy") then / cE else if str_eqb k (lit "force") then cL / cE else / cQ.
Lemma conv_pos k : 0 <= conv k.
Proof.
  unfold conv. assert (0 < / cE) by now apply Rinv_0_lt_compat. assert (0 < / cQ) by now apply Rinv_0_lt_compat.
  destruct (str_eqb k (lit "energy")); [lra|]. destruct (str_eqb k (lit "force")); [|lra]. unfold Rdiv. nra.
Qed.
Lemma physical_conv k v : error_property k -> physical cE cL cQ k v = Some (conv k * v).
Proof. intros [<-|[<-|[<-|[]]]]; cbn; f_equal; unfold conv; cbn; unfold Rdiv; ring. Qed.
Definition converted (s t : qstructure) : Prop := toPhysicalUnits mn cE cL cQ s = Some t.
Lemma omap_forall2 {A B} (f : A -> option B) l : forall m, omap f l = Some m -> Forall2 (fun x y => f x = Some y) l m.
Proof.
  induction l as [|x l IH]; intros m; cbn [omap].
  - intros E. injection E as <-. constructor.
  - destruct (f x) eqn:E; [|discriminate]. fold (omap f l). destruct (omap f l) eqn:E'; [|discriminate]. intros H. injection H as <-. constructor; auto.
Qed.
Lemma atom_converted a b : atom_toPhysical cE cL cQ a = Some b ->
  q_f b = vdiv (q_f a) (cE / cL) /\ q_fRef b = vdiv (q_fRef a) (cE / cL) /\ q_charge b = q_charge a / cQ /\ q_chargeRef b = q_chargeRef a / cQ.
Proof.
  unfold atom_toPhysical. destruct (convert_own _ _ _ a) as [[e g]|]; [|discriminate]. destruct (convert_nbs _ _ _ a g) as [g' n].
  intros E. injection E as <-. auto.
Qed.
Lemma struct_converted s t : converted s t -> qs_numAtoms t = qs_numAtoms s /\
  qs_energyRef t - qs_energy t = / cE * (qs_energyRef s - qs_energy s) /\ Forall2 (fun a b => atom_toPhysical cE cL cQ a = Some b) (qs_atoms s) (qs_atoms t).
Proof.
  unfold converted, toPhysicalUnits. destruct (omap (atom_toPhysical cE cL cQ) (qs_atoms s)) as [l|] eqn:E; [|discriminate]. intros H. injection H as <-. cbn.
  split; auto. split; [field; lra|]. now apply omap_forall2.
Qed.
Lemma deviations_converted D P : Forall2 converted D P ->
  energy_deviations P = map (Rmult (/ cE)) (energy_deviations D) /\
  energy_per_atom_deviations P = map (Rmult (/ cE)) (energy_per_atom_deviations D) /\
  force_deviations P = map (Rmult (cL / cE)) (force_deviations D) /\
  charge_deviations P = map (Rmult (/ cQ)) (charge_deviations D).
Proof.
  induction 1 as [|s t D P H _ (A & B & C & E)]; [repeat split|].
  destruct (struct_converted s t H) as (N & En & At).
  unfold energy_deviations, energy_per_atom_deviations, force_deviations, charge_deviations in *. cbn [map flat_map].
  repeat split.
  - now rewrite A, En.
  - rewrite B, En, N. f_equal. unfold Rdiv. ring.
  - rewrite C, map_app. f_equal. clear - At HE HL. induction At as [|a b l m H _ IH]; auto. cbn [flat_map map app]. rewrite IH.
    destruct (atom_converted a b H) as (F & Fr & _). rewrite F, Fr. unfold vdiv. cbn. repeat (f_equal; try (field; lra)).
  - rewrite E, map_app. f_equal. clear - At HQ. induction At as [|a b l m H _ IH]; auto. cbn [map]. rewrite IH.
    destruct (atom_converted a b H) as (_ & _ & F & Fr). rewrite F, Fr. f_equal. field; lra.
Qed.
Lemma metrics_converted k D P : Forall2 converted D P -> metrics k P = map (fun e => (fst e, conv k * snd e)) (metrics k D).
Proof.
  intros H. destruct (deviations_converted D P H) as (A & B & C & E). assert (P0 := conv_pos k).
  unfold metrics, conv in *. destruct (str_eqb k (lit "energy")); [|destruct (str_eqb k (lit "force"))]; cbn [map fst snd];
    rewrite ?A, ?B, ?C, ?E, ?rmse_scal, ?mae_scal by auto; reflexivity.
Qed.
End Units.

(** ** Metrics and their names *)
Lemma keys_of_metrics k D : map fst (metrics k D) = metric_keys k.
Proof. unfold metrics, metric_keys. destruct (str_eqb k (lit "energy")); auto. now destruct (str_eqb k (lit "force")). Qed.
Lemma metric_of_keys k m : metric_of k m <-> In m (metric_keys k).
Proof. unfold metric_of. now rewrite keys_of_metrics. Qed.
Definition val (e : emap) (m : str) : R := match mget str_eqb m e with Some v => v | None => 0 end.
Lemma mget_val e m : In m (map fst e) -> mget str_eqb m e = Some (val e m).
Proof.
  unfold val. induction e as [|[k v] e IH]; cbn [map fst In mget]; [easy|]. intros [->|H]; [now rewrite str_eqb_refl|].
  destruct (str_eqb m k); auto.
Qed.
Lemma metric_val k m D : In m (metric_keys k) -> mget str_eqb m (metrics k D) = Some (val (metrics k D) m).
Proof. intros H. apply mget_val. now rewrite keys_of_metrics. Qed.
Lemma val_scal c e m : val (map (fun e => (fst e, c * snd e)) e) m = c * val e m.
Proof. unfold val. induction e as [|[k v] e IH]; cbn [map mget fst snd]; [ring|]. destruct (str_eqb m k); auto. Qed.

(** ** Text of numbers *)
Lemma print_plain_any d v : plain (print_E d v) /\ print_E d v <> [].
Proof.
  unfold print_E. destruct (sci d v) as [m e]. split.
  - apply plain_app; [destruct (Rlt_dec v 0); plain_lit|]. apply plain_app; [apply plain_decimals|]. apply plain_app; [plain_lit|].
    apply plain_app; [apply plain_decimals|]. apply plain_app; [plain_lit|].
    unfold exponent_text. apply plain_app; [|apply plain_decimals]. destruct (Z.ltb e 0); plain_lit.
  - intros E. apply (f_equal (@List.length _)) in E. rewrite !app_length, !decimals_length in E. cbn [List.length] in E. lia.
Qed.
Lemma print_length_any d v : (List.length (print_E d v) <= d + 8)%nat.
Proof.
  unfold print_E. destruct (sci d v) as [m e]. unfold exponent_text. rewrite !app_length, !decimals_length.
  destruct (Rlt_dec v 0), (Z.ltb e 0), (Z.ltb (Z.abs e) 100); change (List.length (lit "-")) with 1%nat; change (List.length (lit "+")) with 1%nat;
    change (List.length (lit "E")) with 1%nat; change (List.length (lit ".")) with 1%nat; cbn [List.length]; lia.
Qed.
Lemma fmt16_field v : field (lit " " ++ fmt16 v) (print_E 8 v) /\ (List.length (fmt16 v) <= 16)%nat.
Proof.
  destruct (pad_left (print_E 8 v) 16) as (b & A & B & L). destruct (print_plain_any 8 v). split.
  - exists (lit " " ++ b). split; [discriminate|]. split; [constructor; auto|]. split; [unfold fmt16; rewrite B; now rewrite app_assoc|auto].
  - unfold fmt16. rewrite L. assert (P := print_length_any 8 v). lia.
Qed.
(** Text of several columns. *)
Definition columns (t : str) (ws : list str) : Prop := exists ts, t = List.concat ts /\ Forall2 field ts ws.
Lemma columns_nil : columns [] []. Proof. exists []. auto. Qed.
Lemma columns_app t ws u vs : columns t ws -> columns u vs -> columns (t ++ u) (ws ++ vs).
Proof. intros (a & -> & A) (b & -> & B). exists (a ++ b). split; [now rewrite concat_app|now apply Forall2_app]. Qed.
Lemma pair_columns a b : exists t, pair_text a b = Done t /\ columns t (map (print_E 8) [a; b]).
Proof.
  destruct (fmt16_field a) as [A La], (fmt16_field b) as [B Lb].
  exists (lit " " ++ fmt16 a ++ lit " " ++ fmt16 b). split.
  - unfold pair_text, undefined_if_long, strpr. rewrite !app_length. change (List.length (lit " ")) with 1%nat.
    destruct (Nat.ltb_spec (1 + (List.length (fmt16 a) + (1 + List.length (fmt16 b)))) 1024); auto. lia.
  - exists [lit " " ++ fmt16 a; lit " " ++ fmt16 b]. split; [cbn [List.concat]; now rewrite app_nil_r, <- app_assoc|].
    cbn [map]. auto.
Qed.
Lemma mapo_columns {A} (f : A -> outcome str) (ws : A -> list str) l :
  (forall x, In x l -> exists t, f x = Done t /\ columns t (ws x)) -> exists ts, mapo f l = Done ts /\ columns (List.concat ts) (flat_map ws l).
Proof.
  induction l as [|x l IH]; intros H; cbn [mapo flat_map].
  - exists []. split; auto. apply columns_nil.
  - destruct (H x (or_introl eq_refl)) as (t & E & C). destruct IH as (ts & E' & C'); [intros y I; apply H; now right|].
    rewrite E. cbn [bindo]. rewrite E'. cbn [bindo]. exists (t :: ts). split; auto. cbn [List.concat]. now apply columns_app.
Qed.

Lemma words_of_is s ws : words_of s = ws -> is_words s ws.
Proof. intros <-. apply is_words_iff. symmetry. apply split_reduce_tokens. now apply is_words_iff. Qed.

(** ** The file *)
Section File.
Variables (keys : list str) (c : curve) (D : data_sets) (mn : R).
Hypothesis Hk : forall k, In k keys -> error_property k.
Hypothesis Hp : Forall2 (fun k p => construct k (metrics k (train_internal D)) (metrics k (test_internal D)) = Done p) keys (cu_props c).
Definition prop_of (k : str) : cproperty :=
  mkCP k (letter k) (match tiny_plural k with Done tp => snd tp | _ => [] end) (metric_keys k) (metrics k (train_internal D)) (metrics k (test_internal D)).
Lemma construct_of k p : error_property k -> construct k (metrics k (train_internal D)) (metrics k (test_internal D)) = Done p -> p = prop_of k.
Proof.
  intros Ek E. unfold construct in E. unfold prop_of. destruct Ek as [<-|[<-|[<-|[]]]]; cbn in E; apply done_inj in E; now rewrite <- E.
Qed.
Lemma props_are : cu_props c = map prop_of keys.
Proof.
  assert (X : forall ks ps, Forall2 (fun k p => construct k (metrics k (train_internal D)) (metrics k (test_internal D)) = Done p) ks ps ->
    (forall k, In k ks -> error_property k) -> ps = map prop_of ks).
  { induction 1 as [|k p ks ps H _ IH]; intros Hks; [auto|]. cbn [map]. f_equal; [apply construct_of; [apply Hks; now left|auto]|].
    apply IH. intros x I. apply Hks. now right. }
  now apply X.
Qed.
Definition names_of (ph : bool) (k : str) : list str := flat_map (fun m => [column_name k m false ph; column_name k m true ph]) (metric_keys k).
Definition values_of (ph : bool) (k : str) : list R := flat_map (fun m => [val (metrics k (the_set D false ph)) m; val (metrics k (the_set D true ph)) m]) (metric_keys k).
Lemma property_names (ph : bool) (u : str) k : error_property k ->
  map fst (property_columns (if ph then lit "_pu" else lit "_iu") u (prop_of k)) = names_of ph k.
Proof. intros [<-|[<-|[<-|[]]]]; destruct ph; reflexivity. Qed.
Lemma map_flat_map {A B C} (f : B -> C) (g : A -> list B) l : map f (flat_map g l) = flat_map (fun x => map f (g x)) l.
Proof. induction l; cbn [flat_map map]; auto. now rewrite map_app, IHl. Qed.
Lemma flat_map_in_ext {A B} (f g : A -> list B) l : (forall x, In x l -> f x = g x) -> flat_map f l = flat_map g l.
Proof.
  induction l as [|x l IH]; intros H; cbn [flat_map]; auto. rewrite (H x) by now left. rewrite IH; auto. intros y I. apply H. now right.
Qed.
Lemma is_converted_true k : error_property k -> is_converted k = true.
Proof. intros [<-|[<-|[<-|[]]]]; reflexivity. Qed.
Definition all_names : list str := flat_map (names_of true) keys ++ (if cu_normalize c then flat_map (names_of false) keys else []).
Lemma column_names : map fst (curve_columns c) = all_names.
Proof.
  unfold curve_columns, all_names. rewrite map_app, props_are. f_equal.
  - rewrite map_flat_map. rewrite flat_map_concat_map, map_map, <- flat_map_concat_map. apply flat_map_in_ext. intros k I.
    apply (property_names true). auto.
  - destruct (cu_normalize c); auto. rewrite map_flat_map. rewrite flat_map_concat_map, map_map, <- flat_map_concat_map. apply flat_map_in_ext. intros k I.
    change (cp_key (prop_of k)) with k. rewrite is_converted_true by auto. apply (property_names false). auto.
Qed.
Lemma header_done : exists h, curve_header c = Done h.
Proof.
  unfold curve_header, createFileHeader. cbn [List.length]. rewrite !map_length, !Nat.eqb_refl. cbn [andb negb Nat.eqb]. eauto.
Qed.

Hypothesis Hn : cu_normalize c = true -> 0 < cu_energy c /\ 0 < cu_length c /\ 0 < cu_charge c /\
  Forall2 (converted mn (cu_energy c) (cu_length c) (cu_charge c)) (train_internal D) (train_physical D) /\
  Forall2 (converted mn (cu_energy c) (cu_length c) (cu_charge c)) (test_internal D) (test_physical D).
Hypothesis Hu : cu_normalize c = false -> train_physical D = train_internal D /\ test_physical D = test_internal D.

Lemma internal_columns k : In k keys -> exists t, internal_texts (prop_of k) = Done t /\ columns t (map (print_E 8) (values_of false k)).
Proof.
  intros I. unfold internal_texts. cbn [prop_of cp_metrics cp_train cp_test].
  destruct (mapo_columns (fun m => a <- error_at m (metrics k (train_internal D)); b <- error_at m (metrics k (test_internal D)); pair_text a b)
              (fun m => map (print_E 8) [val (metrics k (train_internal D)) m; val (metrics k (test_internal D)) m]) (metric_keys k)) as (ts & E & C).
  - intros m Im. unfold error_at. rewrite !metric_val by auto. cbn [throwing bindo]. apply pair_columns.
  - rewrite E. cbn [bindo]. exists (List.concat ts). split; auto. unfold values_of. rewrite map_flat_map. exact C.
Qed.
Lemma physical_columns k : cu_normalize c = true -> In k keys -> exists t, physical_texts c (prop_of k) = Done t /\ columns t (map (print_E 8) (values_of true k)).
Proof.
  intros Nm I. destruct (Hn Nm) as (HE & HL & HQ & Ht & Hs). unfold physical_texts. cbn [prop_of cp_key cp_metrics cp_train cp_test].
  rewrite is_converted_true by auto.
  match goal with |- context [mapo ?f _] => destruct (mapo_columns f
    (fun m => map (print_E 8) [val (metrics k (train_physical D)) m; val (metrics k (test_physical D)) m]) (metric_keys k)) as (ts & E & C) end.
  - intros m Im. unfold error_at. rewrite !metric_val by auto. cbn [throwing bindo]. rewrite !physical_conv by auto. cbn [throwing bindo].
    rewrite !(metrics_converted mn _ _ _ HE HL HQ k _ _ Ht), !(metrics_converted mn _ _ _ HE HL HQ k _ _ Hs), !val_scal. apply pair_columns.
  - rewrite E. cbn [bindo]. exists (List.concat ts). split; auto. unfold values_of. rewrite map_flat_map. exact C.
Qed.
Definition all_values : list R :=
  (if cu_normalize c then flat_map (values_of true) keys else []) ++ flat_map (values_of false) keys.
Lemma mapo_map {A B C} (f : B -> outcome C) (g : A -> B) l : mapo f (map g l) = mapo (fun x => f (g x)) l.
Proof. induction l; cbn [map mapo]; auto. now rewrite IHl. Qed.
Lemma row_columns : fits (cu_epoch c) -> exists t, curve_row c = Done (fmt_d 10 (cu_epoch c) ++ t) /\ columns t (map (print_E 8) all_values).
Proof.
  intros F. unfold curve_row. destruct (fmt_d_field 10 (cu_epoch c) ltac:(lia)) as [_ L]. specialize (L F).
  unfold strpr at 1. destruct (Nat.ltb_spec (List.length (fmt_d 10 (cu_epoch c))) 1024); [|lia]. cbn [undefined_if_long bindo].
  rewrite props_are, !mapo_map. destruct (mapo_columns (fun k => internal_texts (prop_of k)) (fun k => map (print_E 8) (values_of false k)) keys) as (is & Ei & Ci);
    [intros; now apply internal_columns|].
  unfold all_values. case_eq (cu_normalize c); intros Nm.
  - destruct (mapo_columns (fun k => physical_texts c (prop_of k)) (fun k => map (print_E 8) (values_of true k)) keys) as (ps & Ep & Cp);
      [intros; now apply physical_columns|].
    rewrite Ep. cbn [bindo]. rewrite Ei. cbn [bindo]. exists (List.concat ps ++ List.concat is). split; auto.
    rewrite map_app, !map_flat_map. now apply columns_app.
  - cbn [bindo]. rewrite Ei. cbn [bindo List.concat app]. exists (List.concat is). split; auto. now rewrite map_flat_map.
Qed.
Lemma promised_property (nph vph : bool) k : (forall test, the_set D test nph = the_set D test vph) -> In k keys -> Forall2 (promised D keys) (names_of nph k) (values_of vph k).
Proof.
  intros Hs I. unfold names_of, values_of.
  assert (X : forall l, (forall m, In m l -> In m (metric_keys k)) -> Forall2 (promised D keys)
    (flat_map (fun m => [column_name k m false nph; column_name k m true nph]) l)
    (flat_map (fun m => [val (metrics k (the_set D false vph)) m; val (metrics k (the_set D true vph)) m]) l)).
  { induction l as [|m l IH]; intros Hl; cbn [flat_map app]; [constructor|].
    assert (Im : In m (metric_keys k)) by (apply Hl; now left).
    assert (P : forall test, promised D keys (column_name k m test nph) (val (metrics k (the_set D test vph)) m)).
    { intros test. exists k, m, test, nph. split; auto. split; [now apply metric_of_keys|]. split; auto. rewrite Hs. now apply metric_val. }
    constructor; auto. constructor; auto. apply IH. intros x J. apply Hl. now right. }
  apply X. auto.
Qed.
Lemma promised_all nph vph ks : (forall test, the_set D test nph = the_set D test vph) -> (forall k, In k ks -> In k keys) ->
  Forall2 (promised D keys) (flat_map (names_of nph) ks) (flat_map (values_of vph) ks).
Proof.
  intros Hs. induction ks as [|k ks IH]; intros H; cbn [flat_map]; [constructor|]. apply Forall2_app; [apply promised_property; auto; apply H; now left|].
  apply IH. intros x I. apply H. now right.
Qed.
Lemma promised_columns : Forall2 (promised D keys) all_names all_values.
Proof.
  unfold all_names, all_values. case_eq (cu_normalize c); intros Nm.
  - apply Forall2_app; apply promised_all; auto.
  - cbn [app]. rewrite app_nil_r. apply promised_all; auto. destruct (Hu Nm) as [A B]. intros []; cbn; auto.
Qed.
Lemma all_present k m test : In k keys -> metric_of k m -> In (column_name k m test true) all_names /\ (cu_normalize c = true -> In (column_name k m test false) all_names).
Proof.
  intros I M. apply metric_of_keys in M. assert (X : forall ph, In (column_name k m test ph) (flat_map (names_of ph) keys)).
  { intros ph. apply in_flat_map. exists k. split; auto. apply in_flat_map. exists m. split; auto. destruct test; cbn; auto. }
  unfold all_names. split; [apply in_app_iff; left; auto|]. intros ->. apply in_app_iff. right. auto.
Qed.

Theorem curve_file old : fits (cu_epoch c) -> exists title sizes infos h row names vs,
  createFileHeader title sizes (lit "epoch" :: names) infos ch_hash = Done h /\
  writeLearningCurve c false old = Done (appendLines h ++ row ++ [ch_lf]) /\
  writeLearningCurve c true old = Done (old ++ row ++ [ch_lf]) /\
  ~ In ch_lf row /\ is_words row (print_d (cu_epoch c) :: map (print_E 8) vs) /\
  Forall2 (promised D keys) names vs /\
  (forall k m test, In k keys -> metric_of k m -> In (column_name k m test true) names /\ (cu_normalize c = true -> In (column_name k m test false) names)).
Proof.
  intros F. destruct header_done as [h Eh]. destruct (row_columns F) as (t & Er & ts & -> & Cw).
  do 3 eexists. exists h, (fmt_d 10 (cu_epoch c) ++ List.concat ts), all_names, all_values.
  split; [unfold curve_header in Eh; rewrite column_names in Eh; exact Eh|].
  unfold writeLearningCurve. rewrite Eh, Er. cbn [bindo]. split; auto. split; auto.
  destruct (pad_left (print_d (cu_epoch c)) 10) as (b & Bb & Eb & _). destruct (print_d_plain (cu_epoch c)) as (Pp & Pn & _).
  assert (W := padded_fields b (print_d (cu_epoch c)) ts (map (print_E 8) all_values) Bb Pp Pn Cw).
  unfold fmt_d. rewrite Eb, <- app_assoc. split; [apply W|]. split; [apply words_of_is, W|]. split; [apply promised_columns|]. intros; now apply all_present.
Qed.
End File.

(** ** A name belongs to one column *)
Definition all_columns : list (str * str * bool * bool) :=
  flat_map (fun k => flat_map (fun m => [(k, m, false, false); (k, m, false, true); (k, m, true, false); (k, m, true, true)]) (metric_keys k))
    [lit "energy"; lit "force"; lit "charge"].
Definition name_of_column (x : str * str * bool * bool) : str := let '(k, m, t, p) := x in column_name k m t p.
Lemma names_nodup : NoDup (map name_of_column all_columns).
Proof.
  assert (H : (fix nd (l : list str) : bool := match l with [] => true | x :: l => (negb (existsb (str_eqb x) l) && nd l)%bool end) (map name_of_column all_columns) = true)
    by (vm_compute; reflexivity).
  revert H. generalize (map name_of_column all_columns). induction l as [|x l IH]; intros H; constructor; apply andb_prop in H as [A B]; auto.
  intros I. apply negb_true_iff in A. assert (X : existsb (str_eqb x) l = true) by (apply existsb_exists; exists x; split; auto; apply str_eqb_refl). congruence.
Qed.
Lemma nodup_inj {A B} (f : A -> B) l x y : NoDup (map f l) -> In x l -> In y l -> f x = f y -> x = y.
Proof.
  induction l as [|a l IH]; cbn [map In]; intros N Ix Iy E; [easy|]. inversion N as [|? ? Na Nl]. subst.
  destruct Ix as [->|Ix], Iy as [->|Iy]; auto; exfalso; apply Na; [rewrite E|rewrite <- E]; now apply in_map.
Qed.
Lemma column_listed k m t p : error_property k -> metric_of k m -> In (k, m, t, p) all_columns.
Proof.
  intros Ek M. apply metric_of_keys in M. apply in_flat_map. exists k. split; [exact Ek|]. apply in_flat_map. exists m. split; auto. destruct t, p; cbn; auto.
Qed.
Lemma name_decides D keys name v v' : (forall k, In k keys -> error_property k) -> promised D keys name v -> promised D keys name v' -> v = v'.
Proof.
  intros Hk (k & m & t & p & I & M & E & V) (k' & m' & t' & p' & I' & M' & E' & V').
  assert (X : (k, m, t, p) = (k', m', t', p')).
  { apply (nodup_inj name_of_column all_columns); [apply names_nodup|apply column_listed; auto|apply column_listed; auto|]. cbn. now rewrite <- E. }
  injection X as <- <- <- <-. congruence.
Qed.
