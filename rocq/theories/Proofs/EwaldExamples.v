(** Concrete cases for C78-C80, and what the code does not honour. *)
From Coq Require Import Reals Lra Lia Psatz ZArith Ascii String Bool Arith.
From Flocq Require Import Core.
From Coquelicot Require Import Coquelicot.
From Coq Require Import List.
From Verif Require Import Base.AssocMap Model.Strings Model.Printf Model.ElementMap Model.CoreFunction Model.CompactScreening
  Model.Units Model.SymFunctions Model.SymSetup Model.Settings Model.SymLines Model.NetworkSetup Model.DataFiles Model.Electrostatics Model.EwaldSetup
  Spec.StringSpec Spec.CompactSpec Spec.EwaldSpec Proofs.SymLineProofs Proofs.SymLineExamples Proofs.NetworkSetupProofs Proofs.EwaldNewton Proofs.EwaldAccuracy Proofs.EwaldSetupProofs
  Proofs.EwaldUnits Proofs.ElectroSetupProofs.
Import ListNotations.
Local Open Scope R_scope.

Lemma atof_quarter (s : str) (z : Z) : decimal_value s = IZR z / 4 -> (Z.abs z < 2 ^ 53)%Z -> atof s = IZR z / 4.
Proof.
  intros E L. unfold atof, round64. rewrite E.
  assert (Ve : Valid_exp (FLT_exp (-1074) 53)) by (apply FLT_exp_valid; reflexivity).
  apply round_generic; [apply valid_rnd_N|]. apply generic_format_FLT.
  exists (Float radix2 z (-2)); cbn [Fnum Fexp]; [unfold F2R; cbn; lra|change (radix2 ^ 53)%Z with (2 ^ 53)%Z; lia|lia].
Qed.
Lemma atof_025 : atof (lit "0.25") = / 4.
Proof. rewrite (atof_quarter _ 1); [lra | cbv; lra | vm_compute; reflexivity]. Qed.
Lemma atof_05 : atof (lit "0.5") = / 2.
Proof. rewrite (atof_quarter _ 2); [lra | cbv; lra | vm_compute; reflexivity]. Qed.
Lemma atof_1 : atof (lit "1") = 1.
Proof. number. Qed.
Lemma atof_2 : atof (lit "2") = 2.
Proof. number. Qed.
Lemma atof_4 : atof (lit "4") = 4.
Proof. number. Qed.
Lemma atof_8 : atof (lit "8") = 8.
Proof. number. Qed.
Lemma is_configured m words sigma : acceptable m words -> configured m words sigma (made m words sigma).
Proof. intro A. destruct (read_accepts m words A) as (e & E & H). exists e. split; [exact E | now rewrite H]. Qed.

(** ** Hypotheses of C78 *)
Lemma ex_optimal : exists e, configured KOLAFA_PERRAM [lit "0.25"; lit "2"] 1 e /\ atof (lit "2") <> 0.
Proof. eexists. split; [apply is_configured; cbn [acceptable]; rewrite atof_025; split; [lra | reflexivity] | rewrite atof_2; lra]. Qed.
Lemma ex_unscreened : atof (lit "0.25") < unscreened_error (atof (lit "4")) 1 1 8 (atof (lit "8")).
Proof.
  rewrite atof_025, atof_4, atof_8. unfold unscreened_error. replace (INR 8 / (1 * 8)) with 1 by (cbn; field). rewrite sqrt_1.
  assert (1 < sqrt 2) by (rewrite <- sqrt_1 at 1; apply sqrt_lt_1; lra). lra.
Qed.
Lemma ex_fixed : (exists e, configured KOLAFA_PERRAM [lit "0.25"; lit "4"; lit "8"] 1 e) /\ atof (lit "4") <> 0 /\ 0 < atof (lit "8") /\
  atof (lit "0.25") < unscreened_error (atof (lit "4")) 1 1 8 (atof (lit "8")).
Proof.
  split; [eexists; apply is_configured; cbn [acceptable]; rewrite atof_025; split; [lra | reflexivity]|].
  split; [rewrite atof_4; lra|]. split; [rewrite atof_8; lra | exact ex_unscreened].
Qed.
Lemma ex_jackson : exists e, configured JACKSON_CATLOW [lit "0.25"] 1 e /\ atof (lit "0.25") < 1.
Proof. eexists. split; [apply is_configured; cbn [acceptable]; rewrite atof_025; lra | rewrite atof_025; lra]. Qed.

(** ** After an exception *)
Lemma after_failure : exists words e e1 e2, configured JACKSON_CATLOW words 0 e /\ forall fuel,
  calculateParameters fuel 1 1 e = Some (e1, false) /\ calculateParameters fuel 1 1 e1 = Some (e2, true) /\ sw_params e2 = mkEwald 0 0 0.
Proof.
  exists [lit "1"], (made JACKSON_CATLOW [lit "1"] 0).
  exists (mkEwaldSetup ew_init JACKSON_CATLOW (mkES (atof (lit "1")) 1 0 1) (Some (TJackson 1))).
  exists (mkEwaldSetup ew_init JACKSON_CATLOW (mkES (atof (lit "1")) 1 0 1) (Some (TJackson 1))).
  split; [apply is_configured; cbn [acceptable]; rewrite atof_1; lra|]. intro fuel.
  unfold calculateParameters. cbn [made sw_impl]. unfold jackson_calculate. cbn [sw_settings es_precision sw_params sw_method].
  split; [|split; [|reflexivity]].
  - destruct (Req_EM_T 1 0); [lra|]. destruct (Rge_dec (atof (lit "1")) 1) as [|N]; [reflexivity | rewrite atof_1 in N; lra].
  - destruct (Req_EM_T 1 1); [reflexivity | lra].
Qed.

(** ** Training *)
Lemma cube_root (a : R) : 0 < a -> c_pow (a ^ 3) (1 / 3) = a.
Proof. intro H. replace (1 / 3) with (1 / INR 3) by (cbn; f_equal; ring). apply c_pow_root; [exact H | lia]. Qed.
Lemma twopi : 0 < sqrt (2 * PI) < 3.
Proof.
  pose proof PI_RGT_0. pose proof PI_4. split; [apply sqrt_lt_R0; lra|].
  replace 3 with (sqrt (3 * 3)) by (apply sqrt_square; lra). apply sqrt_lt_1; lra.
Qed.
Lemma ln_quarter : 1 <= - 2 * ln (/ 4).
Proof.
  rewrite ln_Rinv by lra. assert (/ 2 <= ln 4); [|lra]. rewrite <- (ln_exp (/ 2)). apply Rcomplements.ln_le; [apply exp_pos|].
  apply Rle_trans with (exp 1); [apply exp_le; lra|]. pose proof exp_le_3. lra.
Qed.
Definition small_cell : cell := mkCell true (10 ^ 3) 100.
Definition large_cell : cell := mkCell true (20 ^ 3) 800.
Definition jackson_of (V : R) : ewald := mkEwald (jackson_eta V) (jackson_rCut (jackson_eta V) (/ 4)) (jackson_kCut (jackson_eta V) (/ 4)).
Lemma jackson_done V e : 0 < V -> sw_impl e = Some (TJackson V) \/ (exists v, sw_impl e = Some (TJackson v) /\ v <> V) ->
  es_precision (sw_settings e) = / 4 -> (sw_impl e = Some (TJackson V) -> sw_params e = jackson_of V) -> forall fuel N,
  exists e', calculateParameters fuel V N e = Some (e', true) /\ sw_params e' = jackson_of V /\ sw_settings e' = sw_settings e /\ sw_impl e' = Some (TJackson V).
Proof.
  intros HV I P Q fuel N. unfold calculateParameters. destruct I as [I|(v & I & D)]; rewrite I.
  - exists e. unfold jackson_calculate. destruct (Req_EM_T V V); [|lra]. repeat split; auto.
  - unfold jackson_calculate. destruct (Req_EM_T V v); [congruence|]. rewrite P.
    destruct (Rge_dec (/ 4) 1); [lra|].
    assert (0 < jackson_eta V).
    { unfold jackson_eta. destruct twopi. apply Rmult_lt_0_compat; [apply Rdiv_lt_0_compat; lra | now apply c_pow_pos]. }
    destruct (Rle_dec (jackson_eta V) 0); [lra|]. eexists. split; [reflexivity|]. repeat split.
Qed.
Lemma training_last : exists words e cs radii W, configured JACKSON_CATLOW words 0 e /\ Forall filled cs /\
  Forall (fun c => ce_periodic c = true) cs /\
  (forall fuel, training_parameters fuel 0 1 cs e = Some (map (fun r => (r, W)) radii)) /\
  (exists r, In r radii /\ r < ew_rCut W) /\
  exists c W', In c cs /\ chooses e (ce_volume c) (ce_numAtoms c) W' /\ W' <> W.
Proof.
  exists [lit "0.25"], (made JACKSON_CATLOW [lit "0.25"] 0), [small_cell; large_cell],
    [Rmax (Rmax 0 1) (ew_rCut (jackson_of (10 ^ 3))); Rmax (Rmax 0 1) (ew_rCut (jackson_of (20 ^ 3)))], (jackson_of (20 ^ 3)).
  split; [apply is_configured; cbn [acceptable]; rewrite atof_025; lra|].
  split. { repeat constructor; cbn; try lia; lra. }
  split. { repeat constructor. }
  set (e := made JACKSON_CATLOW [lit "0.25"] 0).
  assert (S1 : forall fuel, exists e1, calculateParameters fuel (10 ^ 3) 100 e = Some (e1, true) /\ sw_params e1 = jackson_of (10 ^ 3) /\ sw_settings e1 = sw_settings e /\ sw_impl e1 = Some (TJackson (10 ^ 3))).
  { intro fuel. apply jackson_done; [lra | right; exists 0; split; [reflexivity | lra] | exact atof_025 | cbn; intro X; injection X as X; lra]. }
  assert (E10 : jackson_eta (20 ^ 3) = 2 * jackson_eta (10 ^ 3)) by (unfold jackson_eta; rewrite !cube_root by lra; lra).
  assert (P10 : 0 < jackson_eta (10 ^ 3)).
  { unfold jackson_eta. rewrite cube_root by lra. destruct twopi. apply Rmult_lt_0_compat; [apply Rdiv_lt_0_compat; lra | lra]. }
  split.
  - intro fuel. unfold training_parameters. cbn [train_neighbor_lists small_cell large_cell maxCutoffRadiusOverall ce_periodic ce_volume ce_numAtoms].
    unfold maxCutoffRadiusOverall. cbn [ce_periodic ce_volume ce_numAtoms].
    destruct (S1 fuel) as (e1 & C1 & Q1 & T1 & I1). rewrite C1.
    destruct (jackson_done (20 ^ 3) e1 ltac:(lra)) with (fuel := fuel) (N := 800%nat) as (e2 & C2 & Q2 & T2 & I2).
    { right. exists (10 ^ 3). split; [exact I1 | lra]. }
    { rewrite T1. exact atof_025. }
    { rewrite I1. intro X. injection X as X. lra. }
    rewrite C2, Q1, Q2. reflexivity.
  - split.
    + eexists. split; [now left|]. cbn [jackson_of ew_rCut]. unfold jackson_rCut. rewrite E10.
      pose proof ln_quarter as L. assert (S : 1 <= sqrt (- 2 * ln (/ 4))) by (rewrite <- sqrt_1 at 1; apply sqrt_le_1_alt; exact L).
      set (w := sqrt _) in *. assert (B : 10 / 3 <= jackson_eta (10 ^ 3)).
      { unfold jackson_eta. rewrite cube_root by lra. destruct twopi as [T0 T1].
        assert (/ 3 <= 1 / sqrt (2 * PI)) by (unfold Rdiv; rewrite Rmult_1_l; apply Rinv_le_contravar; lra). lra. }
      set (x := jackson_eta (10 ^ 3)) in *. rewrite (Rmax_right 0 1) by lra. apply Rmax_lub_lt; nra.
    + exists small_cell, (jackson_of (10 ^ 3)). split; [now left|]. split.
      * destruct (S1 0%nat) as (e1 & C1 & Q1 & _). exists 0%nat, e1. split; [exact Q1|]. intros fuel _.
        destruct (S1 fuel) as (e2 & C2 & Q2 & T2 & I2). cbn [small_cell ce_volume ce_numAtoms]. rewrite <- C1. reflexivity.
      * intro X. apply (f_equal ew_eta) in X. cbn [jackson_of ew_eta] in X. lra.
Qed.

(** ** Settings *)
Lemma some_injection {A} (a b : A) : Some a = Some b -> a = b.
Proof. congruence. Qed.
Definition HO : element_map := mkEM [(lit "H", 0%nat); (lit "O", 1%nat)] [(0%nat, lit "H"); (1%nat, lit "O")].
Lemma HO_registered : registerElements em_init (lit "H O") = Some (HO, 2%nat).
Proof. vm_compute. reflexivity. Qed.
Definition elec_text : str := join [ch_lf] (map lit
  ["number_of_elements 2"; "elements H O"; "initial_hardness H 4"; "initial_hardness O 8"; "initial_hardness H 2"; "fixed_gausswidth O 1"; "fixed_gausswidth H 0.5";
   "ewald_truncation_error_method 1"; "ewald_prec 0.25 4 8"; "four_pi_epsilon 0.5"; "screen_electrostatics 1 2"]%string).
Definition elec_settings : settings := fst (loadFile settings_init elec_text).
Lemma elec_loaded : loadFile settings_init elec_text = (elec_settings, 0%nat).
Proof. vm_compute. reflexivity. Qed.
(** Without "ewald_prec", and without a width of H. *)
Definition bare_text : str := join [ch_lf] (map lit
  ["number_of_elements 2"; "elements H O"; "initial_hardness H 4"; "fixed_gausswidth O 1"]%string).
Definition bare_settings : settings := fst (loadFile settings_init bare_text).
Lemma bare_loaded : loadFile settings_init bare_text = (bare_settings, 0%nat).
Proof. vm_compute. reflexivity. Qed.
Definition physical_units : conversion := mkConv false 1 1 1.
Definition normalized_units : conversion := mkConv true 4 2 1.

Lemma set_0 {A} (x a b : A) : set_at 0 x [a; b] = Done [x; b]. Proof. reflexivity. Qed.
Lemma set_1 {A} (x a b : A) : set_at 1 x [a; b] = Done [a; x]. Proof. reflexivity. Qed.
Lemma hardness_line_eq cv text n w0 w e hs : words_of text = [w0; w] -> em_index HO w0 = Some e ->
  hardness_line cv HO (text, n) hs = set_at e (atof w * hardness_factor cv) hs.
Proof.
  intros W E. unfold hardness_line, element_at, number_at. cbn [fst]. rewrite W. cbn [at_ throwing nth_error bindo]. rewrite E. cbn [throwing bindo].
  rewrite normalized_hardness_eq. reflexivity.
Qed.
Lemma width_line_eq cv text n w0 w e st : words_of text = [w0; w] -> em_index HO w0 = Some e ->
  gausswidth_line cv HO (text, n) st = bindo (set_at e (atof w * length_factor cv) (fst st)) (fun l => Done (l, Rmax (atof w * length_factor cv) (snd st))).
Proof.
  intros W E. unfold gausswidth_line, element_at, number_at. cbn [fst]. rewrite W. cbn [at_ throwing nth_error bindo]. rewrite E. cbn [throwing bindo].
  rewrite width_eq. reflexivity.
Qed.
Ltac rd := vm_compute; reflexivity.
Lemma elec_done cv : exists m, setupElectrostatics cv HO None elec_settings (electro_init 2) = Done m.
Proof.
  unfold setupElectrostatics. cbn [electro_init el_hardness el_qsigma el_ewald el_fourPiEps el_fs].
  assert (G1 : getValues elec_settings (lit "initial_hardness") = Some [(lit "H 4", 2%nat); (lit "O 8", 3%nat); (lit "H 2", 4%nat)]) by rd.
  assert (G2 : getValues elec_settings (lit "fixed_gausswidth") = Some [(lit "O 1", 5%nat); (lit "H 0.5", 6%nat)]) by rd.
  assert (G3 : value_of elec_settings (lit "ewald_truncation_error_method") = Done (Some (lit "1"))) by rd.
  assert (G4 : value_of elec_settings (lit "ewald_prec") = Done (Some (lit "0.25 4 8"))) by rd.
  assert (G5 : value_of elec_settings (lit "four_pi_epsilon") = Done (Some (lit "0.5"))) by rd.
  assert (G6 : value_of elec_settings (lit "screen_electrostatics") = Done (Some (lit "1 2"))) by rd.
  rewrite G1, G2, G3, G4, G5, G6. cbn [throwing bindo foldo].
  rewrite (hardness_line_eq cv (lit "H 4") 2 (lit "H") (lit "4") 0) by rd. cbn [repeat]. rewrite set_0. cbn [bindo].
  rewrite (hardness_line_eq cv (lit "O 8") 3 (lit "O") (lit "8") 1) by rd. rewrite set_1. cbn [bindo].
  rewrite (hardness_line_eq cv (lit "H 2") 4 (lit "H") (lit "2") 0) by rd. rewrite set_0. cbn [bindo].
  rewrite (width_line_eq cv (lit "O 1") 5 (lit "O") (lit "1") 1) by rd. cbn [fst snd]. rewrite set_1. cbn [bindo].
  rewrite (width_line_eq cv (lit "H 0.5") 6 (lit "H") (lit "0.5") 0) by rd. cbn [fst snd]. rewrite set_0. cbn [bindo fst snd].
  assert (A : acceptable KOLAFA_PERRAM (split (lit "0.25 4 8") ch_space)).
  { change (split (lit "0.25 4 8") ch_space) with [lit "0.25"; lit "4"; lit "8"]. cbn [acceptable]. rewrite atof_025. split; [lra | reflexivity]. }
  destruct (read_accepts _ _ A) as (e & E & _).
  unfold setup_ewald. cbv zeta.
  change (method_of (Some (lit "1")) sw_init) with (setTruncMethod KOLAFA_PERRAM sw_init). rewrite E. cbn [bindo].
  unfold setup_screening. cbv zeta. change (split (lit "1 2") ch_space) with [lit "1"; lit "2"].
  unfold number_at. cbn [at_ throwing nth_error bindo]. unfold sc_setInnerOuter. rewrite atof_1, atof_2.
  destruct (Rge_dec 1 2); [lra|]. cbn [throwing bindo].
  change (core_of (lit "c")) with (Done CK_COS). cbn [bindo]. eexists. reflexivity.
Qed.
Lemma bare_done cv : exists m, setupElectrostatics cv HO None bare_settings (electro_init 2) = Done m.
Proof.
  unfold setupElectrostatics. cbn [electro_init el_hardness el_qsigma el_ewald el_fourPiEps el_fs].
  assert (G1 : getValues bare_settings (lit "initial_hardness") = Some [(lit "H 4", 2%nat)]) by rd.
  assert (G2 : getValues bare_settings (lit "fixed_gausswidth") = Some [(lit "O 1", 3%nat)]) by rd.
  assert (G3 : value_of bare_settings (lit "ewald_truncation_error_method") = Done None) by rd.
  assert (G4 : value_of bare_settings (lit "ewald_prec") = Done None) by rd.
  assert (G5 : value_of bare_settings (lit "four_pi_epsilon") = Done None) by rd.
  assert (G6 : value_of bare_settings (lit "screen_electrostatics") = Done None) by rd.
  rewrite G1, G2, G3, G4, G5, G6. cbn [throwing bindo foldo].
  rewrite (hardness_line_eq cv (lit "H 4") 2 (lit "H") (lit "4") 0) by rd. cbn [repeat]. rewrite set_0. cbn [bindo].
  rewrite (width_line_eq cv (lit "O 1") 3 (lit "O") (lit "1") 1) by rd. cbn [fst snd]. rewrite set_1. cbn [bindo fst snd].
  unfold setup_ewald, method_of, setup_screening, sc_setInnerOuter. cbv zeta. cbn [setTruncMethod sw_method bindo].
  destruct (Rge_dec (- 2) (- (1))); [lra|]. eexists. reflexivity.
Qed.
(** No parameters without "ewald_prec". *)
Lemma default_rejects : exists text s m, loadFile settings_init text = (s, 0%nat) /\
  setupElectrostatics physical_units HO None s (electro_init 2) = Done m /\ es_precision (sw_settings (el_ewald m)) = / 10 ^ 6 /\
  forall V N, rejects (el_ewald m) V N.
Proof.
  destruct (bare_done physical_units) as (m & E). exists bare_text, bare_settings, m. split; [exact bare_loaded|]. split; [exact E|].
  destruct (setup_parts _ _ _ _ _ _ E) as (hs & ls & qs & method & prec & eps & screen & _ & _ & _ & P4 & P5 & P6 & _).
  assert (method = None) as -> by (apply done_inj; rewrite <- P4; rd).
  assert (prec = None) as -> by (apply done_inj; rewrite <- P5; rd).
  unfold setup_ewald, method_of in P6. cbv zeta in P6. cbn [setTruncMethod sw_method] in P6. apply done_inj in P6. rewrite <- P6.
  split; [reflexivity|]. intros V N fuel. now eexists.
Qed.
Lemma last_single em i v w : last_value em i [v] (Some w) -> exists sy rest, words_of (fst v) = sy :: w :: rest /\ em_index em sy = Some i.
Proof.
  intros (l1 & u & l2 & sy & rest & L & W & I & _). destruct l1 as [|a l1].
  - injection L as -> _. now exists sy, rest.
  - destruct l1; discriminate.
Qed.
(** An element without a width. *)
Lemma missing_width : exists text s m, loadFile settings_init text = (s, 0%nat) /\
  setupElectrostatics physical_units HO None s (electro_init 2) = Done m /\ nth_error (el_qsigma m) 0 = Some 0 /\ nth_error (el_hardness m) 1 = Some 0.
Proof.
  destruct (bare_done physical_units) as (m & E). exists bare_text, bare_settings, m. split; [exact bare_loaded|]. split; [exact E|]. split.
  - destruct (widths_read _ _ _ _ _ _ E) as (ls & G & _ & F). destruct (F 0%nat ltac:(lia)) as ([w|] & X & ->); [exfalso|reflexivity].
    assert (ls = [(lit "O 1", 3%nat)]) as -> by (apply some_injection; rewrite <- G; rd).
    apply last_single in X as (sy & rest & W & I). cbn [fst] in W. assert (words_of (lit "O 1") = [lit "O"; lit "1"]) as W1 by rd. rewrite W1 in W.
    apply (f_equal (hd [])) in W. cbn [hd] in W. subst sy. vm_compute in I. discriminate I.
  - destruct (hardness_read _ _ _ _ _ _ E eq_refl) as (ls & G & _ & F). destruct (F 1%nat ltac:(lia)) as ([w|] & X & ->); [exfalso|reflexivity].
    assert (ls = [(lit "H 4", 2%nat)]) as -> by (apply some_injection; rewrite <- G; rd).
    apply last_single in X as (sy & rest & W & I). cbn [fst] in W. assert (words_of (lit "H 4") = [lit "H"; lit "4"]) as W1 by rd. rewrite W1 in W.
    apply (f_equal (hd [])) in W. cbn [hd] in W. subst sy. vm_compute in I. discriminate I.
Qed.
(** The permittivity of the settings is not used for the precision. *)
Lemma permittivity_ignored : exists text s m W, loadFile settings_init text = (s, 0%nat) /\
  setupElectrostatics physical_units HO None s (electro_init 2) = Done m /\
  value_of s (lit "ewald_prec") = Done (Some (lit "0.25 4 8")) /\ atof (lit "0.25") = / 4 /\ atof (lit "4") = 4 /\
  chooses (el_ewald m) 1 8 W /\ real_space_error 4 (el_fourPiEps m) 1 8 (ew_eta W) (ew_rCut W) = 2 * / 4.
Proof.
  destruct (elec_done physical_units) as (m & E). pose proof (ewald_read _ _ _ _ _ _ E ltac:(discriminate)) as (method & prec & P4 & P5 & X).
  assert (method = Some (lit "1")) as -> by (apply done_inj; rewrite <- P4; rd).
  assert (prec = Some (lit "0.25 4 8")) as -> by (apply done_inj; rewrite <- P5; rd).
  destruct X as (sigma & _ & C). cbn [physical_units cv_normalize] in C.
  change (split (lit "0.25 4 8") ch_space) with [lit "0.25"; lit "4"; lit "8"] in C.
  change (chosen_method (Some (lit "1"))) with KOLAFA_PERRAM in C.
  destruct (permittivity_read _ _ _ _ _ _ E) as (eps & P7 & Ep).
  assert (eps = Some (lit "0.5")) as -> by (apply done_inj; rewrite <- P7; rd).
  unfold permittivity_factor in Ep. cbn [physical_units cv_normalize] in Ep. rewrite atof_05 in Ep.
  destruct ex_fixed as (_ & Hq & Hr & Hu).
  destruct (fixed_cutoff _ _ _ _ 1 8 _ C Hq Hr Rlt_0_1 ltac:(lia)) as [F _].
  destruct (F Hu) as (W & Ch & _ & _ & Er & _). rewrite atof_4, atof_025 in Er.
  exists elec_text, elec_settings, m, W. split; [exact elec_loaded|]. split; [exact E|]. split; [exact P5|]. split; [exact atof_025|].
  split; [exact atof_4|]. split; [exact Ch|]. rewrite <- Er, Ep. unfold real_space_error. field.
Qed.

(** ** Several structures *)
Lemma ex_history : exists e out, configured JACKSON_CATLOW [lit "0.25"] 0 e /\ Forall filled [small_cell; large_cell; small_cell] /\
  forall fuel, evaluate_all fuel 0 1 [small_cell; large_cell; small_cell] e = Some out.
Proof.
  exists (made JACKSON_CATLOW [lit "0.25"] 0). set (e := made JACKSON_CATLOW [lit "0.25"] 0).
  set (r V := (Rmax (Rmax 0 1) (ew_rCut (jackson_of V)), jackson_of V)).
  exists [r (10 ^ 3); r (20 ^ 3); r (10 ^ 3)]. split; [apply is_configured; cbn [acceptable]; rewrite atof_025; lra|].
  split. { repeat constructor; cbn; try lia; lra. }
  intro fuel. cbn [evaluate_all]. unfold evaluation_parameters, maxCutoffRadiusOverall. cbn [small_cell large_cell ce_periodic ce_volume ce_numAtoms].
  destruct (jackson_done (10 ^ 3) e ltac:(lra)) with (fuel := fuel) (N := 100%nat) as (e1 & C1 & Q1 & T1 & I1).
  { right. exists 0. split; [reflexivity | lra]. } { exact atof_025. } { cbn; intro X; injection X as X; lra. }
  rewrite C1.
  destruct (jackson_done (20 ^ 3) e1 ltac:(lra)) with (fuel := fuel) (N := 800%nat) as (e2 & C2 & Q2 & T2 & I2).
  { right. exists (10 ^ 3). split; [exact I1 | lra]. } { rewrite T1. exact atof_025. } { rewrite I1. intro X. injection X as X. lra. }
  rewrite C2.
  destruct (jackson_done (10 ^ 3) e2 ltac:(lra)) with (fuel := fuel) (N := 100%nat) as (e3 & C3 & Q3 & T3 & I3).
  { right. exists (20 ^ 3). split; [exact I2 | lra]. } { rewrite T2, T1. exact atof_025. } { rewrite I2. intro X. injection X as X. lra. }
  rewrite C3, Q1, Q2, Q3. reflexivity.
Qed.
Lemma ex_units : exists e e', configured KOLAFA_PERRAM [lit "0.25"; lit "2"] 1 e /\ configured_normalized 4 2 KOLAFA_PERRAM [lit "0.25"; lit "2"] 1 e' /\
  sensible [lit "0.25"; lit "2"].
Proof.
  assert (A : acceptable KOLAFA_PERRAM [lit "0.25"; lit "2"]) by (cbn [acceptable]; rewrite atof_025; split; [lra | reflexivity]).
  destruct (read_accepts _ _ A) as (e & E & _). do 2 eexists. split; [exists e; split; [exact E | reflexivity]|].
  split; [exists e; split; [exact E | reflexivity]|]. cbn [sensible]. rewrite atof_2. lra.
Qed.
Lemma ex_settings_read : loadFile settings_init elec_text = (elec_settings, 0%nat) /\ registerElements em_init (lit "H O") = Some (HO, 2%nat) /\
  (exists m, setupElectrostatics physical_units HO None elec_settings (electro_init 2) = Done m) /\
  exists m, setupElectrostatics normalized_units HO None elec_settings (electro_init 2) = Done m.
Proof. split; [exact elec_loaded|]. split; [exact HO_registered|]. split; apply elec_done. Qed.
Lemma missing_charge : exists words e, configured KOLAFA_PERRAM words 1 e /\ forall V N, rejects e V N.
Proof.
  exists [lit "0.25"]. assert (P : 0 < atof (lit "0.25")) by (rewrite atof_025; lra).
  destruct (no_implementation (lit "0.25") 1 0 0 P) as (e & C & _). exists e. split; [exact C|]. intros V N.
  destruct (no_implementation (lit "0.25") 1 V N P) as (e' & C' & Rj).
  apply configured_made in C as (_ & ->). apply configured_made in C' as (_ & ->). exact Rj.
Qed.
