(** The parameters chosen in normalized units are those chosen in physical
    units, converted. *)
From Coq Require Import Reals Lra Lia Psatz Bool Arith.
From Coquelicot Require Import Coquelicot.
From Coq Require Import List.
From Verif Require Import Model.Strings Model.Printf Model.SymFunctions Model.SymSetup Model.SymLines Model.Electrostatics Model.EwaldSetup Spec.EwaldSpec
  Proofs.EwaldNewton Proofs.EwaldLoops Proofs.EwaldAccuracy Proofs.EwaldSetupProofs.
Import ListNotations.
Local Open Scope R_scope.

Section Units.
Variables cE cL : R.
Hypothesis (HE : 0 < cE) (HL : 0 < cL).
Let r := sqrt cL.
Lemma r_pos : 0 < r.
Proof. now apply sqrt_lt_R0. Qed.
Lemma r_sqr : r * r = cL.
Proof. apply sqrt_sqrt. lra. Qed.
Lemma c_pow_mult x y a : 0 < x -> 0 < y -> c_pow (x * y) a = c_pow x a * c_pow y a.
Proof.
  intros Hx Hy. unfold c_pow. destruct (Req_EM_T x 0), (Req_EM_T y 0), (Req_EM_T (x * y) 0); try nra.
  symmetry. now apply Rpower_mult_distr.
Qed.
Lemma c_pow_root n : (0 < n)%nat -> c_pow (cL ^ n) (1 / INR n) = cL.
Proof.
  intro Hn. pose proof (pow_lt cL n HL) as P. unfold c_pow. destruct (Req_EM_T _ 0); [lra|].
  rewrite <- Rpower_pow by exact HL. rewrite Rpower_mult.
  replace (INR n * (1 / INR n)) with 1 by (field; apply not_0_INR; lia). now apply Rpower_1.
Qed.
Lemma volume_sqrt V N : 0 < V -> sqrt (INR N / (V * cL ^ 3)) = sqrt (INR N / V) / (cL * r).
Proof.
  intro HV. pose proof r_pos. pose proof r_sqr as Q.
  assert (E : INR N / (V * cL ^ 3) = INR N / V / (cL * r) ^ 2).
  { replace ((cL * r) ^ 2) with (cL ^ 2 * (r * r)) by ring. rewrite Q. field. lra. }
  assert (P : 0 < cL * r) by (apply Rmult_lt_0_compat; assumption).
  rewrite E, sqrt_div_alt by (apply pow_lt; exact P). f_equal. apply sqrt_pow2. lra.
Qed.

(** ** Jackson and Catlow *)
Lemma jackson_units V : 0 < V -> jackson_eta (V * cL ^ 3) = jackson_eta V * cL.
Proof.
  intro HV. unfold jackson_eta. rewrite c_pow_mult by (try apply pow_lt; lra).
  replace (1 / 3) with (1 / INR 3) by (cbn; f_equal; ring). rewrite (c_pow_root 3) by lia. ring.
Qed.

(** ** Fixed cutoff *)
Lemma fixr_C_units q N V eps : 0 < V -> 0 < eps -> fixr_C q N (V * cL ^ 3) (eps / (cL * cE)) = fixr_C q N V eps * (cE / r).
Proof.
  intros HV He. unfold fixr_C. rewrite volume_sqrt by exact HV. pose proof r_pos. field. repeat split; lra.
Qed.
Lemma kcut_units fuel eta y : 0 < eta -> 0 < y -> forall k relX relY, 0 < k ->
  kcut_loop fuel (eta * cL) (y * r) (k / cL) relX relY = option_map (fun k => k / cL) (kcut_loop fuel eta y k relX relY).
Proof.
  pose proof r_pos as Hr. pose proof r_sqr as Q. intros He Hy.
  assert (Sq : forall k, 0 < k -> sqrt (k / cL) = sqrt k / r) by (intros k Hk; now rewrite sqrt_div_alt).
  induction fuel as [|f IH]; intros k relX relY Hk; [reflexivity|].
  cbn [kcut_loop]. destruct (_ || _)%bool; [|reflexivity].
  replace (k / cL * (eta * cL)) with (k * eta) by (field; lra).
  rewrite Sq by exact Hk.
  set (P := 1 + 2 * (k * eta) ^ 2). assert (HP : 0 < P) by (unfold P; pose proof (pow2_ge_0 (k * eta)); lra).
  set (ex := exp ((k * eta) ^ 2 / 2)).
  set (k' := k - 2 * k / P * (-(1) + sqrt k * ex * y)).
  assert (E : k / cL - 2 * (k / cL) / P * (-(1) + sqrt k / r * ex * (y * r)) = k' / cL).
  { unfold k'. field. lra. }
  rewrite E.
  destruct (Rle_dec (k' / cL) 0) as [A|A]; destruct (Rle_dec k' 0) as [B|B].
  - replace (k / cL / 2) with (k / 2 / cL) by (field; lra). apply IH. lra.
  - exfalso. apply Rnot_le_lt in B. assert (0 < k' / cL) by now apply Rdiv_lt_0_compat. lra.
  - exfalso. apply A. apply Rmult_le_reg_r with cL; [exact HL|]. replace (k' / cL * cL) with k' by (field; lra). lra.
  - apply Rnot_le_lt in B. rewrite Sq by exact B. pose proof (sqrt_lt_R0 k' B) as Sk.
    replace (k' / cL * (eta * cL)) with (k' * eta) by (field; lra).
    replace ((k' / cL - k / cL) / (k' / cL)) with ((k' - k) / k') by (field; lra).
    set (e2 := exp _). 
    replace ((1 / (sqrt k' / r) * e2 - y * r) / (y * r)) with ((1 / sqrt k' * e2 - y) / y).
    + apply IH. exact B.
    + field. lra.
Qed.

(** ** Optimal width *)
Lemma opt_C_units q N V eps : 0 < V -> 0 < eps -> opt_C q N (V * cL ^ 3) (eps / (cL * cE)) = opt_C q N V eps * (cE / r).
Proof.
  intros HV He. unfold opt_C. rewrite volume_sqrt by exact HV. pose proof r_pos. field. repeat split; lra.
Qed.
Lemma opt_eta0_units V : 0 < V -> opt_eta0 (V * cL ^ 3) = opt_eta0 V * cL.
Proof.
  intro HV. unfold opt_eta0. pose proof PI_RGT_0.
  replace (1 / TrOverTk * (V * cL ^ 3) ^ 2 / (2 * PI) ^ 3) with (1 / TrOverTk * V ^ 2 / (2 * PI) ^ 3 * cL ^ 6).
  2:{ unfold TrOverTk. field. lra. }
  assert (0 < 1 / TrOverTk * V ^ 2 / (2 * PI) ^ 3).
  { unfold TrOverTk. apply Rdiv_lt_0_compat; [|apply pow_lt; lra]. apply Rmult_lt_0_compat; [lra | apply pow_lt; lra]. }
  rewrite c_pow_mult by (try apply pow_lt; lra). f_equal.
  replace (1 / 6) with (1 / INR 6) by (cbn; f_equal; ring). apply (c_pow_root 6). lia.
Qed.
Lemma calculateS_units fuel prec C eta s : C <> 0 -> 0 < eta ->
  calculateS fuel (prec * (cE / cL)) (C * (cE / r)) (eta * cL) s = calculateS fuel prec C eta s.
Proof.
  intros HC He. pose proof r_pos. pose proof r_sqr as Q. unfold calculateS. f_equal.
  replace (eta * cL / 2) with (eta / 2 * cL) by field. rewrite sqrt_mult by lra. fold r. rewrite <- Q. field. lra.
Qed.
Lemma eta_loop_units fuel prec C eta0 : 0 < C -> 0 < prec -> 0 < eta0 -> forall s eta rel, 0 < eta ->
  eta_loop fuel (prec * (cE / cL)) (C * (cE / r)) (eta0 * cL) s (eta * cL) rel
  = option_map (fun p => (fst p, snd p * cL)) (eta_loop fuel prec C eta0 s eta rel).
Proof.
  intros HC Hp H0. induction fuel as [|f IH]; intros s eta rel He; [reflexivity|].
  cbn [eta_loop]. destruct (ltR _ _); [|reflexivity].
  rewrite calculateS_units by lra.
  destruct (calculateS f prec C eta s) as [s'|] eqn:E; [|reflexivity]. cbv zeta.
  replace (eta0 * cL * c_pow (1 + 1 / (2 * s' ^ 2)) (1 / 6)) with (eta0 * c_pow (1 + 1 / (2 * s' ^ 2)) (1 / 6) * cL) by ring.
  assert (Hs : 0 < s').
  { destruct (calculateS_total prec C eta s Hp HC He) as (n & r1 & N & H).
    specialize (H (Nat.max n f) (Nat.le_max_l _ _)).
    apply (calculateS_more f (Nat.max n f)) in E; [|apply Nat.le_max_r]. rewrite E in H. injection H as ->. apply N. }
  pose proof (next_eta_pos eta0 H0 s' Hs) as Hn. unfold next_eta in Hn. set (e' := eta0 * c_pow (1 + 1 / (2 * s' ^ 2)) (1 / 6)) in *.
  replace (Rabs (eta * cL - e' * cL) / (e' * cL)) with (Rabs (eta - e') / e').
  - now apply IH.
  - replace (eta * cL - e' * cL) with ((eta - e') * cL) by ring. rewrite Rabs_mult, (Rabs_right cL) by lra. field. lra.
Qed.
End Units.

Lemma rmax_scale a b c : 0 < c -> Rmax (a * c) (b * c) = Rmax a b * c.
Proof.
  intro H. destruct (Rle_dec a b).
  - rewrite !Rmax_right; [reflexivity | assumption | apply Rmult_le_compat_r; lra].
  - rewrite !Rmax_left; [reflexivity | lra | apply Rmult_le_compat_r; lra].
Qed.
(** What the two setups return, for the same number of rounds. *)
Definition same_outcome (cL : R) (x y : run ewald_setup) : Prop :=
  match x, y with
  | None, None => True
  | Some (e, true), Some (e', true) => sw_params e' = ew_toNormalizedUnits cL (sw_params e)
  | Some (_, false), Some (_, false) => True
  | _, _ => False
  end.
Lemma units_same cE cL m words sigma e e' V N fuel : 0 < cE -> 0 < cL -> 0 < V -> (0 < N)%nat -> sensible words ->
  configured m words sigma e -> configured_normalized cE cL m words sigma e' ->
  same_outcome cL (calculateParameters fuel V N e) (calculateParameters fuel (V * cL ^ 3) N e').
Proof.
  intros HE HL HV HN Hs C C'. apply configured_made in C as (A & ->). apply configured_normalized_made in C' as (_ & ->).
  assert (HV' : 0 < V * cL ^ 3) by (apply Rmult_lt_0_compat; [exact HV | apply pow_lt; exact HL]).
  destruct words as [|p [|q [|x [|z l]]]]; try easy; (destruct m; [try (exfalso; now destruct A)|]).
  - (* Jackson *)
    cbn [made acceptable] in *. unfold sw_toNormalizedUnits; cbn [sw_method].
    unfold calculateParameters, jackson_calculate; cbn [sw_impl sw_settings es_precision sw_params sw_method].
    destruct (Req_EM_T V 0); [lra|]. destruct (Req_EM_T (V * cL ^ 3) 0); [lra|].
    destruct (Rge_dec (atof p) 1); [exact I|].
    rewrite (jackson_units cL HL) by exact HV.
    destruct (Rle_dec (jackson_eta V) 0) as [B|B]; destruct (Rle_dec (jackson_eta V * cL) 0) as [B'|B']; [exact I | exfalso; nra | exfalso; nra|].
    cbn [same_outcome sw_params]. unfold ew_toNormalizedUnits, ew_toPhysicalUnits, jackson_rCut, jackson_kCut; cbn [ew_eta ew_rCut ew_kCut].
    f_equal; field; lra.
  - (* one word only *)
    exact I.
  - (* optimal width *)
    cbn [made acceptable sensible] in *. destruct A as [Hp _]. unfold sw_toNormalizedUnits; cbn [sw_method sw_params sw_settings sw_impl es_precision es_maxCharge es_maxQSigma es_fourPiEps].
    unfold calculateParameters, opt_calculate; cbn [sw_impl sw_settings es_precision sw_params sw_method es_maxCharge es_maxQSigma es_fourPiEps].
    rewrite !unchanged_false by assumption. unfold calculateEta.
    rewrite (opt_C_units cE cL HE HL) by lra. rewrite (opt_eta0_units cL HL) by exact HV.
    assert (HC : 0 < opt_C (atof q) N V 1).
    { unfold opt_C. pose proof (c_pow_pos 2 (3 / 4) ltac:(lra)). pose proof (density_pos V N HV HN).
      assert (0 < atof q ^ 2) by (apply pow2_gt_0; exact Hs). apply Rdiv_lt_0_compat; [|lra].
      apply Rmult_lt_0_compat; [nra | assumption]. }
    assert (H0 : 0 < opt_eta0 V).
    { apply c_pow_pos. pose proof PI_RGT_0. unfold TrOverTk. apply Rdiv_lt_0_compat; [|apply pow_lt; lra].
      apply Rmult_lt_0_compat; [lra | apply pow_lt; lra]. }
    rewrite (eta_loop_units cE cL HE HL) by assumption.
    destruct (eta_loop fuel (atof p) (opt_C (atof q) N V 1) (opt_eta0 V) 1 (opt_eta0 V) 1) as [[s eta]|] eqn:E; [|exact I].
    cbn [option_map fst snd same_outcome sw_params]. rewrite rmax_scale by exact HL.
    assert (Heta : 0 < eta).
    { destruct (eta_total (atof p) (opt_C (atof q) N V 1) (opt_eta0 V) Hp HC H0) as (n & [s1 eta1] & (Hs1 & E1 & _) & H).
      specialize (H (Nat.max n fuel) (Nat.le_max_l _ _)).
      apply (eta_loop_more _ _ _ fuel (Nat.max n fuel)) in E; [|apply Nat.le_max_r]. rewrite E in H. injection H as -> ->.
      cbn [fst snd] in *. rewrite E1. now apply next_eta_pos. }
    assert (HM : 0 < Rmax eta sigma) by (apply Rlt_le_trans with eta; [exact Heta | apply Rmax_l]).
    unfold ew_toNormalizedUnits, ew_toPhysicalUnits; cbn [ew_eta ew_rCut ew_kCut]. f_equal; field; lra.
  - (* fixed cutoff *)
    cbn [made acceptable sensible] in *. destruct A as [Hp _]. destruct Hs as [Hq Hrc].
    unfold sw_toNormalizedUnits; cbn [sw_method sw_params sw_settings sw_impl es_precision es_maxCharge es_maxQSigma es_fourPiEps].
    unfold calculateParameters, fixr_calculate, ew_toNormalizedUnits, ew_toPhysicalUnits;
      cbn [sw_impl sw_settings es_precision sw_params sw_method es_maxCharge es_maxQSigma es_fourPiEps ew_rCut ew_eta ew_kCut].
    rewrite !unchanged_false by assumption.
    replace (atof x / (1 / cL)) with (atof x * cL) by (field; lra).
    destruct (Req_EM_T (atof x) 0); [lra|]. destruct (Req_EM_T (atof x * cL) 0); [nra|].
    rewrite (fixr_C_units cE cL HE HL) by lra.
    pose proof (c_pos (atof q) 1 V N Hq Rlt_0_1 HV HN) as HC. fold (fixr_C (atof q) N V 1) in HC.
    set (C := fixr_C (atof q) N V 1) in *.
    pose proof (sqrt_lt_R0 cL HL) as Hr. pose proof (sqrt_sqrt cL ltac:(lra)) as Q. set (r := sqrt cL) in *.
    assert (Ex : sqrt (atof x * cL / 2) * (atof p * (cE / cL)) / (C * (cE / r)) = sqrt (atof x / 2) * atof p / C).
    { replace (atof x * cL / 2) with (atof x / 2 * cL) by field. rewrite sqrt_mult by lra. fold r. rewrite <- Q. field. lra. }
    unfold fixr_eta. rewrite Ex. set (z := sqrt (atof x / 2) * atof p / C).
    destruct (Rge_dec z 1) as [|Z]; [exact I|].
    assert (Hz : 0 < z). { unfold z. apply Rdiv_lt_0_compat; [|exact HC]. apply Rmult_lt_0_compat; [apply sqrt_lt_R0; lra | exact Hp]. }
    assert (Ln : 0 < - 2 * ln z) by (assert (ln z < ln 1) by (apply ln_increasing; lra); rewrite ln_1 in *; lra).
    pose proof (sqrt_lt_R0 _ Ln) as Sl. set (w := sqrt (- 2 * ln z)) in *.
    replace (atof x * cL / w) with (atof x / w * cL) by (field; lra).
    assert (Heta : 0 < atof x / w) by now apply Rdiv_lt_0_compat. set (eta := atof x / w) in *.
    unfold fixr_kCut. pose proof sqrt2_pos as S2.
    replace (eta * cL * (atof p * (cE / cL)) / (sqrt 2 * (C * (cE / r)))) with (eta * atof p / (sqrt 2 * C) * r) by (field; lra).
    replace (1 / (eta * cL)) with (1 / eta / cL) by (field; lra).
    assert (Hy : 0 < eta * atof p / (sqrt 2 * C)) by (apply Rdiv_lt_0_compat; apply Rmult_lt_0_compat; assumption).
    unfold r. rewrite (kcut_units cL HL) by (try assumption; apply Rdiv_lt_0_compat; lra).
    destruct (kcut_loop fuel eta (eta * atof p / (sqrt 2 * C)) (1 / eta) 1 1) as [k|]; [|exact I].
    cbn [option_map same_outcome sw_params]. unfold ew_toNormalizedUnits, ew_toPhysicalUnits; cbn [ew_eta ew_rCut ew_kCut].
    f_equal; field; lra.
Qed.
Lemma units_chooses cE cL m words sigma e e' V N W : 0 < cE -> 0 < cL -> 0 < V -> (0 < N)%nat -> sensible words ->
  configured m words sigma e -> configured_normalized cE cL m words sigma e' ->
  chooses e V N W -> chooses e' (V * cL ^ 3) N (ew_toNormalizedUnits cL W).
Proof.
  intros HE HL HV HN Hs C C' (n & e1 & <- & H).
  pose proof (fun fuel => units_same cE cL m words sigma e e' V N fuel HE HL HV HN Hs C C') as U.
  assert (X : exists e2, calculateParameters n (V * cL ^ 3) N e' = Some (e2, true)).
  { specialize (U n). rewrite (H n (le_n n)) in U. cbn [same_outcome] in U. destruct (calculateParameters n (V * cL ^ 3) N e') as [[e2 [|]]|]; [|easy|easy]. now exists e2. }
  destruct X as (e2 & E2). exists n, e2.
  assert (P : sw_params e2 = ew_toNormalizedUnits cL (sw_params e1)).
  { specialize (U n). rewrite (H n (le_n n)), E2 in U. exact U. }
  split; [exact P|]. intros fuel Lf.
  specialize (U fuel). rewrite (H fuel Lf) in U. cbn [same_outcome] in U.
  destruct (calculateParameters fuel (V * cL ^ 3) N e') as [[e3 [|]]|] eqn:E3; try easy.
  (* the setup is determined by the parameters *)
  apply configured_normalized_made in C' as (A & ->).
  assert (HV' : 0 < V * cL ^ 3) by (apply Rmult_lt_0_compat; [exact HV | apply pow_lt; exact HL]).
  f_equal. f_equal.
  clear - E2 E3 Lf HV'. revert E2 E3. unfold calculateParameters.
  set (e := sw_toNormalizedUnits _ _ _).
  destruct (sw_impl e) as [[v|v k|v k s eta]|]; [| | |discriminate].
  - intros E2 E3. congruence.
  - unfold fixr_calculate. destruct (unchanged _ _ _ _); [congruence|]. destruct (Req_EM_T _ 0); [congruence|].
    destruct (fixr_eta _ _ _) as [eta|]; [|congruence]. unfold fixr_kCut.
    destruct (kcut_loop n _ _ _ _ _) as [k1|] eqn:K; [|discriminate].
    destruct (kcut_loop fuel _ _ _ _ _) as [k2|] eqn:K2; [|discriminate].
    assert (k1 = k2); [|congruence].
    assert (M : forall f1 f2 et y kc rx ry a, (f1 <= f2)%nat -> kcut_loop f1 et y kc rx ry = Some a -> kcut_loop f2 et y kc rx ry = Some a).
    { clear. induction f1 as [|f1 IH]; intros f2 et y kc rx ry a L H; [discriminate|]. destruct f2 as [|f2]; [lia|].
      cbn [kcut_loop] in *. destruct (_ || _)%bool; [|exact H]. destruct (Rle_dec _ 0); (apply IH; [lia | exact H]). }
    apply (M _ _ _ _ _ _ _ _ Lf) in K. congruence.
  - unfold opt_calculate. destruct (unchanged _ _ _ _); [congruence|].
    unfold calculateEta.
    destruct (eta_loop n _ _ _ _ _ _) as [p1|] eqn:K; [|discriminate].
    destruct (eta_loop fuel _ _ _ _ _ _) as [p2|] eqn:K2; [|destruct p1; discriminate].
    apply (eta_loop_more _ _ _ n fuel _ _ _ _ Lf) in K. rewrite K in K2. injection K2 as <-. congruence.
Qed.
Lemma units_rejects cE cL m words sigma e e' V N : 0 < cE -> 0 < cL -> 0 < V -> (0 < N)%nat -> sensible words ->
  configured m words sigma e -> configured_normalized cE cL m words sigma e' ->
  rejects e V N -> rejects e' (V * cL ^ 3) N.
Proof.
  intros HE HL HV HN Hs C C' H fuel. destruct (H fuel) as (e1 & E).
  pose proof (units_same cE cL m words sigma e e' V N fuel HE HL HV HN Hs C C') as U. rewrite E in U. cbn [same_outcome] in U.
  destruct (calculateParameters fuel (V * cL ^ 3) N e') as [[e2 [|]]|]; [easy | now exists e2 | easy].
Qed.
Lemma units_chooses_spelled cE cL m words sigma e e' V N W : 0 < cE -> 0 < cL -> 0 < V -> (0 < N)%nat -> sensible words ->
  configured m words sigma e -> configured_normalized cE cL m words sigma e' ->
  chooses e V N W -> chooses e' (V * cL ^ 3) N (mkEwald (ew_eta W * cL) (ew_rCut W * cL) (ew_kCut W / cL)).
Proof.
  intros HE HL HV HN Hs C C' H. pose proof (units_chooses cE cL m words sigma e e' V N W HE HL HV HN Hs C C' H) as U.
  replace (mkEwald (ew_eta W * cL) (ew_rCut W * cL) (ew_kCut W / cL)) with (ew_toNormalizedUnits cL W); [exact U|].
  unfold ew_toNormalizedUnits, ew_toPhysicalUnits. f_equal; field; lra.
Qed.
