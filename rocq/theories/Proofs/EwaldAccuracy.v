(** The chosen Ewald parameters meet the requested precision. *)
From Coq Require Import Reals Lra Lia Psatz Bool Arith.
From Coquelicot Require Import Coquelicot.
From Coq Require Import List.
From Verif Require Import Model.Strings Model.Printf Model.SymFunctions Model.SymSetup Model.SymLines Model.Electrostatics Model.EwaldSetup Spec.EwaldSpec
  Proofs.EwaldNewton Proofs.EwaldLoops.
Import ListNotations.
Local Open Scope R_scope.

Lemma c_pow_pos x y : 0 < x -> 0 < c_pow x y.
Proof. intro H. unfold c_pow. destruct (Req_EM_T x 0); [lra | apply exp_pos]. Qed.
Lemma sqrt2_pos : 0 < sqrt 2.
Proof. apply sqrt_lt_R0. lra. Qed.
Lemma sqrt2_sqr : sqrt 2 * sqrt 2 = 2.
Proof. apply sqrt_sqrt. lra. Qed.
Lemma sqrt_quot a V r : 0 <= a -> 0 < V -> 0 < r -> sqrt (a / (V * r)) = sqrt (a / V) / sqrt r.
Proof.
  intros Ha HV Hr. rewrite <- sqrt_div_alt by exact Hr. f_equal. field. lra.
Qed.
Lemma unchanged_false V N : 0 < V -> unchanged V N 0 0 = false.
Proof. intro H. unfold unchanged, eqR. destruct (Req_EM_T V 0); [lra | reflexivity]. Qed.

Section Estimates.
Variables (q eps V : R) (N : nat).
Hypothesis (Hq : q <> 0) (He : 0 < eps) (HV : 0 < V) (HN : (0 < N)%nat).
Let c := 2 * q ^ 2 * sqrt (INR N / V) / eps.
Lemma density_pos : 0 < sqrt (INR N / V).
Proof. apply sqrt_lt_R0. apply Rdiv_lt_0_compat; [now apply lt_0_INR | exact HV]. Qed.
Lemma c_pos : 0 < c.
Proof.
  unfold c. pose proof density_pos. assert (0 < q ^ 2) by (apply pow2_gt_0; exact Hq). apply Rdiv_lt_0_compat; [nra | exact He].
Qed.
Lemma unscreened_c rc : 0 < rc -> unscreened_error q eps V N rc = c * sqrt 2 / sqrt rc.
Proof.
  intro Hr. unfold unscreened_error, c. rewrite sqrt_quot by (try apply pos_INR; assumption).
  pose proof (sqrt_lt_R0 rc Hr). field. lra.
Qed.
Lemma real_c eta rc : 0 < rc -> real_space_error q eps V N eta rc = c * sqrt 2 / sqrt rc * exp (- ((rc / eta) ^ 2 / 2)).
Proof. intro Hr. rewrite <- unscreened_c by exact Hr. reflexivity. Qed.
Lemma reciprocal_c eta kc : 0 < kc -> reciprocal_error q eps V N eta kc = c * sqrt 2 / sqrt kc * exp (- ((kc * eta) ^ 2 / 2)) / eta.
Proof. intro Hr. rewrite <- unscreened_c by exact Hr. reflexivity. Qed.
End Estimates.

(** ** Fixed cutoff *)
Lemma fixr_case p q eps V N rc sigma kind W0 :
  0 < p -> q <> 0 -> 0 < eps -> 0 < V -> (0 < N)%nat -> 0 < rc -> ew_rCut W0 = rc ->
  let e := mkEwaldSetup W0 kind (mkES p q sigma eps) (Some (TFixR 0 0)) in
  (p < unscreened_error q eps V N rc ->
   exists W, chooses e V N W /\ positive W /\ ew_rCut W = rc /\
     real_space_error q eps V N (ew_eta W) (ew_rCut W) = p /\
     p <= reciprocal_error q eps V N (ew_eta W) (ew_kCut W) <= p * (1 + acceptError)) /\
  (unscreened_error q eps V N rc <= p -> rejects e V N).
Proof.
  intros Hp Hq He HV HN Hr EW e.
  pose proof (c_pos q eps V N Hq He HV HN) as HC. pose proof sqrt2_pos as S2. pose proof (sqrt_lt_R0 rc Hr) as Sr.
  pose proof (unscreened_c q eps V N He HV rc Hr) as U.
  set (C := 2 * q ^ 2 * sqrt (INR N / V) / eps) in *.
  assert (Hx : sqrt (rc / 2) * p / C = p / unscreened_error q eps V N rc).
  { rewrite U, sqrt_div_alt by lra. field. lra. }
  assert (HU : 0 < unscreened_error q eps V N rc).
  { rewrite U. apply Rdiv_lt_0_compat; [nra | exact Sr]. }
  unfold e. split.
  - intro L.
    assert (X1 : p / unscreened_error q eps V N rc < 1) by (apply Rlt_div_l; lra).
    assert (X0 : 0 < p / unscreened_error q eps V N rc) by (apply Rdiv_lt_0_compat; lra).
    set (x := p / unscreened_error q eps V N rc) in *.
    assert (Ln : 0 < - 2 * ln x) by (assert (ln x < ln 1) by (apply ln_increasing; lra); rewrite ln_1 in *; lra).
    set (eta := rc / sqrt (- 2 * ln x)).
    assert (Seta : 0 < sqrt (- 2 * ln x)) by now apply sqrt_lt_R0.
    assert (Heta : 0 < eta) by now apply Rdiv_lt_0_compat.
    assert (Ex : exp (- ((rc / eta) ^ 2 / 2)) = x).
    { replace (rc / eta) with (sqrt (- 2 * ln x)) by (unfold eta; field; lra).
      rewrite pow2_sqrt by lra. replace (- (- 2 * ln x / 2)) with (ln x) by field. now apply exp_ln. }
    destruct (fixr_kCut_total C eta p HC Heta Hp) as (n & k & (Hk & K1 & K2) & H).
    exists (mkEwald eta rc k). split; [|split; [|split; [|split]]].
    + exists n, (mkEwaldSetup (mkEwald eta rc k) kind (mkES p q sigma eps) (Some (TFixR V N))). split; [reflexivity|].
      intros fuel Lf. unfold calculateParameters, fixr_calculate.
      cbn [sw_impl sw_settings sw_params sw_method es_maxCharge es_fourPiEps es_precision].
      rewrite unchanged_false by exact HV. rewrite EW. destruct (Req_EM_T rc 0); [lra|].
      unfold fixr_C. fold C. unfold fixr_eta. rewrite Hx. fold x. destruct (Rge_dec x 1); [lra|].
      fold eta. now rewrite H.
    + repeat split; assumption.
    + reflexivity.
    + cbn [ew_eta ew_rCut]. rewrite real_c by assumption. fold C. rewrite Ex. rewrite <- U. unfold x. field. lra.
    + cbn [ew_eta ew_kCut]. rewrite reciprocal_c by assumption. fold C.
      pose proof (sqrt_lt_R0 k Hk) as Sk.
      assert (G : C * sqrt 2 / sqrt k * exp (- ((k * eta) ^ 2 / 2)) / eta = g (eta ^ 2 / 2) k * (sqrt 2 * C / eta)).
      { unfold g. replace (- (eta ^ 2 / 2 * k ^ 2)) with (- ((k * eta) ^ 2 / 2)) by field. field. lra. }
      rewrite G. assert (P : 0 < sqrt 2 * C / eta) by (apply Rdiv_lt_0_compat; nra).
      assert (E : eta * p / (sqrt 2 * C) * (sqrt 2 * C / eta) = p) by (field; lra).
      split.
      * rewrite <- E at 1. apply Rmult_le_compat_r; lra.
      * apply Rle_trans with (eta * p / (sqrt 2 * C) * (1 + acceptError) * (sqrt 2 * C / eta)).
        -- apply Rmult_le_compat_r; lra.
        -- right. replace (eta * p / (sqrt 2 * C) * (1 + acceptError) * (sqrt 2 * C / eta))
             with (eta * p / (sqrt 2 * C) * (sqrt 2 * C / eta) * (1 + acceptError)) by ring. now rewrite E.
  - intros L fuel. eexists. unfold calculateParameters, fixr_calculate.
    cbn [sw_impl sw_settings sw_params sw_method es_maxCharge es_fourPiEps es_precision].
    rewrite unchanged_false by exact HV. rewrite EW. destruct (Req_EM_T rc 0); [exfalso; lra|].
    unfold fixr_C. fold C. unfold fixr_eta. rewrite Hx.
    destruct (Rge_dec _ 1) as [G|G]; [reflexivity|]. exfalso. apply G. apply Rle_ge.
    apply (Rle_div_r 1 p _ HU). lra.
Qed.

(** ** Optimal width *)
Lemma pow_2_34 : c_pow 2 (3 / 4) * sqrt (sqrt 2) = 2.
Proof.
  unfold c_pow. destruct (Req_EM_T 2 0); [lra|].
  rewrite <- (Rpower_sqrt (sqrt 2)) by apply sqrt2_pos. rewrite <- Rpower_sqrt by lra.
  rewrite Rpower_mult, <- Rpower_plus. replace (3 / 4 + / 2 * / 2) with 1 by field. apply Rpower_1. lra.
Qed.
Lemma opt_case p q eps V N sigma kind W0 s0 e0 :
  0 < p -> q <> 0 -> 0 < eps -> 0 < V -> (0 < N)%nat ->
  let e := mkEwaldSetup W0 kind (mkES p q sigma eps) (Some (TOptEta 0 0 s0 e0)) in
  exists W, chooses e V N W /\ positive W /\ sigma <= ew_eta W /\
     real_space_error q eps V N (ew_eta W) (ew_rCut W) = reciprocal_error q eps V N (ew_eta W) (ew_kCut W) /\
     real_space_error q eps V N (ew_eta W) (ew_rCut W) <= p * (1 + 2 * acceptError) /\
     (ew_eta W = sigma \/ p * (1 - acceptError) <= real_space_error q eps V N (ew_eta W) (ew_rCut W)).
Proof.
  intros Hp Hq He HV HN e.
  pose proof (c_pos q eps V N Hq He HV HN) as HC2. pose proof sqrt2_pos as S2. pose proof sqrt2_sqr as S22.
  set (C2 := 2 * q ^ 2 * sqrt (INR N / V) / eps) in *.
  set (C := opt_C q N V eps).
  pose proof (sqrt_lt_R0 _ S2) as S4.
  assert (EC : C * sqrt (sqrt 2) = C2).
  { unfold C, opt_C, C2. pose proof pow_2_34 as P4. set (t := c_pow 2 (3 / 4)) in *.
    transitivity (t * sqrt (sqrt 2) * q ^ 2 * sqrt (INR N / V) / eps); [field; lra | now rewrite P4]. }
  assert (HC : 0 < C) by nra.
  assert (H0 : 0 < opt_eta0 V).
  { apply c_pow_pos. pose proof PI_RGT_0. unfold TrOverTk. apply Rdiv_lt_0_compat; [|apply pow_lt; lra].
    apply Rmult_lt_0_compat; [lra | apply pow_lt; lra]. }
  destruct (eta_total p C (opt_eta0 V) Hp HC H0) as (n & [s eta1] & (Hs & E1 & old & Ho & Nr & Rel) & H).
  cbn [fst snd] in *.
  assert (Heta1 : 0 < eta1) by (rewrite E1; now apply next_eta_pos).
  set (eta := Rmax eta1 sigma).
  assert (Heta : 0 < eta) by (apply Rlt_le_trans with eta1; [exact Heta1 | apply Rmax_l]).
  exists (mkEwald eta (sqrt 2 * eta * s) (sqrt 2 * s / eta)).
  assert (Hr : 0 < sqrt 2 * eta * s) by (apply Rmult_lt_0_compat; [nra | exact Hs]).
  assert (Hk : 0 < sqrt 2 * s / eta) by (apply Rdiv_lt_0_compat; nra).
  pose proof (sqrt_lt_R0 s Hs) as Ss. pose proof (sqrt_lt_R0 eta Heta) as Se.
  (* both errors in terms of g *)
  assert (ER : real_space_error q eps V N eta (sqrt 2 * eta * s) = g 1 s * (C * sqrt 2 / sqrt eta)).
  { rewrite real_c by assumption. fold C2. rewrite <- EC. unfold g.
    replace (sqrt 2 * eta * s / eta) with (sqrt 2 * s) by (field; lra).
    replace (- ((sqrt 2 * s) ^ 2 / 2)) with (- (1 * s ^ 2)) by (replace ((sqrt 2 * s) ^ 2) with (sqrt 2 * sqrt 2 * s ^ 2) by ring; rewrite S22; field).
    rewrite !sqrt_mult by nra. field. lra. }
  assert (EK : reciprocal_error q eps V N eta (sqrt 2 * s / eta) = g 1 s * (C * sqrt 2 / sqrt eta)).
  { rewrite reciprocal_c by assumption. fold C2. rewrite <- EC. unfold g.
    replace (sqrt 2 * s / eta * eta) with (sqrt 2 * s) by (field; lra).
    replace (- ((sqrt 2 * s) ^ 2 / 2)) with (- (1 * s ^ 2)) by (replace ((sqrt 2 * s) ^ 2) with (sqrt 2 * sqrt 2 * s ^ 2) by ring; rewrite S22; field).
    rewrite sqrt_div_alt by exact Heta. rewrite sqrt_mult by lra.
    assert (Q : sqrt eta * sqrt eta = eta) by (apply sqrt_sqrt; lra).
    set (x := exp _). set (r := sqrt eta) in *. rewrite <- Q. field. repeat split; lra. }
  (* g lies between y and y (1 + acc) *)
  destruct Nr as (_ & G1 & G2). pose proof acc_pos as Ap. pose proof acc_small as As.
  assert (P : 0 < C * sqrt 2 / sqrt eta) by (apply Rdiv_lt_0_compat; nra).
  assert (EY : p / C * sqrt (old / 2) * (C * sqrt 2 / sqrt eta) = p * sqrt (old / eta)).
  { rewrite !sqrt_div_alt by lra. field. lra. }
  apply (Rmult_le_compat_r (C * sqrt 2 / sqrt eta)) in G1; [|lra].
  apply (Rmult_le_compat_r (C * sqrt 2 / sqrt eta)) in G2; [|lra].
  replace (p / C * sqrt (old / 2) * (1 + acceptError) * (C * sqrt 2 / sqrt eta))
    with (p / C * sqrt (old / 2) * (C * sqrt 2 / sqrt eta) * (1 + acceptError)) in G2 by ring.
  rewrite EY in G1, G2.
  assert (Rel2 : eta1 * (1 - acceptError) <= old <= eta1 * (1 + acceptError)).
  { apply Rle_div_l in Rel; [|exact Heta1]. pose proof (Rle_abs (old - eta1)). pose proof (Rle_abs (- (old - eta1))) as R3.
    rewrite Rabs_Ropp in R3. lra. }
  split; [|split; [|split; [|split; [|split]]]].
  - exists n, (mkEwaldSetup (mkEwald eta (sqrt 2 * eta * s) (sqrt 2 * s / eta)) kind (mkES p q sigma eps) (Some (TOptEta V N s eta))).
    split; [reflexivity|]. intros fuel Lf. unfold calculateParameters, opt_calculate, e.
    cbn [sw_impl sw_settings sw_params sw_method es_maxCharge es_fourPiEps es_precision es_maxQSigma].
    rewrite unchanged_false by exact HV. fold C. unfold calculateEta. rewrite H by exact Lf. reflexivity.
  - repeat split; assumption.
  - apply Rmax_r.
  - cbn [ew_eta ew_rCut ew_kCut]. now rewrite ER, EK.
  - cbn [ew_eta ew_rCut]. rewrite ER.
    apply Rle_trans with (p * sqrt (old / eta) * (1 + acceptError)); [exact G2|].
    assert (Sq : sqrt (old / eta) <= sqrt (1 + acceptError)).
    { apply sqrt_le_1_alt. apply Rle_div_l; [exact Heta|]. pose proof (Rmax_l eta1 sigma) as ML. fold eta in ML. nra. }
    assert (Sq2 : sqrt (1 + acceptError) <= 1 + acceptError / 2).
    { rewrite <- (sqrt_pow2 (1 + acceptError / 2)) by lra. apply sqrt_le_1_alt. nra. }
    assert (sqrt (old / eta) * (1 + acceptError) <= 1 + 2 * acceptError).
    { assert (0 <= sqrt (old / eta)) by apply sqrt_pos. nra. }
    rewrite Rmult_assoc. apply Rmult_le_compat_l; lra.
  - cbn [ew_eta ew_rCut]. destruct (Rle_dec eta1 sigma) as [L|L].
    + left. unfold eta. now apply Rmax_right.
    + right. rewrite ER. apply Rle_trans with (p * sqrt (old / eta)); [|exact G1].
      apply Rmult_le_compat_l; [lra|]. unfold eta. rewrite Rmax_left by lra.
      rewrite <- (sqrt_pow2 (1 - acceptError)) by lra. apply sqrt_le_1_alt.
      apply (Rle_div_r ((1 - acceptError) ^ 2) old eta1 Heta1).
      assert (A2 : (1 - acceptError) ^ 2 <= 1 - acceptError) by (clear - Ap As; nra).
      apply Rle_trans with ((1 - acceptError) * eta1); [apply Rmult_le_compat_r; lra | lra].
Qed.

(** ** Jackson and Catlow *)
Lemma jackson_case p q eps V N sigma kind W0 :
  0 < p -> 0 < V ->
  let e := mkEwaldSetup W0 kind (mkES p q sigma eps) (Some (TJackson 0)) in
  (p < 1 -> exists W, chooses e V N W /\ positive W /\
     ew_eta W ^ 3 * (2 * PI) * sqrt (2 * PI) = V /\
     exp (- ((ew_rCut W / ew_eta W) ^ 2 / 2)) = p /\ exp (- ((ew_kCut W * ew_eta W) ^ 2 / 2)) = p) /\
  (1 <= p -> rejects e V N).
Proof.
  intros Hp HV e. unfold e. split.
  - intro L. assert (Ln : 0 < - 2 * ln p) by (assert (ln p < ln 1) by (apply ln_increasing; lra); rewrite ln_1 in *; lra).
    pose proof (sqrt_lt_R0 _ Ln) as Sl. pose proof PI_RGT_0 as Pi. assert (S2 : 0 < sqrt (2 * PI)) by (apply sqrt_lt_R0; lra).
    set (eta := jackson_eta V).
    assert (Heta : 0 < eta).
    { unfold eta, jackson_eta. apply Rmult_lt_0_compat; [apply Rdiv_lt_0_compat; lra | now apply c_pow_pos]. }
    exists (mkEwald eta (jackson_rCut eta p) (jackson_kCut eta p)). split; [|split; [|split; [|split]]].
    + exists 0%nat, (mkEwaldSetup (mkEwald eta (jackson_rCut eta p) (jackson_kCut eta p)) kind (mkES p q sigma eps) (Some (TJackson V))).
      split; [reflexivity|]. intros fuel _. unfold calculateParameters, jackson_calculate.
      cbn [sw_impl sw_settings sw_params sw_method es_precision]. destruct (Req_EM_T V 0); [lra|].
      destruct (Rge_dec p 1); [lra|]. fold eta. destruct (Rle_dec eta 0); [lra|]. reflexivity.
    + unfold positive, jackson_rCut, jackson_kCut. cbn [ew_eta ew_rCut ew_kCut].
      split; [exact Heta|]. split; [now apply Rmult_lt_0_compat | now apply Rdiv_lt_0_compat].
    + cbn [ew_eta]. unfold eta, jackson_eta, c_pow. destruct (Req_EM_T V 0); [lra|].
      set (t := Rpower V (1 / 3)).
      assert (T : t ^ 3 = V).
      { unfold t. rewrite <- Rpower_pow by apply exp_pos. rewrite Rpower_mult. replace (1 / 3 * INR 3) with 1 by (cbn; field).
        now apply Rpower_1. }
      assert (Q : sqrt (2 * PI) * sqrt (2 * PI) = 2 * PI) by (apply sqrt_sqrt; lra).
      rewrite <- T. set (z := sqrt (2 * PI)) in *. rewrite <- Q. field. lra.
    + cbn [ew_eta ew_rCut]. unfold jackson_rCut. replace (sqrt (-2 * ln p) * eta / eta) with (sqrt (- 2 * ln p)) by (field; lra).
      rewrite pow2_sqrt by lra. replace (- (- 2 * ln p / 2)) with (ln p) by field. now apply exp_ln.
    + cbn [ew_eta ew_kCut]. unfold jackson_kCut. replace (sqrt (-2 * ln p) / eta * eta) with (sqrt (- 2 * ln p)) by (field; lra).
      rewrite pow2_sqrt by lra. replace (- (- 2 * ln p / 2)) with (ln p) by field. now apply exp_ln.
  - intros L fuel. eexists. unfold calculateParameters, jackson_calculate.
    cbn [sw_impl sw_settings sw_params sw_method es_precision]. destruct (Req_EM_T V 0); [exfalso; lra|].
    destruct (Rge_dec p 1); [reflexivity | exfalso; lra].
Qed.
