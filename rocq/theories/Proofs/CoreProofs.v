(** Facts about the core functions. *)
From Coq Require Import Reals Lra Psatz.
From Coquelicot Require Import Coquelicot.
From Verif Require Import Base.RealBase Model.CoreFunction.
Local Open Scope R_scope.

Lemma c_PI_eq : c_PI = PI.
Proof. apply four_atan_1. Qed.

Lemma c_PI_2_eq : c_PI_2 = PI / 2.
Proof. unfold c_PI_2. rewrite atan_1. field. Qed.

Lemma c_E_pos : 0 < c_E.
Proof. apply exp_pos. Qed.

Lemma sin_PI_x_nonneg x : 0 <= x <= 1 -> 0 <= sin (PI * x).
Proof.
  intros. assert (A := PI_RGT_0). apply sin_ge_0; nra.
Qed.

Lemma sqrt_one_minus_cos2 y : 0 <= sin y -> sqrt (1 - cos y * cos y) = sin y.
Proof.
  intros H. replace (1 - cos y * cos y) with (sin y * sin y).
  - apply sqrt_square; auto.
  - assert (B := sin2_cos2 y). unfold Rsqr in B. lra.
Qed.

Lemma core_fdfPtr_eq k x : 0 <= x <= 1 ->
  core_fdfPtr k x = (core_fPtr k x, core_dfPtr k x).
Proof.
  intros Hx. destruct k; unfold core_fdfPtr, core_fPtr, core_dfPtr; cbv zeta;
    try (f_equal; ring).
  rewrite c_PI_eq, c_PI_2_eq, sqrt_one_minus_cos2 by (apply sin_PI_x_nonneg; auto).
  f_equal. lra.
Qed.

Lemma core_dfPtr_derive k x : -1 < x < 1 -> is_derive (core_fPtr k) x (core_dfPtr k x).
Proof.
  intros Hx. destruct k; unfold core_fPtr, core_dfPtr; cbv zeta.
  - rewrite c_PI_eq, c_PI_2_eq. auto_derive; auto. lra.
  - auto_derive; auto. ring.
  - auto_derive; auto. ring.
  - auto_derive; auto. ring.
  - auto_derive; auto. ring.
  - assert (x * x - 1 <> 0) by nra. auto_derive; [lra |].
    unfold Rdiv. replace (x * x + - (1)) with (x * x - 1) by ring. 
    rewrite !Rmult_1_l. field; auto.
Qed.

Lemma asym_range x : 0 <= x <= 1 -> 0 <= (2 - x) * x <= 1.
Proof. intros. split; nra. Qed.

Lemma core_fdf_eq c x : 0 <= x <= 1 -> core_fdf c x = (core_f c x, core_df c x).
Proof.
  intros Hx. unfold core_fdf, core_f, core_df. destruct (core_asym c).
  - rewrite core_fdfPtr_eq by (apply asym_range; auto). f_equal. ring.
  - apply core_fdfPtr_eq; auto.
Qed.

Lemma core_df_derive c x : -2/5 < x < 1 -> is_derive (core_f c) x (core_df c x).
Proof.
  intros Hx. unfold core_df.
  assert (E : forall y, core_f c y = core_fPtr (core_type c) (if core_asym c then (2 - y) * y else y)) by reflexivity.
  apply is_derive_ext with (1 := fun y => eq_sym (E y)). clear E.
  destruct (core_asym c).
  - apply (is_derive_comp (core_fPtr (core_type c)) (fun y => (2 - y) * y) x).
    + apply core_dfPtr_derive. split; nra.
    + auto_derive; auto. ring.
  - apply core_dfPtr_derive. lra.
Qed.

Lemma core_fPtr_at_0 k : core_fPtr k 0 = 1.
Proof.
  destruct k; unfold core_fPtr, c_E; cbv zeta; try ring.
  - rewrite Rmult_0_r, cos_0. lra.
  - rewrite <- exp_plus. replace (1 + 1 / (0 * 0 - 1)) with 0 by field. apply exp_0.
Qed.

Lemma core_f_at_0 c : core_f c 0 = 1.
Proof.
  unfold core_f. replace (if core_asym c then (2 - 0) * 0 else 0) with 0
    by (destruct (core_asym c); ring).
  apply core_fPtr_at_0.
Qed.

Lemma core_dfPtr_at_0 k : core_dfPtr k 0 = 0.
Proof.
  destruct k; unfold core_dfPtr; cbv zeta; try ring.
  rewrite Rmult_0_r, sin_0. ring.
Qed.

Lemma core_df_at_0 c : core_df c 0 = 0.
Proof.
  unfold core_df. destruct (core_asym c).
  - replace ((2 - 0) * 0) with 0 by ring. rewrite core_dfPtr_at_0. ring.
  - apply core_dfPtr_at_0.
Qed.

Lemma exp_neg_bound u : 0 < u -> exp (- u) <= 4 / (u * u).
Proof.
  intros Hu. assert (H : 1 + u / 2 < exp (u / 2)) by (apply exp_ineq1; lra).
  assert (E : exp u = exp (u/2) * exp (u/2)) by (rewrite <- exp_plus; f_equal; field).
  assert (u * u / 4 <= exp u) by nra.
  rewrite exp_Ropp. 
  replace (4 / (u * u)) with (/ (u * u / 4)) by (field; lra).
  apply Rinv_le_contravar; nra.
Qed.

Lemma cos_quadratic x : 0 <= x <= 1 -> 0.5 * (cos (PI * x) + 1) <= (PI * PI / 4) * (1 - x)^2.
Proof.
  intros Hx. assert (P := PI_RGT_0).
  replace (PI * x) with (PI - PI * (1 - x)) by ring.
  rewrite Rtrigo_facts.cos_pi_minus.
  replace (PI * (1 - x)) with (2 * (PI * (1 - x) / 2)) by field.
  rewrite cos_2a_sin.
  set (y := PI * (1 - x) / 2).
  assert (0 <= y <= PI/2) by (unfold y; split; nra).
  assert (S : sin y <= y).
  { destruct (Req_dec y 0) as [-> | ]; [rewrite sin_0; lra |].
    left. apply sin_lt_x. lra. }
  assert (0 <= sin y) by (apply sin_ge_0; lra).
  replace (PI * PI / 4 * (1 - x)^2) with (y * y) by (unfold y; field). nra.
Qed.

Lemma core_fPtr_quadratic k : exists C, 0 <= C /\
  forall x, 0 <= x < 1 -> 0 <= core_fPtr k x <= C * (1 - x)^2.
Proof.
  destruct k; unfold core_fPtr; cbv zeta.
  - exists (PI * PI / 4). assert (P := PI_RGT_0). split; [nra|]. intros x Hx.
    rewrite c_PI_eq. split; [| apply cos_quadratic; lra].
    assert (B := COS_bound (PI * x)). lra.
  - exists 3. split; [lra|]. intros x Hx.
    replace ((2 * x - 3) * x * x + 1) with ((1 + 2 * x) * (1 - x)^2) by ring.
    assert (0 <= (1-x)^2) by apply pow2_ge_0. split; [nra | nra].
  - exists 10. split; [lra|]. intros x Hx.
    replace (((15 - 6 * x) * x - 10) * x * x * x + 1)
      with (((1 - x) * (1 + 3 * x + 6 * x * x)) * (1 - x)^2) by ring.
    assert (0 <= (1-x)^2) by apply pow2_ge_0.
    assert (0 <= (1 - x) * (1 + 3 * x + 6 * x * x) <= 10).
    { assert (1 <= 1 + 3 * x + 6 * x * x <= 10) by (split; nra). split; nra. }
    split; nra.
  - exists 35. split; [lra|]. intros x Hx.
    replace ((x * (x * (20 * x - 70) + 84) - 35) * (x * x) * (x * x) + 1)
      with (((1 - x)^2 * (1 + 4 * x + 10 * x * x + 20 * x * x * x)) * (1 - x)^2) by ring.
    assert (0 <= (1-x)^2 <= 1) by (split; [apply pow2_ge_0 | nra]).
    assert (0 <= x * x <= 1) by (split; nra).
    assert (0 <= x * x * x <= 1) by (split; nra).
    assert (0 <= (1 - x)^2 * (1 + 4 * x + 10 * x * x + 20 * x * x * x) <= 35).
    { assert (1 <= 1 + 4 * x + 10 * x * x + 20 * x * x * x <= 35) by lra. split; nra. }
    split; nra.
  - exists 126. split; [lra|]. intros x Hx.
    replace ((x * (x * ((315 - 70 * x) * x - 540) + 420) - 126) * (x * x) * (x * x) * x + 1)
      with (((1 - x) * (1-x)^2 * (1 + 5 * x + 15 * x * x + 35 * (x * x * x) + 70 * ((x * x) * (x * x)))) * (1 - x)^2) by ring.
    assert (0 <= (1-x)^2 <= 1) by (split; [apply pow2_ge_0 | nra]).
    assert (0 <= x * x <= 1) by (split; nra).
    assert (0 <= x * x * x <= 1) by (split; nra).
    assert (0 <= (x * x) * (x * x) <= 1) by (split; nra).
    assert (0 <= (1 - x) * (1-x)^2 <= 1) by (split; nra).
    assert (0 <= (1 - x) * (1-x)^2 * (1 + 5 * x + 15 * x * x + 35 * (x * x * x) + 70 * ((x * x) * (x * x))) <= 126).
    { assert (1 <= 1 + 5 * x + 15 * x * x + 35 * (x * x * x) + 70 * ((x * x) * (x * x)) <= 126) by lra. split; nra. }
    split; nra.
  - exists (16 * c_E). assert (HE := c_E_pos). split; [lra|]. intros x Hx.
    split; [apply Rmult_le_pos; [lra | left; apply exp_pos]|].
    assert (Hu : 0 < 1 / (1 - x * x)) by (apply Rdiv_lt_0_compat; nra).
    replace (1 / (x * x - 1)) with (- (1 / (1 - x * x))) by (field; split; nra).
    assert (B := exp_neg_bound _ Hu).
    replace (4 / (1 / (1 - x * x) * (1 / (1 - x * x)))) with (4 * ((1 - x * x) * (1 - x * x))) in B
      by (field; nra).
    assert (4 * ((1 - x * x) * (1 - x * x)) <= 16 * (1 - x)^2).
    { replace (1 - x * x) with ((1 - x) * (1 + x)) by ring.
      replace (4 * ((1 - x) * (1 + x) * ((1 - x) * (1 + x)))) with (4 * (1+x)^2 * (1 - x)^2) by ring.
      apply Rmult_le_compat_r. apply pow2_ge_0. nra. }
    nra.
Qed.

Lemma core_f_quadratic c : exists C, 0 <= C /\
  forall x, 0 <= x < 1 -> 0 <= core_f c x <= C * (1 - x)^2.
Proof.
  destruct (core_fPtr_quadratic (core_type c)) as [C [HC H]].
  exists C; split; auto. intros x Hx. unfold core_f. destruct (core_asym c).
  - assert (0 <= (2 - x) * x < 1) by (split; nra).
    assert (A := H _ H0). 
    replace (1 - (2 - x) * x) with ((1 - x)^2) in A by ring.
    assert (0 <= (1-x)^2 <= 1) by (split; [apply pow2_ge_0 | nra]).
    split; [lra|]. apply Rle_trans with (1 := proj2 A).
    apply Rmult_le_compat_l; auto. simpl (_ ^ 2) at 1. nra.
  - apply H; auto.
Qed.

Lemma core_dfPtr_nonpos k x : 0 <= x < 1 -> core_dfPtr k x <= 0.
Proof.
  intros Hx. destruct k; unfold core_dfPtr; cbv zeta.
  - rewrite c_PI_eq, c_PI_2_eq. assert (P := PI_RGT_0).
    assert (S : 0 <= sin (PI * x)) by (apply sin_PI_x_nonneg; lra). nra.
  - nra.
  - replace (x * x * ((60 - 30 * x) * x - 30)) with (- (30 * (x * (1 - x))^2)) by ring.
    assert (A := pow2_ge_0 (x * (1 - x))). lra.
  - replace (x * x * x * (x * (x * (140 * x - 420) + 420) - 140))
      with (- (140 * (x * (1 - x) * (x * (1 - x))^2))) by ring.
    assert (A := pow2_ge_0 (x * (1 - x))). assert (0 <= x * (1 - x)) by nra. nra.
  - replace (x * x * (x * x) * (x * (x * ((2520 - 630 * x) * x - 3780) + 2520) - 630))
      with (- (630 * ((x * (1 - x))^2)^2)) by ring.
    assert (A := pow2_ge_0 ((x * (1 - x))^2)). lra.
  - set (t := 1 / (x * x - 1)). assert (E := exp_pos t). assert (EE := c_E_pos).
    assert (0 <= t * t) by nra.
    assert (0 <= c_E * exp t) by nra.
    replace (-2 * c_E * x * t * t * exp t) with (- (2 * x * (t * t) * (c_E * exp t))) by ring.
    assert (0 <= 2 * x * (t * t)) by nra. nra.
Qed.

Lemma core_df_nonpos c x : 0 <= x < 1 -> core_df c x <= 0.
Proof.
  intros Hx. unfold core_df. destruct (core_asym c).
  - assert (core_dfPtr (core_type c) ((2 - x) * x) <= 0)
      by (apply core_dfPtr_nonpos; split; nra). nra.
  - apply core_dfPtr_nonpos; auto.
Qed.

Lemma core_f_le_1 c x : 0 <= x < 1 -> core_f c x <= 1.
Proof.
  intros Hx. rewrite <- (core_f_at_0 c).
  apply (decreasing_of_derive (core_f c) (core_df c) 0 x); try lra.
  - intros y Hy. apply core_df_derive. lra.
  - intros y Hy. apply core_df_nonpos. lra.
Qed.

Lemma core_f_at_1 c : core_type c <> CK_EXP -> core_f c 1 = 0.
Proof.
  intros H. unfold core_f. replace (if core_asym c then (2 - 1) * 1 else 1) with 1
    by (destruct (core_asym c); ring).
  destruct (core_type c); unfold core_fPtr; cbv zeta; try ring; try congruence.
  rewrite c_PI_eq, Rmult_1_r, cos_PI. lra.
Qed.

Lemma core_f_nonneg c x : 0 <= x < 1 -> 0 <= core_f c x.
Proof. intros Hx. destruct (core_f_quadratic c) as [C [_ H]]. apply H; auto. Qed.

(** Shape of the polynomial core functions: the derivative of POLYk is a
    constant multiple of x^k (1-x)^k. *)
Lemma core_poly_shape k n :
  (k = CK_POLY1 /\ n = 1%nat) \/ (k = CK_POLY2 /\ n = 2%nat) \/
  (k = CK_POLY3 /\ n = 3%nat) \/ (k = CK_POLY4 /\ n = 4%nat) ->
  exists c, 0 < c /\ forall x, core_dfPtr k x = - c * x ^ n * (1 - x) ^ n.
Proof.
  intros [[-> ->] | [[-> ->] | [[-> ->] | [-> ->]]]].
  - exists 6. split; [lra|]. intros; unfold core_dfPtr; ring.
  - exists 30. split; [lra|]. intros; unfold core_dfPtr; ring.
  - exists 140. split; [lra|]. intros; unfold core_dfPtr; ring.
  - exists 630. split; [lra|]. intros; unfold core_dfPtr; cbv zeta; ring.
Qed.
