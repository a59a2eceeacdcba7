(** Facts about the cutoff functions. *)
From Coq Require Import Reals Lra Psatz.
From Coquelicot Require Import Coquelicot.
From Verif Require Import Base.RealBase Model.CoreFunction Model.CutoffFunction Spec.CutoffSpec Proofs.CoreProofs.
Local Open Scope R_scope.

(** Generic piecewise profile: 1 up to [a], [F ((r-a)*w)] between, 0 from [b]. *)
Lemma Rmult_le_0_l x y : 0 <= x -> y <= 0 -> x * y <= 0.
Proof. intros. nra. Qed.

Section Profile.
Variables (F dF : R -> R) (a b : R).
Hypothesis Hab : a < b.
Let w := 1 / (b - a).
Hypothesis F0 : F 0 = 1.
Hypothesis dF0 : dF 0 = 0.
Hypothesis FD : forall x, -2/5 < x < 1 -> is_derive F x (dF x).
Variable C : R.
Hypothesis HC : 0 <= C.
Hypothesis FQ : forall x, 0 <= x < 1 -> 0 <= F x <= C * (1 - x)^2.

Let w_pos : 0 < w.
Proof. unfold w. apply Rdiv_lt_0_compat; lra. Qed.

Definition prof (r : R) : R :=
  if Rge_dec r b then 0 else if Rlt_dec r a then 1 else F ((r - a) * w).
Definition dprof (r : R) : R :=
  if Rge_dec r b then 0 else if Rlt_dec r a then 0 else w * dF ((r - a) * w).

Lemma prof_arg r : a <= r < b -> 0 <= (r - a) * w < 1.
Proof.
  intros Hr. split; [nra|]. unfold w.
  apply Rmult_lt_reg_r with (b - a); [lra|].
  replace ((r - a) * (1 / (b - a)) * (b - a)) with (r - a) by (field; lra). lra.
Qed.

Lemma inner_derive r : -2/5 < (r - a) * w < 1 ->
  is_derive (fun y => F ((y - a) * w)) r (w * dF ((r - a) * w)).
Proof.
  intros H. apply (is_derive_comp F (fun y => (y - a) * w) r).
  - apply FD; auto.
  - auto_derive; auto. ring.
Qed.

Lemma prof_derive r : is_derive prof r (dprof r).
Proof.
  unfold dprof. destruct (Rge_dec r b) as [Hrb | Hrb].
  - destruct (Req_dec r b) as [-> | Hne].
    + (* r = b : quadratic domination *)
      apply (is_derive_quadratic prof b (C * w^2) (b - a)).
      * lra.
      * apply Rmult_le_pos; auto. apply pow2_ge_0.
      * unfold prof. destruct (Rge_dec b b); lra.
      * intros x Hx. unfold prof. destruct (Rge_dec x b).
        -- rewrite Rabs_R0. apply Rmult_le_pos; [apply Rmult_le_pos; auto|]; apply pow2_ge_0.
        -- apply Rabs_def2 in Hx. destruct (Rlt_dec x a); [lra|].
           assert (A : 0 <= (x - a) * w < 1) by (apply prof_arg; lra).
           assert (Q := FQ _ A). rewrite Rabs_right by lra.
           apply Rle_trans with (1 := proj2 Q).
           right. rewrite Rmult_assoc. f_equal.
           replace (1 - (x - a) * w) with (w * (b - x)) by (unfold w; field; lra). ring.
    + apply is_derive_ext_right_loc with (g := fun _ => 0) (d := r - b); [lra | |].
      * intros y Hy. unfold prof. destruct (Rge_dec y b); lra.
      * auto_derive; auto.
  - destruct (Rlt_dec r a) as [Hra | Hra].
    + apply is_derive_ext_right_loc with (g := fun _ => 1) (d := a - r); [lra | |].
      * intros y Hy. unfold prof. destruct (Rge_dec y b); [lra|].
        destruct (Rlt_dec y a); lra.
      * auto_derive; auto.
    + destruct (Req_dec r a) as [-> | Hne].
      * replace ((a - a) * w) with 0 by ring. rewrite dF0, Rmult_0_r.
        apply is_derive_glue_loc with (g := fun _ => 1) (h := fun y => F ((y - a) * w)) (d := b - a).
        -- lra.
        -- intros x Hx. unfold prof. destruct (Rge_dec x b); [lra|]. destruct (Rlt_dec x a); lra.
        -- intros x Hx. unfold prof. destruct (Rge_dec x b); [lra|]. destruct (Rlt_dec x a); lra.
        -- unfold prof. destruct (Rge_dec a b); [lra|]. destruct (Rlt_dec a a); [lra|].
           replace ((a - a) * w) with 0 by ring. auto.
        -- unfold prof. destruct (Rge_dec a b); [lra|]. destruct (Rlt_dec a a); lra.
        -- auto_derive; auto.
        -- assert (D := inner_derive a). replace ((a - a) * w) with 0 in D by ring.
           rewrite dF0, Rmult_0_r in D. apply D. lra.
      * apply is_derive_ext_right_loc with (g := fun y => F ((y - a) * w)) (d := Rmin (r - a) (b - r)).
        -- apply Rmin_pos; lra.
        -- intros y Hy. assert (A1 := Rmin_l (r - a) (b - r)). assert (A2 := Rmin_r (r - a) (b - r)).
           unfold prof. destruct (Rge_dec y b); [lra|]. destruct (Rlt_dec y a); lra.
        -- apply inner_derive. assert (A : 0 <= (r - a) * w < 1) by (apply prof_arg; lra). lra.
Qed.
End Profile.

(** Configured state. *)
Definition core_of (t : cutoff_kind) : core_function :=
  match t with
  | CT_POLY1 => mkCore CK_POLY1 false
  | CT_POLY3 => mkCore CK_POLY3 false
  | CT_POLY4 => mkCore CK_POLY4 false
  | CT_EXP => mkCore CK_EXP false
  | _ => mkCore CK_POLY2 false
  end.

Lemma configure_eq t rc alpha c : cf_configure t rc alpha = Some c ->
  0 <= alpha < 1 /\
  c = mkCF t rc (1 / rc) (rc * alpha) alpha (1 / (rc - rc * alpha)) (core_of t).
Proof.
  unfold cf_configure, cf_setCutoffParameter. cbn -[Rlt_dec Rge_dec].
  destruct (Rlt_dec alpha 0); [discriminate|].
  destruct (Rge_dec alpha 1); [discriminate|].
  intros H. injection H as <-. split; [lra|]. destruct t; reflexivity.
Qed.

Lemma configure_some t rc alpha : 0 <= alpha < 1 ->
  exists c, cf_configure t rc alpha = Some c.
Proof.
  intros H. unfold cf_configure, cf_setCutoffParameter.
  destruct (Rlt_dec alpha 0); [lra|]. destruct (Rge_dec alpha 1); [lra|].
  eexists; reflexivity.
Qed.

(** The core function a plateau kind is built from. *)
Definition pcore (t : cutoff_kind) : core_function :=
  match t with CT_COS => mkCore CK_COS false | _ => core_of t end.

Section Configured.
Variables (t : cutoff_kind) (rc alpha : R) (c : cutoff_function).
Hypothesis Hrc : 0 < rc.
Hypothesis Hc : cf_configure t rc alpha = Some c.

Let Ha : 0 <= alpha < 1.
Proof. apply (configure_eq t rc alpha c Hc). Qed.
Let Ec : c = mkCF t rc (1 / rc) (rc * alpha) alpha (1 / (rc - rc * alpha)) (core_of t).
Proof. apply (configure_eq t rc alpha c Hc). Qed.
Let Hi : 0 <= rc * alpha < rc.
Proof. split; nra. Qed.

Lemma cf_prof : plateau_kind t -> forall r,
  cf_f c r = prof (core_f (pcore t)) (rc * alpha) rc r /\
  cf_df c r = dprof (core_df (pcore t)) (rc * alpha) rc r.
Proof.
  intros Hp r. rewrite Ec. unfold cf_f, cf_df, prof, dprof, cf_fPtr, cf_dfPtr; cbn -[Rlt_dec Rge_dec].
  destruct t; try contradiction; cbn -[Rlt_dec Rge_dec]; split;
    destruct (Rge_dec r rc); try reflexivity;
    destruct (Rlt_dec r (rc * alpha)); try reflexivity.
  unfold core_df. cbn. ring.
Qed.

Lemma tanh_like_derive P r : (r < rc -> is_derive (fun y => P * (tanh (1 - y * (1/rc)))^3) r
     (P * (3 * (tanh (1 - r * (1/rc)))^2 * ((tanh (1 - r * (1/rc)))^2 - 1) * (1/rc)))).
Proof.
  intros Hr.
  evar_last.
  - apply is_derive_scal. apply (is_derive_comp (fun u => u^3) (fun y => tanh (1 - y * (1/rc)))).
    + auto_derive; auto.
    + apply (is_derive_comp tanh (fun y => 1 - y * (1/rc))).
      * apply is_derive_tanh.
      * auto_derive; auto.
  - unfold scal; simpl; unfold mult; simpl. ring.
Qed.

Lemma tanh_small x : 0 <= x -> tanh x <= x.
Proof.
  intros Hx. assert (H := decreasing_of_derive (fun y => tanh y - y) (fun y => (1 - tanh y * tanh y) - 1) 0 x).
  assert (tanh x - x <= tanh 0 - 0); [| rewrite tanh_zero in H0; lra].
  apply H; try lra.
  - intros y Hy. apply (is_derive_minus tanh (fun y => y) y); [apply is_derive_tanh | auto_derive; auto].
  - intros y Hy. nra.
Qed.

Lemma tanh_glue P : 0 <= P ->
  is_derive (fun y => if Rge_dec y rc then 0 else P * (tanh (1 - y * (1/rc)))^3) rc 0.
Proof.
  intros HP. apply is_derive_glue with (g := fun y => P * (tanh (1 - y * (1/rc)))^3) (h := fun _ => 0).
  - intros x Hx. destruct (Rge_dec x rc); lra.
  - intros x Hx. destruct (Rge_dec x rc); lra.
  - destruct (Rge_dec rc rc); [|lra]. replace (1 - rc * (1 / rc)) with 0 by (field; lra).
    rewrite tanh_zero. ring.
  - destruct (Rge_dec rc rc); lra.
  - evar_last.
    + apply is_derive_scal. apply (is_derive_comp (fun u => u^3) (fun y => tanh (1 - y * (1/rc)))).
      * auto_derive; auto.
      * apply (is_derive_comp tanh (fun y => 1 - y * (1/rc))).
        -- apply is_derive_tanh.
        -- auto_derive; auto.
    + unfold scal; simpl; unfold mult; simpl.
      replace (1 - rc * (1 / rc)) with 0 by (field; lra).
      rewrite tanh_zero. ring.
  - auto_derive; auto.
Qed.

Lemma TANH_PRE_eq : c_TANH_PRE * (tanh 1)^3 = 1 /\ 0 < c_TANH_PRE.
Proof.
  assert (E1 : 1 + 1 < exp 1) by (apply exp_ineq1; lra). assert (EP := exp_pos (Ropp 1)).
  assert (HE : 1 / c_E = exp (Ropp 1)).
  { unfold c_E. rewrite exp_Ropp. field. assert (A := exp_pos 1). lra. }
  assert (X : exp (Ropp 1) < 1) by (apply Rlt_le_trans with (exp 0); [apply exp_increasing; lra| rewrite exp_0; lra]).
  unfold c_TANH_PRE. rewrite HE. unfold c_E.
  unfold tanh, sinh, cosh. split.
  - field. split; lra.
  - apply pow_lt. apply Rdiv_lt_0_compat; lra.
Qed.

Lemma cf_f_derive : forall r, (t = CT_HARD -> r <> rc) -> is_derive (cf_f c) r (cf_df c r).
Proof.
  intros r Hh.
  assert (Hcase : plateau_kind t \/ t = CT_HARD \/ t = CT_TANHU \/ t = CT_TANH).
  { destruct t; simpl; auto. }
  destruct Hcase as [Hp | [Ht | Ht]].
  - rewrite (proj2 (cf_prof Hp r)).
    apply is_derive_ext with (prof (core_f (pcore t)) (rc * alpha) rc).
    + intros y. symmetry. apply (proj1 (cf_prof Hp y)).
    + destruct (core_f_quadratic (pcore t)) as [C [HC HQ]].
      apply prof_derive with C; auto.
      * lra.
      * apply core_f_at_0.
      * apply core_df_at_0.
      * intros; apply core_df_derive; auto.
  - (* HARD *)
    assert (Hne := Hh Ht). rewrite Ec. subst t. unfold cf_f, cf_df, cf_fPtr, cf_dfPtr; cbn -[Rge_dec c_TANH_PRE].
    destruct (Rge_dec r rc).
    + apply is_derive_ext_right_loc with (g := fun _ => 0) (d := r - rc); [lra| |auto_derive; auto].
      intros y Hy. destruct (Rge_dec y rc); lra.
    + apply is_derive_ext_right_loc with (g := fun _ => 1) (d := rc - r); [lra| |auto_derive; auto].
      intros y Hy. destruct (Rge_dec y rc); lra.
  - assert (exists P, 0 <= P /\ (forall y, cf_f c y = if Rge_dec y rc then 0 else P * (tanh (1 - y * (1/rc)))^3)
       /\ cf_df c r = if Rge_dec r rc then 0 else (P * (3 * (tanh (1 - r * (1/rc)))^2 * ((tanh (1 - r * (1/rc)))^2 - 1) * (1/rc)))) as [P [HP [Ef Ed]]].
    { destruct Ht as [Ht | Ht].
      - exists 1. split; [lra|]. rewrite Ec, Ht. unfold cf_f, cf_df, cf_fPtr, cf_dfPtr; cbn -[Rge_dec pow c_TANH_PRE].
        split; [intros y|]. 
        + destruct (Rge_dec y rc); auto. ring.
        + destruct (Rge_dec r rc); auto. ring.
      - exists c_TANH_PRE. split; [left; apply TANH_PRE_eq|]. rewrite Ec, Ht.
        unfold cf_f, cf_df, cf_fPtr, cf_dfPtr; cbn -[Rge_dec pow c_TANH_PRE].
        split; [intros y|]. 
        + destruct (Rge_dec y rc); auto. ring.
        + destruct (Rge_dec r rc); auto. ring. }
    rewrite Ed. apply is_derive_ext with (1 := fun y => eq_sym (Ef y)).
    destruct (Rge_dec r rc).
    + destruct (Req_dec r rc) as [-> | Hne].
      * apply tanh_glue; auto.
      * apply is_derive_ext_right_loc with (g := fun _ => 0) (d := r - rc); [lra| |auto_derive; auto].
        intros y Hy. destruct (Rge_dec y rc); lra.
    + apply is_derive_ext_right_loc with (g := fun y => P * (tanh (1 - y * (1/rc)))^3) (d := rc - r); [lra| |].
      * intros y Hy. destruct (Rge_dec y rc); lra.
      * apply tanh_like_derive. lra.
Qed.

Lemma cf_fdf_eq r : cf_fdf c r = (cf_f c r, cf_df c r).
Proof.
  rewrite Ec. unfold cf_fdf, cf_f, cf_df, cf_fdfPtr, cf_fPtr, cf_dfPtr.
  cbn -[Rge_dec Rlt_dec core_fdf core_f core_df].
  destruct (Rge_dec r rc) as [|Hr]; [reflexivity|].
  destruct t; cbn -[Rge_dec Rlt_dec core_fdf core_f core_df]; try reflexivity;
  try (f_equal; ring);
  (destruct (Rlt_dec r (rc * alpha)) as [|Hl]; [reflexivity|]);
  assert (HA : 0 <= (r - rc * alpha) * (1 / (rc - rc * alpha)) <= 1)
    by (assert (X := prof_arg (rc * alpha) rc (proj2 Hi) r); simpl in X; lra).
  - rewrite c_PI_eq, c_PI_2_eq, sqrt_one_minus_cos2 by (apply sin_PI_x_nonneg; auto).
    f_equal. lra.
  - rewrite core_fdf_eq by auto. f_equal. ring.
  - rewrite core_fdf_eq by auto. f_equal. ring.
  - rewrite core_fdf_eq by auto. f_equal. ring.
  - rewrite core_fdf_eq by auto. f_equal. ring.
  - rewrite core_fdf_eq by auto. f_equal. ring.
Qed.

Lemma cf_outside r : rc <= r -> cf_f c r = 0 /\ cf_df c r = 0.
Proof.
  intros H. rewrite Ec. unfold cf_f, cf_df. cbn -[Rge_dec c_TANH_PRE]. destruct (Rge_dec r rc); split; auto; lra.
Qed.

Lemma cf_plateau r : plateau_kind t -> r <= rc * alpha -> cf_f c r = 1 /\ cf_df c r = 0.
Proof.
  intros Hp Hr. rewrite (proj1 (cf_prof Hp r)), (proj2 (cf_prof Hp r)).
  unfold prof, dprof. destruct (Rge_dec r rc); [lra|].
  destruct (Rlt_dec r (rc * alpha)); auto.
  replace r with (rc * alpha) by lra.
  replace ((rc * alpha - rc * alpha) * (1 / (rc - rc * alpha))) with 0 by ring.
  rewrite core_f_at_0, core_df_at_0. split; ring.
Qed.

Lemma cf_df_nonpos r : 0 <= r -> cf_df c r <= 0.
Proof.
  intros Hr0. assert (Hcase : plateau_kind t \/ t = CT_HARD \/ t = CT_TANHU \/ t = CT_TANH).
  { destruct t; simpl; auto. }
  destruct Hcase as [Hp | Ht].
  - rewrite (proj2 (cf_prof Hp r)). unfold dprof.
    destruct (Rge_dec r rc); [lra|]. destruct (Rlt_dec r (rc * alpha)); [lra|].
    assert (HA : 0 <= (r - rc * alpha) * (1 / (rc - rc * alpha)) < 1)
      by (apply (prof_arg (rc * alpha) rc (proj2 Hi) r); lra).
    assert (N := core_df_nonpos (pcore t) _ HA).
    assert (0 < 1 / (rc - rc * alpha)) by (apply Rdiv_lt_0_compat; lra). nra.
  - rewrite Ec. unfold cf_df. cbn -[Rge_dec c_TANH_PRE]. destruct (Rge_dec r rc); [lra|].
    assert (I : 0 < 1 / rc) by (apply Rdiv_lt_0_compat; lra).
    assert (B := tanh_bounds (1 - r * (1/rc))).
    assert (S : 3 * (tanh (1 - r * (1/rc)) * tanh (1 - r * (1/rc))) *
                (tanh (1 - r * (1/rc)) * tanh (1 - r * (1/rc)) - 1) * (1/rc) <= 0).
    { set (u := tanh (1 - r * (1/rc))) in *. assert (0 <= u * u <= 1) by (split; nra).
      assert (3 * (u * u) * (u * u - 1) <= 0) by nra. nra. }
    destruct Ht as [Ht | [Ht | Ht]]; rewrite Ht; unfold cf_dfPtr; cbn -[Rge_dec c_TANH_PRE]; [lra | lra |].
    assert (PP := proj2 TANH_PRE_eq).
    replace (3 * c_TANH_PRE * (tanh (1 - r * (1 / rc)) * tanh (1 - r * (1 / rc))) *
      (tanh (1 - r * (1 / rc)) * tanh (1 - r * (1 / rc)) - 1) * (1 / rc))
    with (c_TANH_PRE * (3 * (tanh (1 - r * (1/rc)) * tanh (1 - r * (1/rc))) *
                (tanh (1 - r * (1/rc)) * tanh (1 - r * (1/rc)) - 1) * (1/rc))) by ring.
    apply Rmult_le_0_l; [left; exact PP|exact S].
Qed.

Lemma cf_monotone r s : 0 <= r -> r <= s -> cf_f c s <= cf_f c r.
Proof.
  intros Hr Hrs. destruct (match t with CT_HARD => true | _ => false end) eqn:E.
  - assert (Ht : t = CT_HARD) by (destruct t; auto; discriminate).
    rewrite Ec, Ht. unfold cf_f, cf_fPtr; cbn -[Rge_dec c_TANH_PRE].
    destruct (Rge_dec r rc), (Rge_dec s rc); lra.
  - apply (decreasing_of_derive (cf_f c) (cf_df c) r s); try lra.
    + intros x Hx. apply cf_f_derive. intros Ht; subst t; discriminate.
    + intros x Hx. apply cf_df_nonpos. lra.
Qed.

Lemma cf_at_0 : (t <> CT_TANHU -> cf_f c 0 = 1) /\ (t = CT_TANHU -> cf_f c 0 = (tanh 1)^3).
Proof.
  split.
  - intros Hn. assert (Hcase : plateau_kind t \/ t = CT_HARD \/ t = CT_TANH).
    { destruct t; simpl; auto; congruence. }
    destruct Hcase as [Hp | [Ht | Ht]].
    + apply cf_plateau; auto. lra.
    + rewrite Ec, Ht. unfold cf_f, cf_fPtr; cbn -[Rge_dec c_TANH_PRE]. destruct (Rge_dec 0 rc); lra.
    + rewrite Ec, Ht. unfold cf_f, cf_fPtr; cbn -[Rge_dec pow c_TANH_PRE]. destruct (Rge_dec 0 rc); [lra|].
      replace (1 - 0 * (1 / rc)) with 1 by ring. transitivity (c_TANH_PRE * (tanh 1)^3); [ring | apply TANH_PRE_eq].
  - intros Ht. rewrite Ec, Ht. unfold cf_f, cf_fPtr; cbn -[Rge_dec pow c_TANH_PRE]. destruct (Rge_dec 0 rc); [lra|].
    replace (1 - 0 * (1 / rc)) with 1 by ring. ring.
Qed.

Lemma cf_range r : 0 <= r -> 0 <= cf_f c r <= 1.
Proof.
  intros Hr. split.
  - destruct (Rle_dec rc r) as [Hle | Hle].
    + rewrite (proj1 (cf_outside r Hle)). lra.
    + rewrite <- (proj1 (cf_outside rc (Rle_refl _))). apply cf_monotone; lra.
  - apply Rle_trans with (cf_f c 0); [apply cf_monotone; lra|].
    assert (X := cf_at_0). destruct t eqn:E; try (rewrite (proj1 X) by discriminate; lra).
    rewrite (proj2 X) by reflexivity. assert (B := tanh_bounds 1). 
    assert (0 <= tanh 1) by (apply tanh_nonneg; lra). 
    assert (tanh 1 ^ 2 <= 1) by nra. simpl. nra.
Qed.

Lemma cf_positive_inside r : 0 <= r < rc -> 0 < cf_f c r.
Proof.
  intros Hr.
  assert (Hcase : plateau_kind t \/ t = CT_HARD \/ t = CT_TANHU \/ t = CT_TANH).
  { destruct t; simpl; auto. }
  destruct Hcase as [Hp | [Ht | Ht]].
  - rewrite (proj1 (cf_prof Hp r)). unfold prof.
    destruct (Rge_dec r rc); [lra|]. destruct (Rlt_dec r (rc * alpha)); [lra|].
    assert (HA : 0 <= (r - rc * alpha) * (1 / (rc - rc * alpha)) < 1)
      by (apply (prof_arg (rc * alpha) rc (proj2 Hi) r); lra).
    set (x := (r - rc * alpha) * (1 / (rc - rc * alpha))) in *.
    unfold core_f. replace (core_asym (pcore t)) with false by (destruct t; reflexivity).
    destruct t; try contradiction; cbn -[pow]; unfold core_fPtr; cbv zeta.
    + rewrite c_PI_eq. assert (P := PI_RGT_0).
      assert (cos PI < cos (PI * x)) by (apply cos_decreasing_1; nra).
      rewrite cos_PI in H. lra.
    + replace ((2 * x - 3) * x * x + 1) with ((1 + 2 * x) * (1 - x)^2) by ring.
      apply Rmult_lt_0_compat; [lra | apply pow_lt; lra].
    + replace (((15 - 6 * x) * x - 10) * x * x * x + 1)
      with ((1 + 3 * x + 6 * x * x) * (1 - x)^3) by ring.
      apply Rmult_lt_0_compat; [nra | apply pow_lt; lra].
    + replace ((x * (x * (20 * x - 70) + 84) - 35) * (x * x) * (x * x) + 1)
      with ((1 + 4 * x + 10 * (x * x) + 20 * (x * x * x)) * (1 - x)^4) by ring.
      assert (0 <= x * x) by nra. assert (0 <= x * x * x) by nra.
      apply Rmult_lt_0_compat; [lra | apply pow_lt; lra].
    + replace ((x * (x * ((315 - 70 * x) * x - 540) + 420) - 126) * (x * x) * (x * x) * x + 1)
      with ((1 + 5 * x + 15 * (x * x) + 35 * (x * x * x) + 70 * (x * x * (x * x))) * (1 - x)^5) by ring.
      assert (0 <= x * x) by nra. assert (0 <= x * x * x) by nra.
      assert (0 <= x * x * (x * x)) by nra.
      apply Rmult_lt_0_compat; [lra | apply pow_lt; lra].
    + apply Rmult_lt_0_compat; [apply c_E_pos | apply exp_pos].
  - rewrite Ec, Ht. unfold cf_f, cf_fPtr; cbn -[Rge_dec c_TANH_PRE]. destruct (Rge_dec r rc); lra.
  - assert (Hx : 0 < 1 - r * (1 / rc)).
    { apply Rmult_lt_reg_r with rc; auto. 
      replace ((1 - r * (1/rc)) * rc) with (rc - r) by (field; lra). lra. }
    assert (Hth : 0 < tanh (1 - r * (1/rc))).
    { unfold tanh. apply Rdiv_lt_0_compat.
      - rewrite <- sinh_0. apply sinh_lt; auto.
      - unfold cosh. assert (A := exp_pos (1 - r * (1/rc))). assert (B := exp_pos (- (1 - r * (1/rc)))). lra. }
    rewrite Ec. unfold cf_f; cbn -[Rge_dec c_TANH_PRE]. destruct (Rge_dec r rc); [lra|].
    assert (PP := proj2 TANH_PRE_eq).
    destruct Ht as [Ht | Ht]; rewrite Ht; unfold cf_fPtr; cbv beta zeta iota delta [cf_type cf_rcinv];
      repeat (first [assumption | apply Rmult_lt_0_compat]).
Qed.
End Configured.

Definition cf_coherent (c : cutoff_function) : Prop :=
  cf_rci c = cf_rc c * cf_alpha c /\ cf_iw c = 1 / (cf_rc c - cf_rci c).

Lemma cf_run_inv l : 
  cf_rcinv (cf_run l) = 1 / cf_rc (cf_run l) \/ (cf_rc (cf_run l) = 0 /\ cf_rcinv (cf_run l) = 0).
Proof.
  unfold cf_run. apply (List.rev_ind (fun l => let c := List.fold_left cf_step l cf_init in
   cf_rcinv c = 1 / cf_rc c \/ (cf_rc c = 0 /\ cf_rcinv c = 0))).
  - right; split; reflexivity.
  - intros o l' IH. cbv zeta in *. rewrite List.fold_left_app. cbn [List.fold_left].
    set (c := List.fold_left cf_step l' cf_init) in *. destruct o; simpl; auto.
    unfold cf_setCutoffParameter.
    destruct (Rlt_dec a 0); auto. destruct (Rge_dec a 1); auto.
Qed.

Lemma cf_run_core l : core_asym (cf_core (cf_run l)) = false /\
  (match cf_type (cf_run l) with
   | CT_POLY1 | CT_POLY2 | CT_POLY3 | CT_POLY4 | CT_EXP => cf_core (cf_run l) = core_of (cf_type (cf_run l))
   | _ => True end).
Proof.
  unfold cf_run. apply (List.rev_ind (fun l => let c := List.fold_left cf_step l cf_init in
   core_asym (cf_core c) = false /\
   match cf_type c with
   | CT_POLY1 | CT_POLY2 | CT_POLY3 | CT_POLY4 | CT_EXP => cf_core c = core_of (cf_type c)
   | _ => True end)).
  - split; exact I || reflexivity.
  - intros o l' IH. cbv zeta in *. rewrite List.fold_left_app. cbn [List.fold_left].
    set (c := List.fold_left cf_step l' cf_init) in *. destruct IH as [IA IC].
    destruct o; simpl; auto.
    + destruct t; simpl; rewrite ?IA; auto; unfold core_setType; rewrite IA; auto.
    + unfold cf_setCutoffParameter.
      destruct (Rlt_dec a 0); auto. destruct (Rge_dec a 1); auto.
Qed.

Lemma cf_run_after_param pre a post : 0 <= a < 1 ->
  (forall o, List.In o post -> ~ is_radius o) ->
  (forall o, List.In o post -> ~ is_param o) ->
  let c := cf_run (pre ++ OpParam a :: post)%list in
  cf_alpha c = a /\ cf_coherent c.
Proof.
  intros Ha. unfold cf_run. rewrite List.fold_left_app. cbn [List.fold_left].
  set (c0 := List.fold_left cf_step pre cf_init).
  revert post. apply (List.rev_ind (fun post => (forall o, List.In o post -> ~ is_radius o) ->
  (forall o, List.In o post -> ~ is_param o) ->
   let c := List.fold_left cf_step post (cf_step c0 (OpParam a)) in
   cf_alpha c = a /\ cf_coherent c)).
  - intros _ _. simpl. unfold cf_setCutoffParameter.
    destruct (Rlt_dec a 0); [lra|]. destruct (Rge_dec a 1); [lra|].
    split; [reflexivity|]. split; reflexivity.
  - intros o post IH HR HP. rewrite List.fold_left_app. cbn [List.fold_left].
    destruct IH as [I1 I2].
    + intros o' Ho. apply HR. apply List.in_or_app; auto.
    + intros o' Ho. apply HP. apply List.in_or_app; auto.
    + set (c := List.fold_left cf_step post (cf_step c0 (OpParam a))) in *.
      destruct o as [t | r | a'].
      * split; [exact I1 |]. exact I2.
      * exfalso. apply (HR (OpRadius r)); [apply List.in_or_app; right; left; auto | exact I].
      * exfalso. apply (HP (OpParam a')); [apply List.in_or_app; right; left; auto | exact I].
Qed.

Lemma cf_same_fun c1 c2 : cf_type c1 = cf_type c2 -> cf_rc c1 = cf_rc c2 ->
  cf_rcinv c1 = cf_rcinv c2 -> cf_rci c1 = cf_rci c2 -> cf_iw c1 = cf_iw c2 ->
  (match cf_type c1 with
   | CT_POLY1 | CT_POLY2 | CT_POLY3 | CT_POLY4 | CT_EXP => cf_core c1 = cf_core c2
   | _ => True end) ->
  forall r, cf_f c1 r = cf_f c2 r /\ cf_df c1 r = cf_df c2 r /\ cf_fdf c1 r = cf_fdf c2 r.
Proof.
  intros H1 H2 H3 H4 H5 H6 r. unfold cf_f, cf_df, cf_fdf, cf_fPtr, cf_dfPtr, cf_fdfPtr.
  rewrite <- H1, <- H2, <- H3, <- H4, <- H5. destruct (cf_type c1); rewrite <- ?H6; auto.
Qed.

Lemma cf_run_configure pre a post : 0 <= a < 1 ->
  (forall o, List.In o post -> ~ is_radius o) ->
  (forall o, List.In o post -> ~ is_param o) ->
  let c := cf_run (pre ++ OpParam a :: post)%list in
  0 < cf_rc c ->
  exists c', cf_configure (cf_type c) (cf_rc c) a = Some c' /\
  forall r, cf_f c r = cf_f c' r /\ cf_df c r = cf_df c' r /\ cf_fdf c r = cf_fdf c' r.
Proof.
  intros Ha HR HP c Hrc.
  destruct (configure_some (cf_type c) (cf_rc c) a Ha) as [c' Hc'].
  exists c'. split; auto.
  destruct (configure_eq _ _ _ _ Hc') as [_ Ec'].
  destruct (cf_run_after_param pre a post Ha HR HP) as [A1 [A2 A3]]. fold c in A1, A2, A3.
  apply cf_same_fun; rewrite Ec'; simpl; auto.
  - destruct (cf_run_inv (pre ++ OpParam a :: post)%list) as [X | X]; fold c in X; lra.
  - rewrite A2, A1. reflexivity.
  - rewrite A3, A2, A1. reflexivity.
  - apply (cf_run_core (pre ++ OpParam a :: post)%list).
Qed.

Lemma cf_order_matters : exists l1 l2 r,
  l1 = (OpType CT_COS :: OpRadius 2 :: OpParam (1/2) :: nil)%list /\
  l2 = (OpType CT_COS :: OpRadius 1 :: OpParam (1/2) :: OpRadius 2 :: nil)%list /\
  0 <= r < 2 /\
  cf_f (cf_run l1) r = 1/2 /\ cf_f (cf_run l2) r = 1.
Proof.
  exists (OpType CT_COS :: OpRadius 2 :: OpParam (1/2) :: nil)%list,
         (OpType CT_COS :: OpRadius 1 :: OpParam (1/2) :: OpRadius 2 :: nil)%list, (3/2).
  split; [reflexivity|]. split; [reflexivity|]. split; [lra|].
  unfold cf_run. cbn [List.fold_left cf_step].
  unfold cf_setCutoffParameter.
  destruct (Rlt_dec (1/2) 0); [lra|]. destruct (Rge_dec (1/2) 1); [lra|].
  unfold cf_f; cbn -[Rge_dec Rlt_dec]. destruct (Rge_dec (3/2) 2); [lra|].
  unfold cf_fPtr; cbn -[Rge_dec Rlt_dec].
  destruct (Rlt_dec (3/2) (2 * (1/2))); [lra|]. destruct (Rlt_dec (3/2) (1 * (1/2))); [lra|].
  rewrite !c_PI_eq.
  replace (PI * ((3 / 2 - 2 * (1 / 2)) * (1 / (2 - 2 * (1 / 2))))) with (PI/2) by field.
  replace (PI * ((3 / 2 - 1 * (1 / 2)) * (1 / (1 - 1 * (1 / 2))))) with (2 * PI) by field.
  rewrite cos_PI2, cos_2PI. split; lra.
Qed.
