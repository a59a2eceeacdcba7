(** Shape files (C105). *)
From Coq Require Import Reals Lra Lia List Arith Bool.
From Verif Require Import Base.Vec3 Base.SumR Model.CoreFunction Model.CutoffFunction Model.CompactScreening Model.SymFunctions Model.Shape
  Spec.CompactSpec Spec.SymSpec Spec.ShapeSpec Proofs.SymTerms.
From Coq Require Import List.
Import ListNotations.
Local Open Scope R_scope.

Lemma inside l r f x : l < x < r -> on_support l r f x = f x.
Proof. intros H. unfold on_support. destruct (Rlt_dec l x), (Rlt_dec x r); lra. Qed.
Lemma sum1 x : rsum [x] = x.
Proof. unfold rsum. cbn. ring. Qed.
Lemma unit_back conv r : conv <> 0 -> r / conv * conv = r.
Proof. intros. field. assumption. Qed.
Lemma power_two x z : 0 <= x -> 2 * std_pow (x / 2) z = Rpower 2 (1 - z) * clipped_power x z.
Proof.
  intros H. unfold std_pow, clipped_power. destruct (Req_EM_T (x / 2) 0) as [E|E], (Rle_dec x 0) as [L|L]; try lra.
  unfold Rpower. rewrite <- (exp_ln 2) at 1 by lra. rewrite <- !exp_plus. f_equal. unfold Rdiv. rewrite ln_mult, ln_Rinv by lra. ring.
Qed.
Lemma radial_shape Z conv k e x : conv <> 0 -> is_radial k -> distance_inside k (norm x) -> forall a,
  sf_value Z k [(e, x)] = weight1 Z k e * (radialPart conv k (norm x / conv) * angularPart k a).
Proof.
  intros C K D a. unfold radialPart. rewrite unit_back by exact C. cbv zeta.
  destruct k; cbn in K; try contradiction; cbn [sf_value weight1 angularPart distance_inside] in *; unfold radial_sum; cbn [map]; rewrite sum1;
    unfold only, weighted, radial_gauss, gauss, radial_compact; cbn [fst snd]; try rewrite (inside _ _ _ _ D); try destruct (Nat.eqb _ _);
    try ring; replace (- er_eta p * (norm x - er_rs p) ^ 2) with (- er_eta p * (norm x - er_rs p) * (norm x - er_rs p)) by ring; ring.
Qed.
Lemma pair1 {A} (f : A -> A -> R) x y : pair_sum f [x; y] = f x y.
Proof. cbn [pair_sum map]. rewrite sum1. unfold rsum. cbn. ring. Qed.
Lemma cos_of x y : cos (angle x y) = cos_angle x y.
Proof. unfold angle. apply cos_acos. apply cos_angle_bound. Qed.
Lemma gauss_wide p x y : 0 <= 1 + ea_lambda p * cos (angle x y) ->
  Rpower 2 (1 - ea_zeta p) * angular_gauss_wide p x y =
  gauss (ea_eta p) (ea_rs p) (ea_fc p) (norm x) * gauss (ea_eta p) (ea_rs p) (ea_fc p) (norm y) *
  (2 * std_pow ((1 + ea_lambda p * cos (angle x y)) / 2) (ea_zeta p)).
Proof.
  intros H. rewrite power_two by exact H. unfold angular_gauss_wide, gauss. rewrite cos_of.
  replace (exp (- ea_eta p * ((norm x - ea_rs p) ^ 2 + (norm y - ea_rs p) ^ 2))) with
    (exp (- ea_eta p * (norm x - ea_rs p) * (norm x - ea_rs p)) * exp (- ea_eta p * (norm y - ea_rs p) * (norm y - ea_rs p))) by (rewrite <- exp_plus; f_equal; ring).
  ring.
Qed.
Lemma gauss_narrow p x y : 0 <= 1 + ea_lambda p * cos (angle x y) ->
  Rpower 2 (1 - ea_zeta p) * angular_gauss_narrow p x y =
  gauss (ea_eta p) (ea_rs p) (ea_fc p) (norm x) * gauss (ea_eta p) (ea_rs p) (ea_fc p) (norm y) * gauss (ea_eta p) (ea_rs p) (ea_fc p) (norm (vsub x y)) *
  (2 * std_pow ((1 + ea_lambda p * cos (angle x y)) / 2) (ea_zeta p)).
Proof.
  intros H. rewrite power_two by exact H. unfold angular_gauss_narrow, gauss. cbv zeta. rewrite cos_of. set (z := norm (vsub x y)).
  replace (exp (- ea_eta p * ((norm x - ea_rs p) ^ 2 + (norm y - ea_rs p) ^ 2 + (z - ea_rs p) ^ 2))) with
    (exp (- ea_eta p * (norm x - ea_rs p) * (norm x - ea_rs p)) * exp (- ea_eta p * (norm y - ea_rs p) * (norm y - ea_rs p)) *
     exp (- ea_eta p * (z - ea_rs p) * (z - ea_rs p))) by (rewrite <- !exp_plus; f_equal; ring).
  ring.
Qed.
Lemma pair_shape Z conv k e f x y : conv <> 0 -> ~ is_radial k -> ~ weighted_narrow k ->
  distance_inside k (norm x) -> distance_inside k (norm y) -> (narrow k = true -> distance_inside k (norm (vsub x y))) -> angle_inside k (angle x y) ->
  sf_value Z k [(e, x); (f, y)] = weight2 Z k e f *
    (radialPart conv k (norm x / conv) * radialPart conv k (norm y / conv) *
     (if narrow k then radialPart conv k (norm (vsub x y) / conv) else 1) * angularPart k (angle x y)).
Proof.
  intros C K W D1 D2 D3 A. unfold radialPart. rewrite !unit_back by exact C. cbv zeta.
  destruct k; cbn in K, W; try (exfalso; tauto); cbn [sf_value weight2 angularPart distance_inside angle_inside narrow] in *; rewrite pair1;
    try specialize (D3 eq_refl); unfold only_pair, weighted_pair, same_pair; cbn [fst snd].
  - destruct (_ || _)%bool; [rewrite gauss_narrow by exact A|]; ring.
  - destruct (_ || _)%bool; [rewrite gauss_wide by exact A|]; ring.
  - unfold angular_compact_narrow, rad_compact, ang_compact. fold (angle x y). rewrite !inside by assumption. destruct (_ || _)%bool; ring.
  - unfold angular_compact_wide, rad_compact, ang_compact. fold (angle x y). rewrite !inside by assumption. destruct (_ || _)%bool; ring.
  - unfold angular_compact_narrow, rad_compact, ang_compact. fold (angle x y). rewrite !inside by assumption. ring.
  - unfold angular_compact_wide, rad_compact, ang_compact. fold (angle x y). rewrite !inside by assumption. ring.
Qed.
Lemma weighted_narrow_shape Z conv k e f x y r : conv <> 0 -> weighted_narrow k ->
  norm x = r -> norm y = r -> norm (vsub x y) = r -> angle_inside k (angle x y) ->
  sf_value Z k [(e, x); (f, y)] = weight2 Z k e f * (radialPart conv k (r / conv) * angularPart k (angle x y)).
Proof.
  intros C W X Y XY A. unfold radialPart. rewrite unit_back by exact C. cbv zeta.
  destruct k; cbn in W; try contradiction. cbn [sf_value weight2 angularPart angle_inside] in *. rewrite pair1. unfold weighted_pair. cbn [fst snd].
  transitivity (Z e * Z f * (Rpower 2 (1 - ea_zeta p) * angular_gauss_narrow p x y)); [ring|]. rewrite gauss_narrow by exact A. rewrite X, Y, XY. ring.
Qed.
Lemma rows_ok conv rmax k n : (0 < n)%nat -> length (shapeRows conv rmax k n) = (n + 1)%nat /\
  forall i, (i <= n)%nat -> nth_error (shapeRows conv rmax k n) i =
    Some (mkRow (INR i / INR n * rmax) (radialPart conv k (INR i / INR n * rmax)) (INR i / INR n * PI) (angularPart k (INR i / INR n * PI))).
Proof.
  intros N. assert (P : INR n <> 0) by (apply not_0_INR; lia). unfold shapeRows. split; [rewrite map_length, seq_length; reflexivity|].
  intros i I. rewrite (map_nth_error _ i (seq 0 (n + 1)) (d := i)).
  - replace (INR i * (rmax / INR n)) with (INR i / INR n * rmax) by (field; exact P).
    replace (INR i * (PI / INR n)) with (INR i / INR n * PI) by (field; exact P). reflexivity.
  - rewrite (nth_error_nth' _ 0%nat) by (rewrite seq_length; lia). rewrite seq_nth by lia. reflexivity.
Qed.
Definition shape_compact : compact_function := mkCompact ((3 + 1) / 2) ((3 - 1) / 2) 1 3 (1 / ((3 - 1) / 2)) (core_config CK_POLY2 false).
Definition shape_kind : kind := CompRad (mkCR 0 1 3 shape_compact).
Lemma norm_x t : 0 <= t -> norm (mkVec t 0 0) = t.
Proof. intros H. unfold norm. replace (norm2 (mkVec t 0 0)) with (t * t) by (unfold norm2, dot; cbn; ring). now apply sqrt_square. Qed.
Lemma shape_admissible : admissible shape_kind.
Proof.
  cbn [admissible shape_kind cr_c cr_rl cr_rc]. exists CK_POLY2, false. unfold compact_config, cp_setLeftRight. destruct (Rge_dec 1 3); [lra|]. reflexivity.
Qed.
Lemma shape_at t : cp_f shape_compact t = core_fPtr CK_POLY2 (Rabs (t - 2)).
Proof. unfold cp_f, core_f. cbn [shape_compact cp_center cp_scale cp_core core_config core_setAsymmetric core_setType core_type core_asym]. f_equal. f_equal. field. Qed.
Lemma outside_wrong : exists k x, admissible k /\ is_radial k /\ weight1 (fun _ => 1) k 0 = 1 /\
  sf_value (fun _ => 1) k [(0%nat, x)] = 0 /\ radialPart 1 k (norm x) * angularPart k 0 = -31.
Proof.
  exists shape_kind, (mkVec 4 0 0). split; [exact shape_admissible|]. split; [exact I|]. split; [reflexivity|].
  rewrite norm_x by lra. split.
  - cbn [sf_value shape_kind]. unfold radial_sum. cbn [map]. rewrite sum1. unfold only. cbn [fst snd cr_e1 Nat.eqb]. rewrite norm_x by lra.
    unfold radial_compact. apply on_support_out. cbn. lra.
  - cbn [radialPart shape_kind angularPart cr_c]. rewrite shape_at, (Rabs_right (4 * 1 - 2)) by lra. cbn. lra.
Qed.
Lemma inside_example : distance_inside shape_kind (norm (mkVec 2 0 0)) /\ radialPart 1 shape_kind (norm (mkVec 2 0 0)) = 1.
Proof.
  rewrite norm_x by lra. split; [cbn; lra|]. cbn [radialPart shape_kind cr_c]. rewrite shape_at. replace (2 * 1 - 2) with 0 by ring. rewrite Rabs_R0. cbn. lra.
Qed.
Lemma degrees_wrong conv rmax k n : (0 < n)%nat -> exists row, nth_error (shapeRows conv rmax k n) n = Some row /\
  sr_distance row = rmax /\ sr_angle row = PI /\ sr_angle row < 180.
Proof.
  intros N. destruct (rows_ok conv rmax k n N) as [_ H]. eexists. split; [apply H; lia|]. cbn [sr_distance sr_angle].
  assert (P : INR n <> 0) by (apply not_0_INR; lia). replace (INR n / INR n) with 1 by (field; exact P). rewrite !Rmult_1_l. repeat split. pose proof PI_4. lra.
Qed.
Definition shape_gauss : kind := ExpAngn (mkEA 0 0 1 0 1 1 1 true 6 cf_init).
Lemma angle_example : angle_inside shape_gauss (angle (mkVec 1 0 0) (mkVec 0 1 0)) /\ ~ is_radial shape_gauss /\ ~ weighted_narrow shape_gauss.
Proof. split; [|split; exact (fun H => H)]. cbn [angle_inside shape_gauss ea_lambda]. rewrite cos_of. pose proof (cos_angle_bound (mkVec 1 0 0) (mkVec 0 1 0)). lra. Qed.
