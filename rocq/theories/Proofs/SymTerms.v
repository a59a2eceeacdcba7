(** The terms of the symmetry functions: values and derivatives. *)
From Coq Require Import Reals ZArith Lra Lia Bool Arith.
From Coquelicot Require Import Coquelicot.
From Coq Require Import List.
From Verif Require Import Base.RealBase Base.Vec3 Base.SumR Base.Loop Model.CoreFunction Model.CutoffFunction
  Model.CompactScreening Model.Strings Model.Scaling Model.NeighborList Model.SymFunctions
  Spec.CompactSpec Spec.SymSpec Proofs.CoreProofs Proofs.CutoffProofs Proofs.CompactProofs Proofs.StringProofs Proofs.SymEval.
Import ListNotations.
Local Open Scope R_scope.

(** ** Geometry along a straight line *)
Definition line (x w : vec) (t : R) : vec := vadd x (smul t w).
Lemma line_0 x w : line x w 0 = x.
Proof. unfold line. vring. Qed.

Lemma norm2_line_derive x w : is_derive (fun t => norm2 (line x w t)) 0 (2 * dot x w).
Proof.
  unfold line, norm2, dot; simpl. auto_derive; auto. ring.
Qed.
Lemma norm_line_derive x w : x <> vzero -> is_derive (fun t => norm (line x w t)) 0 (dot x w / norm x).
Proof.
  intros Hx. assert (P := norm_pos x Hx). assert (S := norm_sq x).
  eapply is_derive_eq.
  - unfold norm. apply (is_derive_comp sqrt (fun t => norm2 (line x w t))).
    + rewrite line_0. apply is_derive_Reals. apply derivable_pt_lim_sqrt. nra.
    + apply norm2_line_derive.
  - unfold scal; simpl; unfold mult; simpl. rewrite ?line_0. fold (norm x). field. lra.
Qed.
Lemma dot_line_derive x w y w' : is_derive (fun t => dot (line x w t) (line y w' t)) 0 (dot w y + dot x w').
Proof. unfold line, dot; simpl. auto_derive; auto. ring. Qed.

Lemma cos_line_derive x w y w' : x <> vzero -> y <> vzero ->
  is_derive (fun t => cos_angle (line x w t) (line y w' t)) 0
    ((dot w y + dot x w') / (norm x * norm y)
     - cos_angle x y * (dot x w / (norm x * norm x) + dot y w' / (norm y * norm y))).
Proof.
  intros Hx Hy. assert (Px := norm_pos x Hx). assert (Py := norm_pos y Hy).
  unfold cos_angle.
  assert (E0 : norm (line x w 0) * norm (line y w' 0) <> 0).
  { rewrite !line_0. apply Rgt_not_eq. apply Rmult_lt_0_compat; auto. }
  eapply is_derive_eq.
  - apply (is_derive_div (fun t => dot (line x w t) (line y w' t)) (fun t => norm (line x w t) * norm (line y w' t))).
    + apply dot_line_derive.
    + apply (is_derive_mult (fun t => norm (line x w t)) (fun t => norm (line y w' t))).
      * apply norm_line_derive; auto.
      * apply norm_line_derive; auto.
      * intros; apply Rmult_comm.
    + exact E0.
  - rewrite !line_0. unfold plus, mult; simpl. field. lra.
Qed.
Lemma cos_angle_bound x y : -1 <= cos_angle x y <= 1.
Proof.
  unfold cos_angle. destruct (Req_dec (norm x * norm y) 0) as [E|E].
  - assert (D : dot x y = 0).
    { pose proof (cauchy_schwarz x y) as H. rewrite E in H.
      assert (Rabs (dot x y) = 0) by (pose proof (Rabs_pos (dot x y)); lra).
      destruct (Req_dec (dot x y) 0) as [|N]; auto. apply Rabs_no_R0 in N. contradiction. }
    rewrite D. unfold Rdiv. rewrite Rmult_0_l. lra.
  - assert (P : 0 < norm x * norm y).
    { pose proof (norm_nonneg x). pose proof (norm_nonneg y). destruct (Rmult_le_pos _ _ H H0); auto; lra. }
    pose proof (cauchy_schwarz x y) as H. apply Rabs_le_between in H.
    split.
    + apply Rmult_le_reg_r with (norm x * norm y); auto. unfold Rdiv. rewrite Rmult_assoc, Rinv_l by lra. lra.
    + apply Rmult_le_reg_r with (norm x * norm y); auto. unfold Rdiv. rewrite Rmult_assoc, Rinv_l by lra. lra.
Qed.
(** The vector between two neighbours. *)
Lemma diff_line x w y w' t : vsub (line y w' t) (line x w t) = line (vsub y x) (vsub w' w) t.
Proof. unfold line. vring. Qed.
Lemma vsub_opp x y : vsub x y = vopp (vsub y x).
Proof. vring. Qed.
Lemma norm_vsub_sym x y : norm (vsub x y) = norm (vsub y x).
Proof. rewrite (vsub_opp x y). apply norm_opp. Qed.
Lemma vsub_nonzero x y : x <> y -> vsub y x <> vzero.
Proof.
  intros H E. apply H. apply vec_eq.
  - assert (X := f_equal vx E). simpl in X. lra.
  - assert (X := f_equal vy E). simpl in X. lra.
  - assert (X := f_equal vz E). simpl in X. lra.
Qed.

(** ** Derivatives of the factors *)
Lemma is_derive_zero_at_min (f : R -> R) (l : R) : (forall t, 0 <= f t) -> f 0 = 0 -> is_derive f 0 l -> l = 0.
Proof.
  intros Hp H0 Hd. apply is_derive_Reals in Hd.
  destruct (Req_dec l 0) as [|N]; auto. exfalso.
  destruct (Hd (Rabs l / 2)) as [d Hdd]. { assert (0 < Rabs l) by (apply Rabs_pos_lt; auto). lra. }
  assert (Hpos := cond_pos d).
  set (h := if Rlt_dec 0 l then - (d / 2) else d / 2).
  assert (Hh : h <> 0 /\ Rabs h < d).
  { unfold h. destruct (Rlt_dec 0 l); split; try lra; rewrite ?Rabs_Ropp; rewrite Rabs_right; lra. }
  specialize (Hdd h (proj1 Hh) (proj2 Hh)). rewrite H0, Rplus_0_l, Rminus_0_r in Hdd.
  apply Rabs_def2 in Hdd. destruct Hdd as [Q1 Q2]. specialize (Hp h).
  unfold h in *. destruct (Rlt_dec 0 l).
  - rewrite (Rabs_right l) in * by lra. assert (f (- (d/2)) / (- (d/2)) <= 0).
    { unfold Rdiv. assert (/ (- (d * / 2)) < 0) by (apply Rinv_lt_0_compat; lra). nra. }
    lra.
  - rewrite (Rabs_left l) in * by lra. assert (0 <= f (d/2) / (d/2)).
    { apply Rmult_le_pos; auto. apply Rlt_le, Rinv_0_lt_compat. lra. }
    lra.
Qed.

Lemma Rpower_derive x z : 0 < x -> is_derive (fun y => Rpower y z) x (z * Rpower x (z - 1)).
Proof. intros H. apply is_derive_Reals. apply derivable_pt_lim_power. auto. Qed.

Definition clipped_dpower (x zeta : R) : R := if Rle_dec x 0 then 0 else zeta * Rpower x (zeta - 1).

Lemma clipped_pos x z : 0 < x -> is_derive (fun y => clipped_power y z) x (clipped_dpower x z).
Proof.
  intros H. unfold clipped_dpower. destruct (Rle_dec x 0); [lra|].
  apply is_derive_ext_loc with (fun y => Rpower y z); [|apply Rpower_derive; auto].
  exists (mkposreal x H). intros y Hy. unfold clipped_power. destruct (Rle_dec y 0); auto.
  unfold ball in Hy; simpl in Hy; unfold AbsRing_ball, abs, minus, plus, opp in Hy; simpl in Hy.
  apply Rabs_def2 in Hy. lra.
Qed.
Lemma clipped_neg x z : x < 0 -> is_derive (fun y => clipped_power y z) x (clipped_dpower x z).
Proof.
  intros H. unfold clipped_dpower. destruct (Rle_dec x 0); [|lra].
  apply is_derive_ext_loc with (fun y => 0); [|apply (is_derive_const 0)].
  assert (Hx : 0 < - x) by lra.
  exists (mkposreal (- x) Hx). intros y Hy. unfold clipped_power. destruct (Rle_dec y 0); auto.
  unfold ball in Hy; simpl in Hy; unfold AbsRing_ball, abs, minus, plus, opp in Hy; simpl in Hy.
  apply Rabs_def2 in Hy. lra.
Qed.
Lemma clipped_zero z : 1 < z -> is_derive (fun y => clipped_power y z) 0 (clipped_dpower 0 z).
Proof.
  intros H. unfold clipped_dpower. destruct (Rle_dec 0 0); [|lra].
  assert (Z0 : clipped_power 0 z = 0) by (unfold clipped_power; destruct (Rle_dec 0 0); lra).
  apply is_derive_Reals. intros eps Heps.
  set (d := Rmin 1 (Rpower eps (/ (z - 1)))).
  assert (Hd : 0 < d). { unfold d. apply Rmin_glb_lt; [lra|apply exp_pos]. }
  exists (mkposreal d Hd). intros h Hh Hhd. simpl in Hhd. rewrite Rplus_0_l, Z0, !Rminus_0_r.
  unfold clipped_power. destruct (Rle_dec h 0). { unfold Rdiv. rewrite Rmult_0_l, Rabs_R0. lra. }
  rewrite (Rabs_right h) in Hhd by lra.
  assert (E : Rpower h z / h = Rpower h (z - 1)).
  { replace z with ((z - 1) + 1) at 1 by ring. rewrite Rpower_plus, Rpower_1 by lra. field. lra. }
  rewrite E. rewrite Rabs_right by (apply Rle_ge, Rlt_le, exp_pos).
  assert (Hl : h < Rpower eps (/ (z - 1))). { eapply Rlt_le_trans; [exact Hhd|apply Rmin_r]. }
  replace eps with (Rpower (Rpower eps (/ (z - 1))) (z - 1)).
  - unfold Rpower at 1 3. apply exp_increasing. apply Rmult_lt_compat_l; [lra|]. apply ln_increasing; auto; lra.
  - rewrite Rpower_mult, Rinv_l by lra. apply Rpower_1; auto.
Qed.

(** The power of the angular factor along a curve of cosines. *)
Lemma power_curve lam z (c : R -> R) (c' : R) :
  (forall t, -1 <= c t <= 1) -> is_derive c 0 c' ->
  (1 + lam * c 0 <> 0 \/ 1 < z \/ (z = 1 /\ Rabs lam <= 1)) ->
  is_derive (fun t => clipped_power (1 + lam * c t) z) 0 (clipped_dpower (1 + lam * c 0) z * (lam * c')).
Proof.
  intros Hb Hc Hs.
  assert (HX : is_derive (fun t => 1 + lam * c t) 0 (lam * c')).
  { eapply is_derive_eq.
    - apply (is_derive_plus (fun _ => 1) (fun t => lam * c t)).
      + apply (is_derive_const 1).
      + apply (is_derive_scal c 0 lam). exact Hc.
    - unfold plus, zero; simpl. ring. }
  assert (Gen : (1 + lam * c 0 <> 0 \/ 1 < z) ->
    is_derive (fun t => clipped_power (1 + lam * c t) z) 0 (clipped_dpower (1 + lam * c 0) z * (lam * c'))).
  { intros HH. eapply is_derive_eq.
    - apply (is_derive_comp (fun y => clipped_power y z) (fun t => 1 + lam * c t) 0); [|exact HX].
      destruct (Rtotal_order (1 + lam * c 0) 0) as [|[E|]].
      + apply clipped_neg; auto.
      + rewrite E. apply clipped_zero. destruct HH; auto; contradiction.
      + apply clipped_pos; auto.
    - unfold scal; simpl; unfold mult; simpl. ring. }
  destruct (Req_dec (1 + lam * c 0) 0) as [E|E]; [|apply Gen; auto].
  destruct Hs as [|[|[-> Hl]]]; [contradiction|apply Gen; auto|].
  assert (Hnn : forall t, 0 <= 1 + lam * c t).
  { intros t. specialize (Hb t). apply Rabs_le_between in Hl. nra. }
  assert (L0 := is_derive_zero_at_min _ _ Hnn E HX).
  rewrite E, L0, Rmult_0_r.
  apply is_derive_ext with (fun t => 1 + lam * c t).
  - intros t. unfold clipped_power. destruct (Rle_dec (1 + lam * c t) 0).
    + specialize (Hnn t). lra.
    + rewrite Rpower_1; lra.
  - exact (is_derive_eq _ _ _ _ HX L0).
Qed.

(** The code's power times its argument. *)
Lemma zeta_pow_ok p x : zeta_setup p -> 0 < x -> zeta_pow p x = Rpower x (ea_zeta p - 1).
Proof.
  intros [Hr Hi] Hx. unfold zeta_pow. destruct (ea_useIntegerPow p); auto.
  rewrite pow_int_spec by (try lia; intros; lra).
  rewrite powerRZ_Rpower by auto. rewrite Hi by auto. f_equal. rewrite minus_IZR. reflexivity.
Qed.
Lemma clipped_fg p x e : zeta_setup p ->
  (if leR x 0 then 0 else e * zeta_pow p x) * x = e * clipped_power x (ea_zeta p).
Proof.
  intros H. unfold leR, clipped_power. destruct (Rle_dec x 0); [ring|].
  rewrite zeta_pow_ok by (auto; lra).
  replace (Rpower x (ea_zeta p)) with (Rpower x (ea_zeta p - 1) * x); [ring|].
  rewrite <- (Rpower_1 x) at 2 by lra. rewrite <- Rpower_plus. f_equal. ring.
Qed.
Lemma clipped_dfg p x e : zeta_setup p ->
  ea_zeta p * (if leR x 0 then 0 else e * zeta_pow p x) = e * clipped_dpower x (ea_zeta p).
Proof.
  intros H. unfold leR, clipped_dpower. destruct (Rle_dec x 0); [ring|].
  rewrite zeta_pow_ok by (auto; lra). ring.
Qed.

Lemma cutoff_curve fc rc (r : R -> R) (r' : R) : cutoff_setup fc rc -> not_hard fc -> is_derive r 0 r' ->
  is_derive (fun t => cf_f fc (r t)) 0 (cf_df fc (r 0) * r').
Proof.
  intros (Hrc & t & alpha & Hc) Hh Hr. eapply is_derive_eq.
  - apply (is_derive_comp (cf_f fc) r); [|exact Hr]. apply (cf_f_derive t rc alpha fc); auto.
    intros Ht. exfalso. apply Hh. destruct (configure_eq _ _ _ _ Hc) as (_ & ->). exact Ht.
  - unfold scal; simpl; unfold mult; simpl. ring.
Qed.
Lemma cutoff_fdf fc rc r : cutoff_setup fc rc -> cf_fdf fc r = (cf_f fc r, cf_df fc r).
Proof. intros (Hrc & t & alpha & Hc). eapply cf_fdf_eq; eauto. Qed.
Lemma cutoff_out fc rc r : cutoff_setup fc rc -> rc <= r -> cf_f fc r = 0 /\ cf_df fc r = 0.
Proof. intros (Hrc & t & alpha & Hc). eapply cf_outside; eauto. Qed.

Lemma exp_curve (q : R -> R) (q' : R) : is_derive q 0 q' -> is_derive (fun t => exp (q t)) 0 (q' * exp (q 0)).
Proof.
  intros H. apply (is_derive_comp exp q 0); [|exact H]. apply is_derive_exp.
Qed.

(** Compact functions on their closed support. *)
Lemma core_df_at_1 c : core_type c <> CK_EXP -> core_df c 1 = 0.
Proof.
  intros H. unfold core_df. destruct (core_asym c).
  - replace ((2 - 1) * 1) with 1 by ring. ring.
  - destruct (core_type c); unfold core_dfPtr; cbv zeta; try ring; [|contradiction].
    rewrite c_PI_eq, Rmult_1_r, sin_PI. ring.
Qed.
Lemma compact_closed c l r a : compact_setup c l r -> l <= a <= r ->
  (core_type (cp_core c) = CK_EXP -> a <> l /\ a <> r) ->
  cp_fdf c a = (on_support l r (cp_f c) a, on_support l r (fun x => snd (cp_fdf c x)) a).
Proof.
  intros (k & asym & Hc) Ha HE. destruct (compact_config_eq _ _ _ _ _ Hc) as (Hlr & Ec).
  destruct (Req_dec a l) as [El|Nl]; [|destruct (Req_dec a r) as [Er|Nr]].
  3:{ assert (F := compact_fdf_fst k asym l r c Hc a ltac:(lra)).
      unfold on_support. destruct (Rlt_dec l a); [|lra]. destruct (Rlt_dec a r); [|lra].
      rewrite <- F. destruct (cp_fdf c a); auto. }
  - assert (NE : core_type (cp_core c) <> CK_EXP) by (intros E; apply HE in E; tauto).
    assert (X : Rabs ((a - (r + l) / 2) * (1 / ((r - l) / 2))) = 1).
    { replace ((a - (r + l) / 2) * (1 / ((r - l) / 2))) with (-(1)) by (subst a; field; lra). rewrite Rabs_Ropp. apply Rabs_R1. }
    unfold on_support. destruct (Rlt_dec l a); [lra|].
    rewrite Ec in *. unfold cp_fdf. cbn [cp_center cp_scale cp_core] in *. rewrite X.
    rewrite core_fdf_eq by lra. rewrite core_f_at_1, core_df_at_1 by auto. f_equal. ring.
  - assert (NE : core_type (cp_core c) <> CK_EXP) by (intros E; apply HE in E; tauto).
    assert (X : Rabs ((a - (r + l) / 2) * (1 / ((r - l) / 2))) = 1).
    { replace ((a - (r + l) / 2) * (1 / ((r - l) / 2))) with 1 by (subst a; field; lra). apply Rabs_R1. }
    unfold on_support. destruct (Rlt_dec l a); [|lra]. destruct (Rlt_dec a r); [lra|].
    rewrite Ec in *. unfold cp_fdf. cbn [cp_center cp_scale cp_core] in *. rewrite X.
    rewrite core_fdf_eq by lra. rewrite core_f_at_1, core_df_at_1 by auto. f_equal. ring.
Qed.
Lemma compact_open c l r a : compact_setup c l r -> l < a < r ->
  cp_fdf c a = (on_support l r (cp_f c) a, on_support l r (fun x => snd (cp_fdf c x)) a).
Proof. intros H Ha. apply compact_closed; auto; lra. Qed.
Lemma on_support_out l r f a : ~ (l < a < r) -> on_support l r f a = 0.
Proof. intros H. unfold on_support. destruct (Rlt_dec l a); auto. destruct (Rlt_dec a r); auto. tauto. Qed.
Lemma compact_curve c l r (q : R -> R) (q' : R) : compact_setup c l r -> is_derive q 0 q' ->
  is_derive (fun t => on_support l r (cp_f c) (q t)) 0 (on_support l r (fun x => snd (cp_fdf c x)) (q 0) * q').
Proof.
  intros (k & asym & Hc) Hq. eapply is_derive_eq.
  - apply (is_derive_comp (on_support l r (cp_f c)) q); [|exact Hq]. eapply compact_fdf_derive; eauto.
  - unfold scal; simpl; unfold mult; simpl. ring.
Qed.
Lemma acos_curve (c : R -> R) (c' : R) : -1 < c 0 < 1 -> is_derive c 0 c' ->
  is_derive (fun t => acos (c t)) 0 (- / sqrt (1 - c 0 * c 0) * c').
Proof.
  intros Hb Hc. eapply is_derive_eq.
  - apply (is_derive_comp acos c); [|exact Hc]. apply is_derive_Reals.
    apply derive_pt_eq_1 with (pr := derivable_pt_acos (c 0) Hb). apply derive_pt_acos.
  - unfold scal; simpl; unfold mult; simpl. unfold Rsqr, Rdiv. ring.
Qed.
