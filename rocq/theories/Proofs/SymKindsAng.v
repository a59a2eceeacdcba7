(** Value and derivative of the terms of the angular symmetry function types. *)
From Coq Require Import Reals ZArith Lra Lia Bool Arith.
From Coquelicot Require Import Coquelicot.
From Coq Require Import List.
From Verif Require Import Base.RealBase Base.Vec3 Base.SumR Base.Loop Model.CoreFunction Model.CutoffFunction
  Model.CompactScreening Model.Strings Model.Scaling Model.NeighborList Model.SymFunctions
  Spec.CompactSpec Spec.SymSpec Proofs.SymEval Proofs.SymTerms Proofs.SymKinds.
Import ListNotations.
Local Open Scope R_scope.

(** ** Wide Gaussian *)
Section Angw.
Variables (factor : R) (p : ea_par) (nj nk : neighbor).
Hypothesis Hf : cutoff_setup (ea_fc p) (ea_rc p).
Hypothesis Hz : zeta_setup p.
Hypothesis Hj : wf_nb nj.
Hypothesis Hk : wf_nb nk.
Let x := nb_dr nj.
Let y := nb_dr nk.
Hypothesis Hx : x <> vzero.
Hypothesis Hy : y <> vzero.
Let fd (n : neighbor) := cf_fdf (ea_fc p) (nb_d n).

Lemma angw_value : exists P, angw_pair factor p nj nk (fd nj) (fd nk) = Some (angular_gauss_wide p x y, P).
Proof.
  unfold angw_pair, fd. rewrite !(cutoff_fdf _ _ _ Hf). fold x y.
  eexists. f_equal. f_equal. rewrite clipped_fg by exact Hz. unfold x, y. rewrite code_cos by auto.
  rewrite Hj, Hk. fold x y. unfold angular_gauss_wide.
  replace ((norm x - ea_rs p) * (norm x - ea_rs p) + (norm y - ea_rs p) * (norm y - ea_rs p)) with
    ((norm x - ea_rs p) ^ 2 + (norm y - ea_rs p) ^ 2) by ring.
  ring.
Qed.

Lemma angw_derivative wj wk : not_hard (ea_fc p) -> smooth_power p x y ->
  forall v p1 p2 p3, angw_pair factor p nj nk (fd nj) (fd nk) = Some (v, (p1, p2, p3)) ->
  exists d, is_derive (fun tau => angular_gauss_wide p (line x wj tau) (line y wk tau)) 0 d /\
    factor * Rpower 2 (1 - ea_zeta p) * d
    = p1 * dot x wj + p2 * dot y wk + p3 * dot (vsub y x) (vsub wj wk).
Proof.
  intros Hh Hs v p1 p2 p3. unfold angw_pair, fd. rewrite !(cutoff_fdf _ _ _ Hf).
  rewrite code_cos by auto. fold x y. rewrite Hj, Hk. fold x y.
  intros E. injection E as _ E1 E2 E3.
  eexists. split; [apply wide_curve; auto|].
  rewrite <- E1, <- E2, <- E3. clear E1 E2 E3.
  replace ((norm x - ea_rs p) * (norm x - ea_rs p) + (norm y - ea_rs p) * (norm y - ea_rs p)) with
    ((norm x - ea_rs p) ^ 2 + (norm y - ea_rs p) ^ 2) by ring.
  rewrite !dot_sub4. rewrite (dot_comm wj y).
  set (pl := 1 + ea_lambda p * cos_angle x y).
  set (EE := exp _).
  assert (H1 := clipped_fg p pl EE Hz).
  assert (H2 := clipped_dfg p pl EE Hz).
  set (fg := if leR pl 0 then 0 else _) in *.
  set (C := clipped_power pl (ea_zeta p)) in *. set (dC := clipped_dpower pl (ea_zeta p)) in *.
  pose proof (norm_pos x Hx) as Px. pose proof (norm_pos y Hy) as Py.
  set (a := norm x) in *. set (b := norm y) in *.
  set (fa := cf_f (ea_fc p) a). set (fb := cf_f (ea_fc p) b).
  set (ga := cf_df (ea_fc p) a). set (gb := cf_df (ea_fc p) b).
  generalize (dot x wj) (dot x wk) (dot y wj) (dot y wk). intros xx xy yx yy.
  set (pn := Rpower 2 (1 - ea_zeta p)).
  set (c' := (yx + xy) / (a * b) - cos_angle x y * (xx / (a * a) + yy / (b * b))).
  transitivity (factor * pn * ((EE * dC) * (ea_lambda p * c') * (fa * fb)
     + (EE * C) * (- ea_eta p * (2 * (a - ea_rs p) * (xx / a) + 2 * (b - ea_rs p) * (yy / b)) * (fa * fb)
        + (ga * (xx / a) * fb + fa * (gb * (yy / b)))))).
  { ring. }
  rewrite <- H1, <- H2. unfold c'. field. lra.
Qed.
End Angw.

(** ** The three Gaussian angular types *)
Lemma is_derive_zero_fun : is_derive (fun _ : R => 0) 0 0.
Proof. apply (is_derive_const 0). Qed.

Lemma good_ExpAngn factor p (Z : nat -> R) : admissible (ExpAngn p) ->
  ang_good (ExpAngn p) factor (expAngn_body factor p) (only_pair (ea_e1 p) (ea_e2 p) (angular_gauss_narrow p))
    (fun _ _ => True) (fun x y => not_hard (ea_fc p) /\ x <> y /\ smooth_power p x y).
Proof.
  intros [Hf Hz]. assert (Hrc : 0 < ea_rc p) by apply Hf. split.
  - intros nj nk Hj Hk Hx Hy _. unfold aval, apair, only_pair. simpl. rewrite <- pairs_match_spec.
    destruct (pairs_match (ea_e1 p) (ea_e2 p) (nb_element nj) (nb_element nk)) eqn:M.
    2:{ now rewrite andb_false_r. }
    rewrite (pairs_match_one _ _ _ _ M). rewrite Hj, Hk, narrow_sym_ok by auto. cbn [andb].
    destruct (ltR (norm (nb_dr nj)) (ea_rc p)) eqn:G1; [destruct (ltR (norm (nb_dr nk)) (ea_rc p)) eqn:G2;
      [destruct (ltR (norm (vsub (nb_dr nk) (nb_dr nj))) (ea_rc p)) eqn:G3|]|]; cbn [andb].
    + destruct (angn_value (fun _ _ => 1) factor p nj nk Hf Hz Hj Hk Hx Hy) as (P & E).
      rewrite <- Hj, <- Hk. rewrite E. ring.
    + rewrite ltR_false in G3. symmetry. apply narrow_zero; auto.
    + rewrite ltR_false in G2. symmetry. apply narrow_zero; auto.
    + rewrite ltR_false in G1. symmetry. apply narrow_zero; auto.
  - intros nj nk wj wk Hj Hk Hx Hy _ (Hh & Hxy & Hs). unfold only_pair, apar, apair. cbn [fst snd].
    cbn [expAngn_body ab_guardj ab_guardk ab_pair ab_fdf ab_norm]. rewrite <- pairs_match_spec.
    destruct (pairs_match (ea_e1 p) (ea_e2 p) (nb_element nj) (nb_element nk)) eqn:M.
    2:{ exists 0. rewrite andb_false_r. split; [apply is_derive_zero_fun|ring]. }
    rewrite (pairs_match_one _ _ _ _ M). rewrite narrow_sym_ok by auto. cbn [andb].
    assert (D := narrow_curve p (nb_dr nj) wj (nb_dr nk) wk Hf Hh Hx Hy Hxy Hs). cbv zeta in D.
    match type of D with is_derive _ _ ?l => set (dl := l) in D end.
    destruct (ltR (nb_d nj) (ea_rc p)) eqn:G1; [destruct (ltR (nb_d nk) (ea_rc p)) eqn:G2;
      [destruct (ltR (norm (vsub (nb_dr nk) (nb_dr nj))) (ea_rc p)) eqn:G3|]|]; cbn [andb].
    + destruct (angn_value (fun _ _ => 1) factor p nj nk Hf Hz Hj Hk Hx Hy) as ([[p1 p2] p3] & E).
      destruct (angn_derivative (fun _ _ => 1) factor p nj nk Hf Hz Hj Hk Hx Hy wj wk Hh Hxy Hs _ _ _ _ E) as (d & Hd & Ed).
      rewrite E. exists d. split; [exact Hd|]. rewrite <- Ed. ring.
    + exists dl. split; [exact D|]. rewrite ltR_false in G3.
      rewrite (narrow_zero_derive p (nb_dr nj) wj (nb_dr nk) wk dl); auto. ring.
    + exists dl. split; [exact D|]. rewrite ltR_false, Hk in G2.
      rewrite (narrow_zero_derive p (nb_dr nj) wj (nb_dr nk) wk dl); auto. ring.
    + exists dl. split; [exact D|]. rewrite ltR_false, Hj in G1.
      rewrite (narrow_zero_derive p (nb_dr nj) wj (nb_dr nk) wk dl); auto. ring.
  - intros rc nj nk E H. simpl in E. try discriminate. injection E as <-. simpl.
    apply ltR_false in H. rewrite H. now rewrite andb_false_r.
  - simpl. intros n H. apply andb_true_iff in H. rewrite <- one_of_dep. tauto.
  - simpl. intros nj nk _ H. rewrite !andb_true_iff in H. eapply pairs_match_other. apply H.
  - reflexivity.
  - reflexivity.
Qed.

Lemma good_ExpAngnW factor p (Z : nat -> R) : admissible (ExpAngnWeighted p) ->
  ang_good (ExpAngnWeighted p) factor (expAngnW_body Z factor p) (weighted_pair Z (angular_gauss_narrow p))
    (fun _ _ => True) (fun x y => not_hard (ea_fc p) /\ x <> y /\ smooth_power p x y).
Proof.
  intros [Hf Hz]. assert (Hrc : 0 < ea_rc p) by apply Hf. split.
  - intros nj nk Hj Hk Hx Hy _. unfold aval, apair, weighted_pair. simpl.
    rewrite Hj, Hk, narrow_sym_ok by auto.
    destruct (ltR (norm (nb_dr nj)) (ea_rc p)) eqn:G1; [destruct (ltR (norm (nb_dr nk)) (ea_rc p)) eqn:G2;
      [destruct (ltR (norm (vsub (nb_dr nk) (nb_dr nj))) (ea_rc p)) eqn:G3|]|]; cbn [andb].
    + destruct (angn_value (fun nj nk => Z (nb_element nj) * Z (nb_element nk)) factor p nj nk Hf Hz Hj Hk Hx Hy) as (P & E).
      rewrite <- Hj, <- Hk. rewrite E. ring.
    + rewrite ltR_false in G3. rewrite narrow_zero; auto. ring.
    + rewrite ltR_false in G2. rewrite narrow_zero; auto. ring.
    + rewrite ltR_false in G1. rewrite narrow_zero; auto. ring.
  - intros nj nk wj wk Hj Hk Hx Hy _ (Hh & Hxy & Hs). unfold weighted_pair, apar, apair. cbn [fst snd].
    cbn [expAngnW_body ab_guardj ab_guardk ab_pair ab_fdf ab_norm].
    rewrite narrow_sym_ok by auto. cbn [andb].
    assert (D := narrow_curve p (nb_dr nj) wj (nb_dr nk) wk Hf Hh Hx Hy Hxy Hs). cbv zeta in D.
    match type of D with is_derive _ _ ?l => set (dl := l) in D end.
    destruct (ltR (nb_d nj) (ea_rc p)) eqn:G1; [destruct (ltR (nb_d nk) (ea_rc p)) eqn:G2;
      [destruct (ltR (norm (vsub (nb_dr nk) (nb_dr nj))) (ea_rc p)) eqn:G3|]|]; cbn [andb].
    + destruct (angn_value (fun nj nk => Z (nb_element nj) * Z (nb_element nk)) factor p nj nk Hf Hz Hj Hk Hx Hy) as ([[p1 p2] p3] & E).
      destruct (angn_derivative (fun nj nk => Z (nb_element nj) * Z (nb_element nk)) factor p nj nk Hf Hz Hj Hk Hx Hy wj wk Hh Hxy Hs _ _ _ _ E) as (d & Hd & Ed).
      rewrite E. eexists. split; [apply is_derive_scal_R; exact Hd|]. rewrite <- Ed. ring.
    + eexists. split; [apply is_derive_scal_R; exact D|]. rewrite ltR_false in G3.
      rewrite (narrow_zero_derive p (nb_dr nj) wj (nb_dr nk) wk dl); auto. ring.
    + eexists. split; [apply is_derive_scal_R; exact D|]. rewrite ltR_false, Hk in G2.
      rewrite (narrow_zero_derive p (nb_dr nj) wj (nb_dr nk) wk dl); auto. ring.
    + eexists. split; [apply is_derive_scal_R; exact D|]. rewrite ltR_false, Hj in G1.
      rewrite (narrow_zero_derive p (nb_dr nj) wj (nb_dr nk) wk dl); auto. ring.
  - intros rc nj nk E H. simpl in E. discriminate.
  - reflexivity.
  - reflexivity.
  - reflexivity.
  - reflexivity.
Qed.

Lemma good_ExpAngw factor p (Z : nat -> R) : admissible (ExpAngw p) ->
  ang_good (ExpAngw p) factor (expAngw_body factor p) (only_pair (ea_e1 p) (ea_e2 p) (angular_gauss_wide p))
    (fun _ _ => True) (fun x y => not_hard (ea_fc p) /\ smooth_power p x y).
Proof.
  intros [Hf Hz]. assert (Hrc : 0 < ea_rc p) by apply Hf. split.
  - intros nj nk Hj Hk Hx Hy _. unfold aval, apair, only_pair. simpl. rewrite <- pairs_match_spec.
    destruct (pairs_match (ea_e1 p) (ea_e2 p) (nb_element nj) (nb_element nk)) eqn:M.
    2:{ now rewrite andb_false_r. }
    rewrite (pairs_match_one _ _ _ _ M). rewrite Hj, Hk. cbn [andb].
    destruct (ltR (norm (nb_dr nj)) (ea_rc p)) eqn:G1; [destruct (ltR (norm (nb_dr nk)) (ea_rc p)) eqn:G2|]; cbn [andb].
    + destruct (angw_value factor p nj nk Hf Hz Hj Hk Hx Hy) as (P & E).
      rewrite <- Hj, <- Hk. rewrite E. ring.
    + rewrite ltR_false in G2. symmetry. apply wide_zero; auto.
    + rewrite ltR_false in G1. symmetry. apply wide_zero; auto.
  - intros nj nk wj wk Hj Hk Hx Hy _ (Hh & Hs). unfold only_pair, apar, apair. cbn [fst snd].
    cbn [expAngw_body ab_guardj ab_guardk ab_pair ab_fdf ab_norm]. rewrite <- pairs_match_spec.
    destruct (pairs_match (ea_e1 p) (ea_e2 p) (nb_element nj) (nb_element nk)) eqn:M.
    2:{ exists 0. rewrite andb_false_r. split; [apply is_derive_zero_fun|ring]. }
    rewrite (pairs_match_one _ _ _ _ M). cbn [andb].
    assert (D := wide_curve p (nb_dr nj) wj (nb_dr nk) wk Hf Hh Hx Hy Hs). cbv zeta in D.
    match type of D with is_derive _ _ ?l => set (dl := l) in D end.
    destruct (ltR (nb_d nj) (ea_rc p)) eqn:G1; [destruct (ltR (nb_d nk) (ea_rc p)) eqn:G2|]; cbn [andb].
    + destruct (angw_value factor p nj nk Hf Hz Hj Hk Hx Hy) as ([[p1 p2] p3] & E).
      destruct (angw_derivative factor p nj nk Hf Hz Hj Hk Hx Hy wj wk Hh Hs _ _ _ _ E) as (d & Hd & Ed).
      rewrite E. exists d. split; [exact Hd|]. rewrite <- Ed. ring.
    + exists dl. split; [exact D|]. rewrite ltR_false, Hk in G2.
      rewrite (wide_zero_derive p (nb_dr nj) wj (nb_dr nk) wk dl); auto. ring.
    + exists dl. split; [exact D|]. rewrite ltR_false, Hj in G1.
      rewrite (wide_zero_derive p (nb_dr nj) wj (nb_dr nk) wk dl); auto. ring.
  - intros rc nj nk E H. simpl in E. discriminate.
  - simpl. intros n H. apply andb_true_iff in H. rewrite <- one_of_dep. tauto.
  - simpl. intros nj nk _ H. rewrite !andb_true_iff in H. eapply pairs_match_other. apply H.
  - reflexivity.
  - reflexivity.
Qed.

(** ** Compact angular types *)
Lemma in_shell_true p r : in_shell p r = true <-> ca_rl p < r < ca_rc p.
Proof. unfold in_shell. rewrite andb_true_iff, !ltR_true. tauto. Qed.
Lemma in_shell_false p r : in_shell p r = false <-> ~ (ca_rl p < r < ca_rc p).
Proof. rewrite <- in_shell_true. destruct (in_shell p r); split; intros; try congruence. Qed.
Lemma jk_inside_ok p nj nk : 0 < ca_rc p -> nb_dr nj <> nb_dr nk ->
  jk_inside p nj nk = in_shell p (norm (vsub (nb_dr nk) (nb_dr nj))).
Proof.
  intros Hrc Hne. pose proof (norm_pos _ (vsub_nonzero _ _ Hne)) as P.
  unfold jk_inside, in_shell. rewrite <- norm_sq. set (z := norm _) in *.
  rewrite negb_orb. f_equal.
  - unfold ltR, leR. destruct (Rlt_dec z (ca_rc p)), (Rle_dec (ca_rc p * ca_rc p) (z * z)); simpl; auto; nra.
  - unfold ltR, leR. destruct (Rlt_dec 0 (ca_rl p)).
    + destruct (Rlt_dec (ca_rl p) z), (Rle_dec (z * z) (ca_rl p * ca_rl p)); simpl; auto; nra.
    + destruct (Rlt_dec (ca_rl p) z), (Rle_dec (z * z) 0); simpl; auto; nra.
Qed.

Definition rad_der (p : ca_par) (r : R) : R := on_support (ca_rl p) (ca_rc p) (fun x => snd (cp_fdf (ca_c p) x)) r.
Definition ang_der (p : ca_par) (x y : vec) : R :=
  on_support (ca_left p) (ca_right p) (fun x => snd (cp_fdf (ca_a p) x)) (acos (cos_angle x y)).
Lemma rad_compact_curve p x w : compact_setup (ca_c p) (ca_rl p) (ca_rc p) -> x <> vzero ->
  is_derive (fun tau => rad_compact p (norm (line x w tau))) 0 (rad_der p (norm x) * (dot x w / norm x)).
Proof. intros Hc Hx. apply compact_rad_curve; auto. Qed.
Lemma rad_compact_jk_curve p x wx y wy : compact_setup (ca_c p) (ca_rl p) (ca_rc p) -> x <> y ->
  is_derive (fun tau => rad_compact p (norm (vsub (line x wx tau) (line y wy tau)))) 0
   (rad_der p (norm (vsub y x)) * (dot (vsub y x) (vsub wy wx) / norm (vsub y x))).
Proof.
  intros Hc Hxy. apply is_derive_ext with (fun tau => rad_compact p (norm (line (vsub y x) (vsub wy wx) tau))).
  { intros t. rewrite norm_vsub_sym, diff_line. reflexivity. }
  apply rad_compact_curve; auto. apply vsub_nonzero; auto.
Qed.
Lemma ang_compact_curve p x wx y wy : compact_setup (ca_a p) (ca_left p) (ca_right p) ->
  x <> vzero -> y <> vzero -> -1 < cos_angle x y < 1 ->
  is_derive (fun tau => ang_compact p (line x wx tau) (line y wy tau)) 0
    (ang_der p x y * (- / sqrt (1 - cos_angle x y * cos_angle x y) *
      ((dot wx y + dot x wy) / (norm x * norm y)
       - cos_angle x y * (dot x wx / (norm x * norm x) + dot y wy / (norm y * norm y))))).
Proof.
  intros Ha Hx Hy Hb. unfold ang_compact, ang_der. eapply is_derive_eq.
  - apply (compact_curve (ca_a p) _ _ (fun tau => acos (cos_angle (line x wx tau) (line y wy tau)))); auto.
    apply (acos_curve (fun tau => cos_angle (line x wx tau) (line y wy tau))).
    + rewrite !line_0. auto.
    + apply cos_line_derive; auto.
  - cbv beta; rewrite ?line_0. reflexivity.
Qed.

Section Comp.
Variables (w : neighbor -> neighbor -> R) (factor : R) (p : ca_par) (nj nk : neighbor).
Hypothesis Hc : compact_setup (ca_c p) (ca_rl p) (ca_rc p).
Hypothesis Ha : compact_setup (ca_a p) (ca_left p) (ca_right p).
Hypothesis Hj : wf_nb nj.
Hypothesis Hk : wf_nb nk.
Let x := nb_dr nj.
Let y := nb_dr nk.
Hypothesis Hx : x <> vzero.
Hypothesis Hy : y <> vzero.
Hypothesis Hoff : off_boundary p x y.
Hypothesis Hb : -1 < cos_angle x y < 1.
Hypothesis Gj : ca_rl p < nb_d nj < ca_rc p.
Hypothesis Gk : ca_rl p < nb_d nk < ca_rc p.
Let fd (n : neighbor) := cp_fdf (ca_c p) (nb_d n).

Lemma not_collinear : (leR (cos_angle x y) (-1) || leR 1 (cos_angle x y))%bool = false.
Proof. apply orb_false_iff. rewrite !leR_false. lra. Qed.
Lemma window_out : (ltR (acos (cos_angle x y)) (ca_left p) || ltR (ca_right p) (acos (cos_angle x y)))%bool = true ->
  ang_compact p x y = 0 /\ ang_der p x y = 0.
Proof.
  rewrite orb_true_iff, !ltR_true. intros H. unfold ang_compact, ang_der. rewrite !on_support_out by lra. auto.
Qed.
Lemma window_in : (ltR (acos (cos_angle x y)) (ca_left p) || ltR (ca_right p) (acos (cos_angle x y)))%bool = false ->
  cp_fdf (ca_a p) (acos (cos_angle x y)) = (ang_compact p x y, ang_der p x y).
Proof.
  rewrite orb_false_iff, !ltR_false. intros H. apply compact_closed; auto; try lra.
Qed.

Lemma compw_ok :
  match compw_pair w factor p nj nk (fd nj) (fd nk) with
  | None => angular_compact_wide p x y = 0
  | Some (v, _) => v = w nj nk * angular_compact_wide p x y
  end /\
  forall wj wk, exists d : R,
    is_derive (fun tau => angular_compact_wide p (line x wj tau) (line y wk tau)) 0 d /\
    match compw_pair w factor p nj nk (fd nj) (fd nk) with
    | None => d = 0
    | Some (_, (p1, p2, p3)) =>
       factor * (w nj nk * d) = p1 * dot x wj + p2 * dot y wk + p3 * dot (vsub y x) (vsub wj wk)
    end.
Proof.
  unfold compw_pair, fd. rewrite !(compact_open _ _ _ _ Hc) by assumption. rewrite code_cos by auto. fold x y.
  rewrite not_collinear. rewrite Hj, Hk. fold x y.
  destruct (ltR (acos (cos_angle x y)) (ca_left p) || ltR (ca_right p) (acos (cos_angle x y)))%bool eqn:W.
  - destruct (window_out W) as (W0 & W1). split.
    + unfold angular_compact_wide. rewrite W0. ring.
    + intros wj wk. eexists. split.
      * unfold angular_compact_wide. apply is_derive_mult_R; [|apply ang_compact_curve; auto].
        apply is_derive_mult_R; apply rad_compact_curve; auto.
      * cbv beta; rewrite ?line_0. rewrite W0, W1. ring.
  - rewrite (window_in W). split.
    + unfold angular_compact_wide, rad_compact. ring.
    + intros wj wk. eexists. split.
      * unfold angular_compact_wide. apply is_derive_mult_R; [|apply ang_compact_curve; auto].
        apply is_derive_mult_R; apply rad_compact_curve; auto.
      * cbv beta; rewrite ?line_0. fold (rad_compact p (norm x)) (rad_compact p (norm y)) (rad_der p (norm x)) (rad_der p (norm y)).
        rewrite !dot_sub4. rewrite (dot_comm wj y).
        generalize (dot x wj) (dot x wk) (dot y wj) (dot y wk). intros xx xy yx yy.
        pose proof (norm_pos x Hx) as Px. pose proof (norm_pos y Hy) as Py.
        assert (Ps : 0 < sqrt (1 - cos_angle x y * cos_angle x y)) by (apply sqrt_lt_R0; nra).
        set (sq := sqrt _) in *. field. lra.
Qed.

Hypothesis Hxy : x <> y.
Hypothesis Gjk : ca_rl p < norm (vsub y x) < ca_rc p.
Lemma compn_ok :
  match compn_pair w factor p nj nk (fd nj) (fd nk) with
  | None => angular_compact_narrow p x y = 0
  | Some (v, _) => v = w nj nk * angular_compact_narrow p x y
  end /\
  forall wj wk, exists d : R,
    is_derive (fun tau => angular_compact_narrow p (line x wj tau) (line y wk tau)) 0 d /\
    match compn_pair w factor p nj nk (fd nj) (fd nk) with
    | None => d = 0
    | Some (_, (p1, p2, p3)) =>
       factor * (w nj nk * d) = p1 * dot x wj + p2 * dot y wk + p3 * dot (vsub y x) (vsub wj wk)
    end.
Proof.
  unfold compn_pair, fd. fold x y. fold (norm (vsub y x)).
  rewrite !(compact_open _ _ _ _ Hc) by assumption.
  assert (CC := code_cos nj nk Hj Hk Hx Hy). fold x y in CC. rewrite CC.
  rewrite not_collinear. rewrite Hj, Hk. fold x y.
  destruct (ltR (acos (cos_angle x y)) (ca_left p) || ltR (ca_right p) (acos (cos_angle x y)))%bool eqn:W.
  - destruct (window_out W) as (W0 & W1). split.
    + unfold angular_compact_narrow. rewrite W0. ring.
    + intros wj wk. eexists. split.
      * unfold angular_compact_narrow. apply is_derive_mult_R; [|apply ang_compact_curve; auto].
        apply is_derive_mult_R; [|apply rad_compact_jk_curve; auto].
        apply is_derive_mult_R; apply rad_compact_curve; auto.
      * cbv beta; rewrite ?line_0. rewrite W0, W1. ring.
  - rewrite (window_in W). split.
    + unfold angular_compact_narrow, rad_compact. rewrite (norm_vsub_sym x y). ring.
    + intros wj wk. eexists. split.
      * unfold angular_compact_narrow. apply is_derive_mult_R; [|apply ang_compact_curve; auto].
        apply is_derive_mult_R; [|apply rad_compact_jk_curve; auto].
        apply is_derive_mult_R; apply rad_compact_curve; auto.
      * cbv beta; rewrite ?line_0. rewrite (norm_vsub_sym x y).
        fold (rad_compact p (norm x)) (rad_compact p (norm y)) (rad_der p (norm x)) (rad_der p (norm y))
             (rad_compact p (norm (vsub y x))) (rad_der p (norm (vsub y x))).
        rewrite !dot_sub4. rewrite (dot_comm wj y).
        generalize (dot x wj) (dot x wk) (dot y wj) (dot y wk). intros xx xy yx yy.
        pose proof (norm_pos x Hx) as Px. pose proof (norm_pos y Hy) as Py.
        pose proof (norm_pos _ (vsub_nonzero _ _ Hxy)) as Pz.
        assert (Ps : 0 < sqrt (1 - cos_angle x y * cos_angle x y)) by (apply sqrt_lt_R0; nra).
        set (sq := sqrt _) in *. field. lra.
Qed.
End Comp.

Lemma compw_zero p x y : ~ (ca_rl p < norm x < ca_rc p) \/ ~ (ca_rl p < norm y < ca_rc p) ->
  angular_compact_wide p x y = 0.
Proof. intros [H|H]; unfold angular_compact_wide, rad_compact; rewrite (on_support_out _ _ _ _ H); ring. Qed.
Lemma compw_zero_derive p x wx y wy : compact_setup (ca_c p) (ca_rl p) (ca_rc p) ->
  compact_setup (ca_a p) (ca_left p) (ca_right p) -> x <> vzero -> y <> vzero -> -1 < cos_angle x y < 1 ->
  ~ (ca_rl p < norm x < ca_rc p) \/ ~ (ca_rl p < norm y < ca_rc p) ->
  is_derive (fun tau => angular_compact_wide p (line x wx tau) (line y wy tau)) 0 0.
Proof.
  intros Hc Ha Hx Hy Hb H. eapply is_derive_eq.
  - unfold angular_compact_wide. apply is_derive_mult_R; [|apply ang_compact_curve; auto].
    apply is_derive_mult_R; apply rad_compact_curve; auto.
  - cbv beta; rewrite ?line_0. unfold rad_compact, rad_der. destruct H as [H|H]; rewrite !(on_support_out _ _ _ _ H); ring.
Qed.
Lemma compn_zero p x y : ~ (ca_rl p < norm x < ca_rc p) \/ ~ (ca_rl p < norm y < ca_rc p) \/
   ~ (ca_rl p < norm (vsub y x) < ca_rc p) -> angular_compact_narrow p x y = 0.
Proof.
  unfold angular_compact_narrow, rad_compact. rewrite (norm_vsub_sym x y).
  intros [H|[H|H]]; rewrite (on_support_out _ _ _ _ H); ring.
Qed.
Lemma compn_zero_derive p x wx y wy : compact_setup (ca_c p) (ca_rl p) (ca_rc p) ->
  compact_setup (ca_a p) (ca_left p) (ca_right p) -> x <> vzero -> y <> vzero -> x <> y -> -1 < cos_angle x y < 1 ->
  ~ (ca_rl p < norm x < ca_rc p) \/ ~ (ca_rl p < norm y < ca_rc p) \/ ~ (ca_rl p < norm (vsub y x) < ca_rc p) ->
  is_derive (fun tau => angular_compact_narrow p (line x wx tau) (line y wy tau)) 0 0.
Proof.
  intros Hc Ha Hx Hy Hxy Hb H. eapply is_derive_eq.
  - unfold angular_compact_narrow. apply is_derive_mult_R; [|apply ang_compact_curve; auto].
    apply is_derive_mult_R; [|apply rad_compact_jk_curve; auto].
    apply is_derive_mult_R; apply rad_compact_curve; auto.
  - cbv beta; rewrite ?line_0. unfold rad_compact, rad_der. rewrite (norm_vsub_sym x y).
    destruct H as [H|[H|H]]; rewrite !(on_support_out _ _ _ _ H); ring.
Qed.

Definition ev_wide (p : ca_par) (x y : vec) : Prop := off_boundary p x y /\ -1 < cos_angle x y < 1.
Definition ev_narrow (p : ca_par) (x y : vec) : Prop := x <> y /\ off_boundary p x y /\ -1 < cos_angle x y < 1.

(** Both element versions at once: [m] selects the pairs, [w] weights them. *)
Section CompGood.
Variables (k : kind) (factor : R) (p : ca_par) (Z : nat -> R) (m : nat -> nat -> bool) (mj : nat -> bool)
  (w : neighbor -> neighbor -> R) (t : (vec -> vec -> R) -> nat * vec -> nat * vec -> R).
Hypothesis Hc : compact_setup (ca_c p) (ca_rl p) (ca_rc p).
Hypothesis Ha : compact_setup (ca_a p) (ca_left p) (ca_right p).
Hypothesis Hm : forall ej ek, m ej ek = true -> mj ej = true.
Hypothesis Ht : forall v nj nk, t v (nb_element nj, nb_dr nj) (nb_element nk, nb_dr nk) =
  if m (nb_element nj) (nb_element nk) then w nj nk * v (nb_dr nj) (nb_dr nk) else 0.
Hypothesis Htl : forall v nj nk a b, t v (nb_element nj, a) (nb_element nk, b) =
  if m (nb_element nj) (nb_element nk) then w nj nk * v a b else 0.
Hypothesis Hdj : forall e, mj e = true -> depends k e = true.
Hypothesis Hdk : forall e e', m e e' = true -> depends k e' = true.
Hypothesis Hfk : cp_fdf (ca_c p) = cached_function k.
Hypothesis Htk : false = tests_other_element k.

Definition gen_wide : ang_body := mkAB None
    (fun nj => (mj (nb_element nj) && in_shell p (nb_d nj))%bool)
    (fun nj nk => (m (nb_element nj) (nb_element nk) && in_shell p (nb_d nk))%bool)
    false (cp_fdf (ca_c p)) (compw_pair w factor p) 1.
Definition gen_narrow : ang_body := mkAB None
    (fun nj => (mj (nb_element nj) && in_shell p (nb_d nj))%bool)
    (fun nj nk => (m (nb_element nj) (nb_element nk) && in_shell p (nb_d nk) && jk_inside p nj nk)%bool)
    false (cp_fdf (ca_c p)) (compn_pair w factor p) 1.

Lemma good_gen_wide : ang_good k factor gen_wide (t (angular_compact_wide p)) (ev_wide p) (fun _ _ => True).
Proof.
  split.
  - intros nj nk Hj Hk Hx Hy (Ho & Hb). unfold aval, apair. cbn [gen_wide ab_guardj ab_guardk ab_pair ab_fdf].
    rewrite Ht. destruct (m (nb_element nj) (nb_element nk)) eqn:M; [rewrite (Hm _ _ M)|]; cbn [andb].
    2:{ now rewrite andb_false_r. }
    destruct (in_shell p (nb_d nj)) eqn:G1; [destruct (in_shell p (nb_d nk)) eqn:G2|]; cbn [andb].
    + apply in_shell_true in G1. apply in_shell_true in G2.
      destruct (compw_ok w factor p nj nk Hc Ha Hj Hk Hx Hy Ho Hb G1 G2) as (V & _).
      destruct (compw_pair w factor p nj nk _ _) as [[v P]|]; [exact V|]. rewrite V. ring.
    + rewrite in_shell_false, Hk in G2. rewrite compw_zero by auto. ring.
    + rewrite in_shell_false, Hj in G1. rewrite compw_zero by auto. ring.
  - intros nj nk wj wk Hj Hk Hx Hy (Ho & Hb) _. unfold apar, apair. cbn [gen_wide ab_guardj ab_guardk ab_pair ab_fdf ab_norm].
    destruct (m (nb_element nj) (nb_element nk)) eqn:M; [rewrite (Hm _ _ M)|]; cbn [andb].
    2:{ exists 0. rewrite andb_false_r. split; [|ring].
        apply is_derive_ext with (fun _ => 0); [intros; rewrite Htl, M; auto|apply is_derive_zero_fun]. }
    assert (X : forall d : R, is_derive (fun tau => angular_compact_wide p (line (nb_dr nj) wj tau) (line (nb_dr nk) wk tau)) 0 d ->
       is_derive (fun tau => t (angular_compact_wide p) (nb_element nj, line (nb_dr nj) wj tau) (nb_element nk, line (nb_dr nk) wk tau)) 0
        (w nj nk * d)).
    { intros d D. eapply is_derive_ext with (fun tau => w nj nk * angular_compact_wide p (line (nb_dr nj) wj tau) (line (nb_dr nk) wk tau));
      [intros; rewrite Htl, M; reflexivity|]. apply is_derive_scal_R. exact D. }
    destruct (in_shell p (nb_d nj)) eqn:G1; [destruct (in_shell p (nb_d nk)) eqn:G2|]; cbn [andb].
    + apply in_shell_true in G1. apply in_shell_true in G2.
      destruct (compw_ok w factor p nj nk Hc Ha Hj Hk Hx Hy Ho Hb G1 G2) as (_ & V).
      destruct (V wj wk) as (d & D & E). exists (w nj nk * d). split; [apply X; exact D|].
      destruct (compw_pair w factor p nj nk _ _) as [[v [[p1 p2] p3]]|].
      * rewrite <- E. ring.
      * rewrite E. ring.
    + rewrite in_shell_false, Hk in G2. exists (w nj nk * 0). split; [apply X; apply compw_zero_derive; auto|ring].
    + rewrite in_shell_false, Hj in G1. exists (w nj nk * 0). split; [apply X; apply compw_zero_derive; auto|ring].
  - intros rc nj nk E. discriminate.
  - intros n H. apply andb_true_iff in H. apply Hdj. tauto.
  - intros nj nk _ H. cbn [gen_wide ab_guardk] in H. apply andb_true_iff in H. eapply Hdk. apply H.
  - exact Hfk.
  - exact Htk.
Qed.

Lemma good_gen_narrow : ang_good k factor gen_narrow (t (angular_compact_narrow p)) (ev_narrow p) (fun _ _ => True).
Proof.
  assert (PR : forall n, wf_nb n -> in_shell p (nb_d n) = true -> 0 < ca_rc p).
  { intros n Hn G. apply in_shell_true in G. rewrite Hn in G. pose proof (norm_nonneg (nb_dr n)). lra. }
  split.
  - intros nj nk Hj Hk Hx Hy (Hne & Ho & Hb). unfold aval, apair. cbn [gen_narrow ab_guardj ab_guardk ab_pair ab_fdf].
    rewrite Ht. destruct (m (nb_element nj) (nb_element nk)) eqn:M; [rewrite (Hm _ _ M)|]; cbn [andb].
    2:{ now rewrite andb_false_r. }
    destruct (in_shell p (nb_d nj)) eqn:G1; [destruct (in_shell p (nb_d nk)) eqn:G2|]; cbn [andb].
    + rewrite jk_inside_ok by eauto.
      destruct (in_shell p (norm (vsub (nb_dr nk) (nb_dr nj)))) eqn:G3.
      * apply in_shell_true in G1. apply in_shell_true in G2. apply in_shell_true in G3.
        destruct (compn_ok w factor p nj nk Hc Ha Hj Hk Hx Hy Ho Hb G1 G2 Hne G3) as (V & _).
        destruct (compn_pair w factor p nj nk _ _) as [[v P]|]; [exact V|]. rewrite V. ring.
      * rewrite in_shell_false in G3. rewrite compn_zero by auto. ring.
    + rewrite in_shell_false, Hk in G2. rewrite compn_zero by auto. ring.
    + rewrite in_shell_false, Hj in G1. rewrite compn_zero by auto. ring.
  - intros nj nk wj wk Hj Hk Hx Hy (Hne & Ho & Hb) _. unfold apar, apair. cbn [gen_narrow ab_guardj ab_guardk ab_pair ab_fdf ab_norm].
    destruct (m (nb_element nj) (nb_element nk)) eqn:M; [rewrite (Hm _ _ M)|]; cbn [andb].
    2:{ exists 0. rewrite andb_false_r. split; [|ring].
        apply is_derive_ext with (fun _ => 0); [intros; rewrite Htl, M; auto|apply is_derive_zero_fun]. }
    assert (X : forall d : R, is_derive (fun tau => angular_compact_narrow p (line (nb_dr nj) wj tau) (line (nb_dr nk) wk tau)) 0 d ->
       is_derive (fun tau => t (angular_compact_narrow p) (nb_element nj, line (nb_dr nj) wj tau) (nb_element nk, line (nb_dr nk) wk tau)) 0
        (w nj nk * d)).
    { intros d D. eapply is_derive_ext with (fun tau => w nj nk * angular_compact_narrow p (line (nb_dr nj) wj tau) (line (nb_dr nk) wk tau));
      [intros; rewrite Htl, M; reflexivity|]. apply is_derive_scal_R. exact D. }
    destruct (in_shell p (nb_d nj)) eqn:G1; [destruct (in_shell p (nb_d nk)) eqn:G2|]; cbn [andb].
    + rewrite jk_inside_ok by eauto.
      destruct (in_shell p (norm (vsub (nb_dr nk) (nb_dr nj)))) eqn:G3.
      * apply in_shell_true in G1. apply in_shell_true in G2. apply in_shell_true in G3.
        destruct (compn_ok w factor p nj nk Hc Ha Hj Hk Hx Hy Ho Hb G1 G2 Hne G3) as (_ & V).
        destruct (V wj wk) as (d & D & E). exists (w nj nk * d). split; [apply X; exact D|].
        destruct (compn_pair w factor p nj nk _ _) as [[v [[p1 p2] p3]]|].
        -- rewrite <- E. ring.
        -- rewrite E. ring.
      * rewrite in_shell_false in G3. exists (w nj nk * 0). split; [apply X; apply compn_zero_derive; auto|ring].
    + rewrite in_shell_false, Hk in G2. exists (w nj nk * 0). split; [apply X; apply compn_zero_derive; auto|ring].
    + rewrite in_shell_false, Hj in G1. exists (w nj nk * 0). split; [apply X; apply compn_zero_derive; auto|ring].
  - intros rc nj nk E. discriminate.
  - intros n H. apply andb_true_iff in H. apply Hdj. tauto.
  - intros nj nk _ H. cbn [gen_narrow ab_guardk] in H. rewrite !andb_true_iff in H. eapply Hdk. apply H.
  - exact Hfk.
  - exact Htk.
Qed.
End CompGood.

Lemma good_CompAngw factor p (Z : nat -> R) : admissible (CompAngw p) ->
  ang_good (CompAngw p) factor (compAngw_body factor p) (only_pair (ca_e1 p) (ca_e2 p) (angular_compact_wide p))
    (ev_wide p) (fun _ _ => True).
Proof.
  intros [Hc Ha]. apply (good_gen_wide (CompAngw p) factor p (pairs_match (ca_e1 p) (ca_e2 p)) (one_of (ca_e1 p) (ca_e2 p))
    (fun _ _ => 1) (only_pair (ca_e1 p) (ca_e2 p))); auto.
  - intros; eapply pairs_match_one; eauto.
  - intros. unfold only_pair; cbn [fst snd]. rewrite <- pairs_match_spec. destruct (pairs_match _ _ _ _); ring.
  - intros. unfold only_pair; cbn [fst snd]. rewrite <- pairs_match_spec. destruct (pairs_match _ _ _ _); ring.
  - intros e H. rewrite one_of_dep in H. exact H.
  - intros e e' H. exact (pairs_match_other _ _ _ _ H).
Qed.
Lemma good_CompAngn factor p (Z : nat -> R) : admissible (CompAngn p) ->
  ang_good (CompAngn p) factor (compAngn_body factor p) (only_pair (ca_e1 p) (ca_e2 p) (angular_compact_narrow p))
    (ev_narrow p) (fun _ _ => True).
Proof.
  intros [Hc Ha]. apply (good_gen_narrow (CompAngn p) factor p (pairs_match (ca_e1 p) (ca_e2 p)) (one_of (ca_e1 p) (ca_e2 p))
    (fun _ _ => 1) (only_pair (ca_e1 p) (ca_e2 p))); auto.
  - intros; eapply pairs_match_one; eauto.
  - intros. unfold only_pair; cbn [fst snd]. rewrite <- pairs_match_spec. destruct (pairs_match _ _ _ _); ring.
  - intros. unfold only_pair; cbn [fst snd]. rewrite <- pairs_match_spec. destruct (pairs_match _ _ _ _); ring.
  - intros e H. rewrite one_of_dep in H. exact H.
  - intros e e' H. exact (pairs_match_other _ _ _ _ H).
Qed.
Lemma good_CompAngwW factor p (Z : nat -> R) : admissible (CompAngwWeighted p) ->
  ang_good (CompAngwWeighted p) factor (compAngwW_body Z factor p) (weighted_pair Z (angular_compact_wide p))
    (ev_wide p) (fun _ _ => True).
Proof.
  intros [Hc Ha]. apply (good_gen_wide (CompAngwWeighted p) factor p (fun _ _ => true) (fun _ => true)
    (fun nj nk => Z (nb_element nj) * Z (nb_element nk)) (weighted_pair Z)); auto.
Qed.
Lemma good_CompAngnW factor p (Z : nat -> R) : admissible (CompAngnWeighted p) ->
  ang_good (CompAngnWeighted p) factor (compAngnW_body Z factor p) (weighted_pair Z (angular_compact_narrow p))
    (ev_narrow p) (fun _ _ => True).
Proof.
  intros [Hc Ha]. apply (good_gen_narrow (CompAngnWeighted p) factor p (fun _ _ => true) (fun _ => true)
    (fun nj nk => Z (nb_element nj) * Z (nb_element nk)) (weighted_pair Z)); auto.
Qed.
