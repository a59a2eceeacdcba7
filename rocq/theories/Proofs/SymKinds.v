(** Value and derivative of the terms of each symmetry function type. *)
From Coq Require Import Reals ZArith Lra Lia Bool Arith.
From Coquelicot Require Import Coquelicot.
From Coq Require Import List.
From Verif Require Import Base.RealBase Base.Vec3 Base.SumR Base.Loop Model.CoreFunction Model.CutoffFunction
  Model.CompactScreening Model.Strings Model.Scaling Model.NeighborList Model.SymFunctions
  Spec.CompactSpec Spec.SymSpec Proofs.SymEval Proofs.SymTerms.
Import ListNotations.
Local Open Scope R_scope.

Definition wf_nb (n : neighbor) : Prop := nb_d n = norm (nb_dr n).

Record rad_good (k : kind) (factor : R) (b : rad_body) (t : nat * vec -> R) (sm : Prop) : Prop := {
  rg_val : forall n, wf_nb n -> rval b n = t (nb_element n, nb_dr n);
  rg_der : sm -> forall n w, wf_nb n -> nb_dr n <> vzero -> exists d,
    is_derive (fun tau => t (nb_element n, line (nb_dr n) w tau)) 0 d /\
    factor * d = (if rb_guard b n then rp1 b n else 0) * dot (nb_dr n) w;
  rg_stored : forall rc n, rb_stored b = Some rc -> rc <= nb_d n -> rb_guard b n = false;
  rg_dep : forall n, rb_guard b n = true -> depends k (nb_element n) = true;
  rg_fdf : rb_fdf b = cached_function k
}.

Definition apar (b : ang_body) (nj nk : neighbor) (wj wk : vec) : R :=
  match apair b nj nk with
  | Some (_, (p1, p2, p3)) =>
      p1 * dot (nb_dr nj) wj + p2 * dot (nb_dr nk) wk + p3 * dot (vsub (nb_dr nk) (nb_dr nj)) (vsub wj wk)
  | None => 0
  end.
Record ang_good (k : kind) (factor : R) (b : ang_body) (t : nat * vec -> nat * vec -> R)
   (ev sm : vec -> vec -> Prop) : Prop := {
  ag_val : forall nj nk, wf_nb nj -> wf_nb nk -> nb_dr nj <> vzero -> nb_dr nk <> vzero -> ev (nb_dr nj) (nb_dr nk) ->
    aval b nj nk = t (nb_element nj, nb_dr nj) (nb_element nk, nb_dr nk);
  ag_der : forall nj nk wj wk, wf_nb nj -> wf_nb nk -> nb_dr nj <> vzero -> nb_dr nk <> vzero ->
    ev (nb_dr nj) (nb_dr nk) -> sm (nb_dr nj) (nb_dr nk) -> exists d,
    is_derive (fun tau => t (nb_element nj, line (nb_dr nj) wj tau) (nb_element nk, line (nb_dr nk) wk tau)) 0 d /\
    factor * ab_norm b * d = apar b nj nk wj wk;
  ag_stored : forall rc nj nk, ab_stored b = Some rc -> rc <= nb_d nk -> ab_guardk b nj nk = false;
  ag_depj : forall n, ab_guardj b n = true -> depends k (nb_element n) = true;
  ag_depk : forall nj nk, ab_guardj b nj = true -> ab_guardk b nj nk = true -> depends k (nb_element nk) = true;
  ag_fdf : ab_fdf b = cached_function k;
  ag_test : ab_test_j b = tests_other_element k
}.

Lemma is_derive_mult_R (f g : R -> R) (x df dg : R) : is_derive f x df -> is_derive g x dg ->
  is_derive (fun t => f t * g t) x (df * g x + f x * dg).
Proof.
  intros Hf Hg. apply (is_derive_mult f g x df dg Hf Hg). intros; apply Rmult_comm.
Qed.
Lemma is_derive_plus_R (f g : R -> R) (x df dg : R) : is_derive f x df -> is_derive g x dg ->
  is_derive (fun t => f t + g t) x (df + dg).
Proof. intros Hf Hg. apply (is_derive_plus f g x df dg Hf Hg). Qed.
Lemma is_derive_scal_R (f : R -> R) (x k df : R) : is_derive f x df -> is_derive (fun t => k * f t) x (k * df).
Proof. intros Hf. apply (is_derive_scal f x k df Hf). Qed.
Lemma shifted_square_curve (r : R -> R) (r' s : R) : is_derive r 0 r' ->
  is_derive (fun t => (r t - s) ^ 2) 0 (2 * (r 0 - s) * r').
Proof.
  intros H. eapply is_derive_eq.
  - apply (is_derive_comp (fun u => (u - s) ^ 2) r 0); [|exact H]. auto_derive; auto.
  - unfold scal; simpl; unfold mult; simpl. ring.
Qed.

(** ** Gaussian radial *)
Lemma gauss_curve p x w : cutoff_setup (er_fc p) (er_rc p) -> not_hard (er_fc p) -> x <> vzero ->
  is_derive (fun tau => radial_gauss p (norm (line x w tau))) 0
   ((cf_df (er_fc p) (norm x) - 2 * er_eta p * (norm x - er_rs p) * cf_f (er_fc p) (norm x))
     * exp (- er_eta p * (norm x - er_rs p) * (norm x - er_rs p)) / norm x * dot x w).
Proof.
  intros Hf Hh Hx. assert (P := norm_pos x Hx). assert (Hn := norm_line_derive x w Hx).
  unfold radial_gauss. eapply is_derive_eq.
  - apply is_derive_mult_R.
    + apply exp_curve. apply is_derive_scal_R. apply shifted_square_curve. exact Hn.
    + eapply cutoff_curve; eauto.
  - cbv beta. rewrite line_0.
    replace (- er_eta p * (norm x - er_rs p) ^ 2)
      with (- er_eta p * (norm x - er_rs p) * (norm x - er_rs p)) by ring.
    field. lra.
Qed.

Lemma good_ExpRad factor p (Z : nat -> R) : admissible (ExpRad p) ->
  rad_good (ExpRad p) factor (expRad_body factor p) (only (er_e1 p) (fun x => radial_gauss p (norm x))) (not_hard (er_fc p)).
Proof.
  intros Ha. simpl in Ha. split.
  - intros n Hn. unfold rval, only. simpl. rewrite (Nat.eqb_sym (er_e1 p)).
    destruct (Nat.eqb (nb_element n) (er_e1 p)); simpl; auto. rewrite <- Hn.
    rewrite (cutoff_fdf _ _ _ Ha). unfold radial_gauss. simpl.
    destruct (ltR (nb_d n) (er_rc p)) eqn:E.
    + f_equal. f_equal. ring.
    + apply ltR_false in E. rewrite (proj1 (cutoff_out _ _ _ Ha E)). ring.
  - intros Hh n w Hn Hx. unfold only, rp1. simpl. rewrite (Nat.eqb_sym (er_e1 p)).
    destruct (Nat.eqb (nb_element n) (er_e1 p)); simpl.
    2:{ exists 0. split; [apply (is_derive_const 0)|ring]. }
    eexists. split; [apply gauss_curve; auto|]. rewrite (cutoff_fdf _ _ _ Ha). simpl. rewrite Hn.
    assert (P := norm_pos _ Hx).
    destruct (ltR (norm (nb_dr n)) (er_rc p)) eqn:E.
    + field. lra.
    + apply ltR_false in E. rewrite (proj1 (cutoff_out _ _ _ Ha E)), (proj2 (cutoff_out _ _ _ Ha E)). field. lra.
  - simpl. intros rc n E H. injection E as <-. apply andb_false_iff. right. apply ltR_false. auto.
  - simpl. intros n H. apply andb_true_iff in H. rewrite Nat.eqb_sym. tauto.
  - reflexivity.
Qed.
Lemma good_ExpRadW factor p (Z : nat -> R) : admissible (ExpRadWeighted p) ->
  rad_good (ExpRadWeighted p) factor (expRadW_body Z factor p) (weighted Z (fun x => radial_gauss p (norm x))) (not_hard (er_fc p)).
Proof.
  intros Ha. simpl in Ha. split.
  - intros n Hn. unfold rval, weighted. simpl. rewrite <- Hn.
    rewrite (cutoff_fdf _ _ _ Ha). unfold radial_gauss. simpl.
    destruct (ltR (nb_d n) (er_rc p)) eqn:E.
    + rewrite Rmult_assoc. f_equal. f_equal. f_equal. ring.
    + apply ltR_false in E. rewrite (proj1 (cutoff_out _ _ _ Ha E)). ring.
  - intros Hh n w Hn Hx. unfold weighted, rp1. simpl.
    eexists. split; [apply is_derive_scal; apply gauss_curve; auto|]. rewrite (cutoff_fdf _ _ _ Ha). simpl. rewrite Hn.
    assert (P := norm_pos _ Hx).
    destruct (ltR (norm (nb_dr n)) (er_rc p)) eqn:E.
    + field. lra.
    + apply ltR_false in E. rewrite (proj1 (cutoff_out _ _ _ Ha E)), (proj2 (cutoff_out _ _ _ Ha E)). field. lra.
  - simpl. discriminate.
  - reflexivity.
  - reflexivity.
Qed.

(** ** Compact radial *)
Lemma compact_rad_curve c l r x w : compact_setup c l r -> x <> vzero ->
  is_derive (fun tau => on_support l r (cp_f c) (norm (line x w tau))) 0
    (on_support l r (fun y => snd (cp_fdf c y)) (norm x) * (dot x w / norm x)).
Proof.
  intros Hc Hx. eapply is_derive_eq.
  - apply (compact_curve c l r (fun tau => norm (line x w tau))); [auto|]. apply norm_line_derive; auto.
  - simpl. rewrite line_0. reflexivity.
Qed.
Lemma shell_guard l r d : (ltR l d && ltR d r = true)%bool <-> l < d < r.
Proof. rewrite andb_true_iff, !ltR_true. tauto. Qed.
Lemma shell_guard_false l r d : (ltR l d && ltR d r = false)%bool <-> ~ (l < d < r).
Proof. rewrite <- shell_guard. destruct (ltR l d && ltR d r)%bool; split; intros; try congruence. Qed.

Lemma good_CompRad factor p (Z : nat -> R) : admissible (CompRad p) ->
  rad_good (CompRad p) factor (compRad_body factor p) (only (cr_e1 p) (fun x => radial_compact p (norm x))) True.
Proof.
  intros Ha. simpl in Ha. split.
  - intros n Hn. unfold rval, only. simpl. rewrite (Nat.eqb_sym (cr_e1 p)).
    destruct (Nat.eqb (nb_element n) (cr_e1 p)); simpl; auto. rewrite <- Hn. unfold radial_compact.
    destruct (ltR (cr_rl p) (nb_d n) && ltR (nb_d n) (cr_rc p))%bool eqn:E.
    + apply shell_guard in E. rewrite (compact_open _ _ _ _ Ha E). reflexivity.
    + apply shell_guard_false in E. now rewrite on_support_out.
  - intros _ n w Hn Hx. unfold only, rp1. simpl. rewrite (Nat.eqb_sym (cr_e1 p)).
    destruct (Nat.eqb (nb_element n) (cr_e1 p)); simpl.
    2:{ exists 0. split; [apply (is_derive_const 0)|ring]. }
    assert (P := norm_pos _ Hx).
    eexists. split; [apply compact_rad_curve; auto|]. rewrite <- Hn.
    destruct (ltR (cr_rl p) (nb_d n) && ltR (nb_d n) (cr_rc p))%bool eqn:E.
    + apply shell_guard in E. rewrite (compact_open _ _ _ _ Ha E). simpl. field. rewrite Hn. lra.
    + apply shell_guard_false in E. rewrite on_support_out by auto. ring.
  - simpl. discriminate.
  - simpl. intros n H. rewrite Nat.eqb_sym. destruct (Nat.eqb (cr_e1 p) (nb_element n)); auto.
  - reflexivity.
Qed.
Lemma good_CompRadW factor p (Z : nat -> R) : admissible (CompRadWeighted p) ->
  rad_good (CompRadWeighted p) factor (compRadW_body Z factor p) (weighted Z (fun x => radial_compact p (norm x))) True.
Proof.
  intros Ha. simpl in Ha. split.
  - intros n Hn. unfold rval, weighted. simpl. rewrite <- Hn. unfold radial_compact.
    destruct (ltR (cr_rl p) (nb_d n) && ltR (nb_d n) (cr_rc p))%bool eqn:E.
    + apply shell_guard in E. rewrite (compact_open _ _ _ _ Ha E). simpl. ring.
    + apply shell_guard_false in E. rewrite on_support_out by auto. ring.
  - intros _ n w Hn Hx. unfold weighted, rp1. simpl. assert (P := norm_pos _ Hx).
    eexists. split; [apply is_derive_scal; apply compact_rad_curve; auto|]. rewrite <- Hn.
    destruct (ltR (cr_rl p) (nb_d n) && ltR (nb_d n) (cr_rc p))%bool eqn:E.
    + apply shell_guard in E. rewrite (compact_open _ _ _ _ Ha E). simpl. field. rewrite Hn. lra.
    + apply shell_guard_false in E. rewrite on_support_out by auto. ring.
  - simpl. discriminate.
  - reflexivity.
  - reflexivity.
Qed.

(** ** Gaussian angular *)
Lemma wide_curve p x wx y wy : cutoff_setup (ea_fc p) (ea_rc p) -> not_hard (ea_fc p) -> x <> vzero -> y <> vzero ->
  smooth_power p x y ->
  let c' := (dot wx y + dot x wy) / (norm x * norm y)
     - cos_angle x y * (dot x wx / (norm x * norm x) + dot y wy / (norm y * norm y)) in
  let rx' := dot x wx / norm x in let ry' := dot y wy / norm y in
  let C := clipped_power (1 + ea_lambda p * cos_angle x y) (ea_zeta p) in
  let dC := clipped_dpower (1 + ea_lambda p * cos_angle x y) (ea_zeta p) in
  let E := exp (- ea_eta p * ((norm x - ea_rs p) ^ 2 + (norm y - ea_rs p) ^ 2)) in
  let f := cf_f (ea_fc p) in let df := cf_df (ea_fc p) in
  is_derive (fun tau => angular_gauss_wide p (line x wx tau) (line y wy tau)) 0
    ((dC * (ea_lambda p * c') * E
      + C * (- ea_eta p * (2 * (norm x - ea_rs p) * rx' + 2 * (norm y - ea_rs p) * ry') * E))
       * (f (norm x) * f (norm y))
     + C * E * (df (norm x) * rx' * f (norm y) + f (norm x) * (df (norm y) * ry'))).
Proof.
  intros Hf Hh Hx Hy Hs. intros.
  assert (Nx := norm_line_derive x wx Hx). assert (Ny := norm_line_derive y wy Hy).
  unfold angular_gauss_wide.
  eapply is_derive_eq.
  - apply is_derive_mult_R; [apply is_derive_mult_R|].
    + apply (power_curve (ea_lambda p) (ea_zeta p) (fun tau => cos_angle (line x wx tau) (line y wy tau)) c').
      * intros; apply cos_angle_bound.
      * apply cos_line_derive; auto.
      * cbv beta. rewrite !line_0. exact Hs.
    + apply exp_curve. apply is_derive_scal_R. apply is_derive_plus_R; apply shifted_square_curve; eauto.
    + apply is_derive_mult_R; eapply cutoff_curve; eauto.
  - cbv beta. rewrite !line_0. reflexivity.
Qed.

Lemma narrow_curve p x wx y wy : cutoff_setup (ea_fc p) (ea_rc p) -> not_hard (ea_fc p) -> x <> vzero -> y <> vzero ->
  x <> y -> smooth_power p x y ->
  let c' := (dot wx y + dot x wy) / (norm x * norm y)
     - cos_angle x y * (dot x wx / (norm x * norm x) + dot y wy / (norm y * norm y)) in
  let z := norm (vsub x y) in
  let rx' := dot x wx / norm x in let ry' := dot y wy / norm y in
  let rz' := dot (vsub x y) (vsub wx wy) / z in
  let C := clipped_power (1 + ea_lambda p * cos_angle x y) (ea_zeta p) in
  let dC := clipped_dpower (1 + ea_lambda p * cos_angle x y) (ea_zeta p) in
  let E := exp (- ea_eta p * ((norm x - ea_rs p) ^ 2 + (norm y - ea_rs p) ^ 2 + (z - ea_rs p) ^ 2)) in
  let f := cf_f (ea_fc p) in let df := cf_df (ea_fc p) in
  is_derive (fun tau => angular_gauss_narrow p (line x wx tau) (line y wy tau)) 0
    ((dC * (ea_lambda p * c') * E
      + C * (- ea_eta p * (2 * (norm x - ea_rs p) * rx' + 2 * (norm y - ea_rs p) * ry' + 2 * (z - ea_rs p) * rz') * E))
       * (f (norm x) * f (norm y) * f z)
     + C * E * ((df (norm x) * rx' * f (norm y) + f (norm x) * (df (norm y) * ry')) * f z
                + f (norm x) * f (norm y) * (df z * rz'))).
Proof.
  intros Hf Hh Hx Hy Hxy Hs. intros.
  assert (Nx := norm_line_derive x wx Hx). assert (Ny := norm_line_derive y wy Hy).
  assert (Nz := norm_line_derive (vsub x y) (vsub wx wy) (vsub_nonzero y x ltac:(auto))).
  unfold angular_gauss_narrow.
  apply is_derive_ext with (fun tau =>
    clipped_power (1 + ea_lambda p * cos_angle (line x wx tau) (line y wy tau)) (ea_zeta p)
  * exp (- ea_eta p * ((norm (line x wx tau) - ea_rs p) ^ 2 + (norm (line y wy tau) - ea_rs p) ^ 2
        + (norm (line (vsub x y) (vsub wx wy) tau) - ea_rs p) ^ 2))
  * (cf_f (ea_fc p) (norm (line x wx tau)) * cf_f (ea_fc p) (norm (line y wy tau))
      * cf_f (ea_fc p) (norm (line (vsub x y) (vsub wx wy) tau)))).
  { intros t. cbv zeta. rewrite diff_line. reflexivity. }
  eapply is_derive_eq.
  - apply is_derive_mult_R; [apply is_derive_mult_R|].
    + apply (power_curve (ea_lambda p) (ea_zeta p) (fun tau => cos_angle (line x wx tau) (line y wy tau)) c').
      * intros; apply cos_angle_bound.
      * apply cos_line_derive; auto.
      * cbv beta. rewrite !line_0. exact Hs.
    + apply exp_curve. apply is_derive_scal_R. apply is_derive_plus_R; [apply is_derive_plus_R|];
        apply shifted_square_curve; eauto.
    + apply is_derive_mult_R; [apply is_derive_mult_R|]; eapply cutoff_curve; eauto.
  - cbv beta. rewrite !line_0. reflexivity.
Qed.

Lemma dot_sub4 y x a b : dot (vsub y x) (vsub a b) = dot y a - dot y b - dot x a + dot x b.
Proof. unfold dot, vsub; simpl; ring. Qed.

Section Angn.
Variables (w : neighbor -> neighbor -> R) (factor : R) (p : ea_par) (nj nk : neighbor).
Hypothesis Hf : cutoff_setup (ea_fc p) (ea_rc p).
Hypothesis Hz : zeta_setup p.
Hypothesis Hj : wf_nb nj.
Hypothesis Hk : wf_nb nk.
Let x := nb_dr nj.
Let y := nb_dr nk.
Hypothesis Hx : x <> vzero.
Hypothesis Hy : y <> vzero.
Let fd (n : neighbor) := cf_fdf (ea_fc p) (nb_d n).

Lemma code_cos : dot x y * (1 / nb_d nj / nb_d nk) = cos_angle x y.
Proof.
  rewrite Hj, Hk. fold x y. unfold cos_angle. pose proof (norm_pos x Hx). pose proof (norm_pos y Hy). field. lra.
Qed.

Lemma angn_value : exists P, angn_pair w factor p nj nk (fd nj) (fd nk) = Some (w nj nk * angular_gauss_narrow p x y, P).
Proof.
  unfold angn_pair, fd. rewrite !(cutoff_fdf _ _ _ Hf). fold x y.
  eexists. f_equal. f_equal. rewrite clipped_fg by exact Hz. rewrite code_cos.
  rewrite Hj, Hk. fold x y. unfold angular_gauss_narrow. rewrite (norm_vsub_sym x y). fold (norm (vsub y x)).
  cbv zeta.
  replace ((norm x - ea_rs p) * (norm x - ea_rs p) + (norm y - ea_rs p) * (norm y - ea_rs p) +
     (norm (vsub y x) - ea_rs p) * (norm (vsub y x) - ea_rs p)) with
    ((norm x - ea_rs p) ^ 2 + (norm y - ea_rs p) ^ 2 + (norm (vsub y x) - ea_rs p) ^ 2) by ring.
  ring.
Qed.

Lemma angn_derivative wj wk : not_hard (ea_fc p) -> x <> y -> smooth_power p x y ->
  forall v p1 p2 p3, angn_pair w factor p nj nk (fd nj) (fd nk) = Some (v, (p1, p2, p3)) ->
  exists d, is_derive (fun tau => angular_gauss_narrow p (line x wj tau) (line y wk tau)) 0 d /\
    factor * Rpower 2 (1 - ea_zeta p) * (w nj nk * d)
    = p1 * dot x wj + p2 * dot y wk + p3 * dot (vsub y x) (vsub wj wk).
Proof.
  intros Hh Hxy Hs v p1 p2 p3. unfold angn_pair, fd. rewrite !(cutoff_fdf _ _ _ Hf). fold x y.
  rewrite code_cos. rewrite Hj, Hk. fold x y. fold (norm (vsub y x)).
  intros E. injection E as _ E1 E2 E3.
  eexists. split; [apply narrow_curve; auto|].
  rewrite <- E1, <- E2, <- E3. clear E1 E2 E3.
  rewrite (norm_vsub_sym x y).
  replace ((norm x - ea_rs p) * (norm x - ea_rs p) + (norm y - ea_rs p) * (norm y - ea_rs p) +
     (norm (vsub y x) - ea_rs p) * (norm (vsub y x) - ea_rs p)) with
    ((norm x - ea_rs p) ^ 2 + (norm y - ea_rs p) ^ 2 + (norm (vsub y x) - ea_rs p) ^ 2) by ring.
  rewrite !dot_sub4. rewrite (dot_comm wj y).
  set (pl := 1 + ea_lambda p * cos_angle x y).
  set (EE := exp _).
  assert (H1 := clipped_fg p pl (w nj nk * EE) Hz).
  assert (H2 := clipped_dfg p pl (w nj nk * EE) Hz).
  set (fg := if leR pl 0 then 0 else _) in *.
  set (C := clipped_power pl (ea_zeta p)) in *. set (dC := clipped_dpower pl (ea_zeta p)) in *.
  pose proof (norm_pos x Hx) as Px. pose proof (norm_pos y Hy) as Py.
  pose proof (norm_pos _ (vsub_nonzero x y Hxy)) as Pz.
  set (a := norm x) in *. set (b := norm y) in *. set (z := norm (vsub y x)) in *.
  set (fa := cf_f (ea_fc p) a). set (fb := cf_f (ea_fc p) b). set (fz := cf_f (ea_fc p) z).
  set (ga := cf_df (ea_fc p) a). set (gb := cf_df (ea_fc p) b). set (gz := cf_df (ea_fc p) z).
  generalize (dot x wj) (dot x wk) (dot y wj) (dot y wk). intros xx xy yx yy.
  set (pn := Rpower 2 (1 - ea_zeta p)).
  set (c' := (yx + xy) / (a * b) - cos_angle x y * (xx / (a * a) + yy / (b * b))).
  transitivity (factor * pn * ((w nj nk * EE * dC) * (ea_lambda p * c') * (fa * fb * fz)
     + (w nj nk * EE * C) * (- ea_eta p * (2 * (a - ea_rs p) * (xx / a) + 2 * (b - ea_rs p) * (yy / b)
          + 2 * (z - ea_rs p) * ((xx - xy - yx + yy) / z)) * (fa * fb * fz)
        + ((ga * (xx / a) * fb + fa * (gb * (yy / b))) * fz + fa * fb * (gz * ((xx - xy - yx + yy) / z)))))).
  { ring. }
  rewrite <- H1, <- H2. unfold c'. field. lra.
Qed.
End Angn.

Lemma narrow_sym_ok p x y : 0 < ea_rc p ->
  ltR (norm2 (vsub y x)) (ea_rc p * ea_rc p) = ltR (norm (vsub y x)) (ea_rc p).
Proof.
  intros H. pose proof (norm_nonneg (vsub y x)). rewrite <- norm_sq.
  destruct (ltR (norm (vsub y x)) (ea_rc p)) eqn:E.
  - apply ltR_true in E. apply ltR_true. nra.
  - apply ltR_false in E. apply ltR_false. nra.
Qed.

(** Outside the cutoff the narrow (wide) term and its derivative vanish. *)
Lemma narrow_zero p x y : cutoff_setup (ea_fc p) (ea_rc p) ->
  ea_rc p <= norm x \/ ea_rc p <= norm y \/ ea_rc p <= norm (vsub y x) -> angular_gauss_narrow p x y = 0.
Proof.
  intros Hf H. unfold angular_gauss_narrow. cbv zeta. rewrite (norm_vsub_sym x y).
  destruct H as [H|[H|H]]; rewrite (proj1 (cutoff_out _ _ _ Hf H)); ring.
Qed.
Lemma narrow_zero_derive p x wx y wy (d : R) : cutoff_setup (ea_fc p) (ea_rc p) -> not_hard (ea_fc p) ->
  x <> vzero -> y <> vzero -> x <> y -> smooth_power p x y ->
  ea_rc p <= norm x \/ ea_rc p <= norm y \/ ea_rc p <= norm (vsub y x) ->
  is_derive (fun tau => angular_gauss_narrow p (line x wx tau) (line y wy tau)) 0 d -> d = 0.
Proof.
  intros Hf Hh Hx Hy Hxy Hs H Hd. assert (D := narrow_curve p x wx y wy Hf Hh Hx Hy Hxy Hs). cbv zeta in D.
  rewrite <- (is_derive_unique _ _ _ Hd), (is_derive_unique _ _ _ D). rewrite (norm_vsub_sym x y).
  destruct H as [H|[H|H]]; rewrite (proj1 (cutoff_out _ _ _ Hf H)), (proj2 (cutoff_out _ _ _ Hf H)); ring.
Qed.
Lemma wide_zero p x y : cutoff_setup (ea_fc p) (ea_rc p) ->
  ea_rc p <= norm x \/ ea_rc p <= norm y -> angular_gauss_wide p x y = 0.
Proof.
  intros Hf H. unfold angular_gauss_wide.
  destruct H as [H|H]; rewrite (proj1 (cutoff_out _ _ _ Hf H)); ring.
Qed.
Lemma wide_zero_derive p x wx y wy (d : R) : cutoff_setup (ea_fc p) (ea_rc p) -> not_hard (ea_fc p) ->
  x <> vzero -> y <> vzero -> smooth_power p x y ->
  ea_rc p <= norm x \/ ea_rc p <= norm y ->
  is_derive (fun tau => angular_gauss_wide p (line x wx tau) (line y wy tau)) 0 d -> d = 0.
Proof.
  intros Hf Hh Hx Hy Hs H Hd. assert (D := wide_curve p x wx y wy Hf Hh Hx Hy Hs). cbv zeta in D.
  rewrite <- (is_derive_unique _ _ _ Hd), (is_derive_unique _ _ _ D).
  destruct H as [H|H]; rewrite (proj1 (cutoff_out _ _ _ Hf H)), (proj2 (cutoff_out _ _ _ Hf H)); ring.
Qed.

Lemma pairs_match_spec e1 e2 ej ek : pairs_match e1 e2 ej ek =
  ((Nat.eqb ej e1 && Nat.eqb ek e2) || (Nat.eqb ej e2 && Nat.eqb ek e1))%bool.
Proof. unfold pairs_match. now rewrite (Nat.eqb_sym e1 ej), (Nat.eqb_sym e2 ek), (Nat.eqb_sym e2 ej), (Nat.eqb_sym e1 ek). Qed.
Lemma pairs_match_one e1 e2 ej ek : pairs_match e1 e2 ej ek = true -> one_of e1 e2 ej = true.
Proof. unfold pairs_match, one_of. destruct (Nat.eqb e1 ej), (Nat.eqb e2 ej); simpl; auto. Qed.
Lemma pairs_match_other e1 e2 ej ek : pairs_match e1 e2 ej ek = true ->
  (Nat.eqb ek e1 || Nat.eqb ek e2)%bool = true.
Proof.
  rewrite pairs_match_spec. destruct (Nat.eqb ek e1), (Nat.eqb ek e2); simpl; auto.
  now rewrite !andb_false_r.
Qed.
Lemma one_of_dep e1 e2 e : one_of e1 e2 e = (Nat.eqb e e1 || Nat.eqb e e2)%bool.
Proof. unfold one_of. now rewrite (Nat.eqb_sym e1), (Nat.eqb_sym e2). Qed.
