(** General facts about real functions used by the analytic proofs. *)
From Coq Require Import Reals Lra.
From Coquelicot Require Import Coquelicot.
Local Open Scope R_scope.

Lemma is_derive_glue (f g h : R -> R) (x0 l : R) :
  (forall x, x < x0 -> f x = g x) ->
  (forall x, x0 < x -> f x = h x) ->
  f x0 = g x0 -> f x0 = h x0 ->
  is_derive g x0 l -> is_derive h x0 l -> is_derive f x0 l.
Proof.
  intros Hg Hh Eg Eh Dg Dh.
  apply is_derive_Reals in Dg. apply is_derive_Reals in Dh.
  apply is_derive_Reals. intros eps Heps.
  destruct (Dg eps Heps) as [d1 H1]. destruct (Dh eps Heps) as [d2 H2].
  assert (Hd : 0 < Rmin d1 d2) by (apply Rmin_pos; [apply d1 | apply d2]).
  exists (mkposreal _ Hd). simpl. intros k Hk Hkd.
  destruct (Rtotal_order k 0) as [Hn | [Hz | Hp]].
  - rewrite Hg by lra. rewrite Eg. apply H1; auto.
    apply Rlt_le_trans with (1 := Hkd). apply Rmin_l.
  - contradiction.
  - rewrite Hh by lra. rewrite Eh. apply H2; auto.
    apply Rlt_le_trans with (1 := Hkd). apply Rmin_r.
Qed.

(** Same, but [f] only has to agree with [g], [h] close to [x0]. *)
Lemma is_derive_glue_loc (f g h : R -> R) (x0 l : R) (d : R) :
  0 < d ->
  (forall x, x0 - d < x < x0 -> f x = g x) ->
  (forall x, x0 < x < x0 + d -> f x = h x) ->
  f x0 = g x0 -> f x0 = h x0 ->
  is_derive g x0 l -> is_derive h x0 l -> is_derive f x0 l.
Proof.
  intros Hd Hg Hh Eg Eh Dg Dh.
  apply is_derive_Reals in Dg. apply is_derive_Reals in Dh.
  apply is_derive_Reals. intros eps Heps.
  destruct (Dg eps Heps) as [d1 H1]. destruct (Dh eps Heps) as [d2 H2].
  assert (Hd' : 0 < Rmin d (Rmin d1 d2)).
  { apply Rmin_pos; auto. apply Rmin_pos; [apply d1 | apply d2]. }
  exists (mkposreal _ Hd'). simpl. intros k Hk Hkd.
  assert (A1 := Rmin_l d (Rmin d1 d2)). assert (A2 := Rmin_r d (Rmin d1 d2)).
  assert (A3 := Rmin_l d1 d2). assert (A4 := Rmin_r d1 d2).
  assert (A5 := Rle_abs k). assert (A6 := Rle_abs (-k)). rewrite Rabs_Ropp in A6.
  destruct (Rtotal_order k 0) as [Hn | [Hz | Hp]].
  - rewrite Hg by lra. rewrite Eg. apply H1; auto. lra.
  - contradiction.
  - rewrite Hh by lra. rewrite Eh. apply H2; auto. lra.
Qed.

(** A function dominated by a parabola near [x0] has derivative 0 there. *)
Lemma is_derive_quadratic (f : R -> R) (x0 C d : R) :
  0 < d -> 0 <= C -> f x0 = 0 ->
  (forall x, Rabs (x - x0) < d -> Rabs (f x) <= C * (x - x0)^2) ->
  is_derive f x0 0.
Proof.
  intros Hd HC H0 Hb. apply is_derive_Reals. intros eps Heps.
  assert (Hp : 0 < Rmin d (eps / (C + 1))).
  { apply Rmin_pos; auto. apply Rdiv_lt_0_compat; lra. }
  exists (mkposreal _ Hp). simpl. intros k Hk Hkd.
  assert (B1 := Rmin_l d (eps / (C + 1))). assert (B2 := Rmin_r d (eps / (C + 1))).
  rewrite H0, !Rminus_0_r.
  assert (Hk0 : 0 < Rabs k) by (apply Rabs_pos_lt; auto).
  unfold Rdiv. rewrite Rabs_mult, Rabs_inv.
  apply Rmult_lt_reg_r with (Rabs k); auto.
  rewrite Rmult_assoc, Rinv_l by lra. rewrite Rmult_1_r.
  assert (Hq : Rabs (f (x0 + k)) <= C * (x0 + k - x0)^2).
  { apply Hb. replace (x0 + k - x0) with k by ring. lra. }
  replace (x0 + k - x0) with k in Hq by ring.
  rewrite <- (pow2_abs k) in Hq.
  apply Rle_lt_trans with (1 := Hq).
  replace (C * Rabs k ^ 2) with (C * Rabs k * Rabs k) by ring.
  apply Rmult_lt_compat_r; auto.
  assert (Rabs k < eps / (C + 1)) by lra.
  apply Rle_lt_trans with ((C + 1) * Rabs k); [nra |].
  apply Rmult_lt_reg_l with (/ (C + 1)). apply Rinv_0_lt_compat; lra.
  rewrite <- Rmult_assoc, Rinv_l by lra. unfold Rdiv in H. lra.
Qed.

Lemma is_derive_ext_right_loc (f g : R -> R) (x l d : R) :
  0 < d -> (forall y, x - d < y < x + d -> f y = g y) ->
  is_derive g x l -> is_derive f x l.
Proof.
  intros Hd He Hg. apply is_derive_ext_loc with g; auto.
  exists (mkposreal d Hd). simpl. intros y Hy. symmetry. apply He.
  unfold ball in Hy; simpl in Hy. unfold AbsRing_ball, abs, minus, plus, opp in Hy; simpl in Hy.
  apply Rabs_def2 in Hy. lra.
Qed.

(** Non-positive derivative on an interval implies non-increasing. *)
Lemma decreasing_of_derive (f df : R -> R) (a b : R) :
  (forall x, a <= x <= b -> is_derive f x (df x)) ->
  (forall x, a <= x <= b -> df x <= 0) ->
  forall x y, a <= x -> x <= y -> y <= b -> f y <= f x.
Proof.
  intros HD Hs x y Hx Hxy Hy.
  destruct (MVT_gen f x y df) as [c [Hc He]].
  - intros z Hz. rewrite Rmin_left, Rmax_right in Hz by lra. apply HD; lra.
  - intros z Hz. rewrite Rmin_left, Rmax_right in Hz by lra.
    apply continuity_pt_filterlim. apply (ex_derive_continuous f). eexists. apply HD; lra.
  - rewrite Rmin_left, Rmax_right in Hc by lra.
    assert (df c <= 0) by (apply Hs; lra). nra.
Qed.

Lemma is_derive_tanh (x : R) : is_derive tanh x (1 - tanh x * tanh x).
Proof.
  assert (Hc : 0 < cosh x) by (unfold cosh; assert (A := exp_pos x); assert (B := exp_pos (-x)); lra).
  unfold tanh. replace (1 - sinh x / cosh x * (sinh x / cosh x))
    with ((cosh x * cosh x - sinh x * sinh x) / (cosh x)^2) by (field; lra).
  apply is_derive_div; [| | lra].
  - apply is_derive_Reals. apply derivable_pt_lim_sinh.
  - apply is_derive_Reals. apply derivable_pt_lim_cosh.
Qed.

Lemma tanh_bounds (x : R) : -1 < tanh x < 1.
Proof.
  unfold tanh, sinh, cosh. assert (A := exp_pos x). assert (B := exp_pos (-x)).
  split.
  - apply Rmult_lt_reg_r with ((exp x + exp (-x)) / 2); [lra|].
    unfold Rdiv at 2. rewrite Rmult_assoc, Rinv_l by lra. lra.
  - apply Rmult_lt_reg_r with ((exp x + exp (-x)) / 2); [lra|].
    unfold Rdiv at 1. rewrite Rmult_assoc, Rinv_l by lra. lra.
Qed.

Lemma tanh_increasing (x y : R) : x <= y -> tanh x <= tanh y.
Proof.
  intros Hxy. assert (H := decreasing_of_derive (fun t => - tanh t) (fun t => - (1 - tanh t * tanh t)) x y).
  assert (- tanh y <= - tanh x); [| lra].
  apply H; try lra.
  - intros z _. apply (is_derive_opp tanh z (1 - tanh z * tanh z)). apply is_derive_tanh.
  - intros z _. assert (B := tanh_bounds z). nra.
Qed.

Lemma tanh_zero : tanh 0 = 0.
Proof. unfold tanh, sinh. rewrite Ropp_0. field. unfold cosh. rewrite Ropp_0, exp_0. lra. Qed.

Lemma tanh_nonneg (x : R) : 0 <= x -> 0 <= tanh x.
Proof. intros. rewrite <- tanh_zero. apply tanh_increasing; auto. Qed.

Lemma four_atan_1 : 4 * atan 1 = PI.
Proof. rewrite atan_1. field. Qed.
