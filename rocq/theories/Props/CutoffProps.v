(** Properties C01-C04: cutoff, core, compact and screening functions. *)
From Coq Require Import Reals Lra List.
From Coquelicot Require Import Coquelicot.
From Verif Require Import Model.CoreFunction Model.CutoffFunction Model.CompactScreening
  Spec.CutoffSpec Spec.CompactSpec
  Proofs.CoreProofs Proofs.CutoffProofs Proofs.CompactProofs.
Import ListNotations.
Local Open Scope R_scope.

(** ** C01 *)

(** Every admissible configuration is accepted, so the theorems below are not
    vacuous. *)
Theorem C01_configuration_accepted : forall t rc alpha,
  0 <= alpha < 1 -> exists c, cf_configure t rc alpha = Some c.
Proof. exact configure_some. Qed.
Print Assumptions C01_configuration_accepted.

Theorem C01_cutoff_zero_outside : forall t rc alpha c, 0 < rc ->
  cf_configure t rc alpha = Some c ->
  forall r, rc <= r -> cf_f c r = 0 /\ cf_df c r = 0.
Proof. exact (fun t rc alpha c _ => cf_outside t rc alpha c). Qed.
Print Assumptions C01_cutoff_zero_outside.

Theorem C01_cutoff_range : forall t rc alpha c, 0 < rc ->
  cf_configure t rc alpha = Some c ->
  forall r, 0 <= r -> 0 <= cf_f c r <= 1.
Proof. exact cf_range. Qed.
Print Assumptions C01_cutoff_range.

Theorem C01_cutoff_positive_inside : forall t rc alpha c, 0 < rc ->
  cf_configure t rc alpha = Some c ->
  forall r, 0 <= r < rc -> 0 < cf_f c r.
Proof. exact cf_positive_inside. Qed.
Print Assumptions C01_cutoff_positive_inside.

Theorem C01_cutoff_plateau : forall t rc alpha c, 0 < rc ->
  cf_configure t rc alpha = Some c ->
  plateau_kind t ->
  forall r, r <= rc * alpha -> cf_f c r = 1 /\ cf_df c r = 0.
Proof. exact (fun t rc alpha c H1 H2 Hp r => cf_plateau t rc alpha c H1 H2 r Hp). Qed.
Print Assumptions C01_cutoff_plateau.

(** At distance 0 every type except the unnormalised tanh cutoff is 1. *)
Theorem C01_cutoff_at_zero : forall t rc alpha c, 0 < rc ->
  cf_configure t rc alpha = Some c ->
  (t <> CT_TANHU -> cf_f c 0 = 1) /\ (t = CT_TANHU -> cf_f c 0 = (tanh 1)^3).
Proof. exact cf_at_0. Qed.
Print Assumptions C01_cutoff_at_zero.

Theorem C01_cutoff_nonincreasing : forall t rc alpha c, 0 < rc ->
  cf_configure t rc alpha = Some c ->
  forall r s, 0 <= r -> r <= s -> cf_f c s <= cf_f c r.
Proof. exact cf_monotone. Qed.
Print Assumptions C01_cutoff_nonincreasing.

Example C01_nonvacuous : exists c, cf_configure CT_POLY2 6 (1/4) = Some c /\
  plateau_kind CT_POLY2 /\ cf_f c 1 = 1 /\ cf_f c 7 = 0.
Proof.
  destruct (configure_some CT_POLY2 6 (1/4) ltac:(lra)) as [c Hc].
  exists c. split; [exact Hc|]. split; [exact I|]. split.
  - apply (C01_cutoff_plateau CT_POLY2 6 (1/4) c); auto; try lra. exact I.
  - apply (C01_cutoff_zero_outside CT_POLY2 6 (1/4) c); auto; lra.
Qed.

(** ** C02 *)

Theorem C02_cutoff_derivative : forall t rc alpha c, 0 < rc ->
  cf_configure t rc alpha = Some c ->
  forall r, (t = CT_HARD -> r <> rc) -> is_derive (cf_f c) r (cf_df c r).
Proof. exact cf_f_derive. Qed.
Print Assumptions C02_cutoff_derivative.

Theorem C02_cutoff_fused : forall t rc alpha c, 0 < rc ->
  cf_configure t rc alpha = Some c ->
  forall r, cf_fdf c r = (cf_f c r, cf_df c r).
Proof. exact cf_fdf_eq. Qed.
Print Assumptions C02_cutoff_fused.

Example C02_nonvacuous : exists c, cf_configure CT_COS 6 (1/4) = Some c /\
  is_derive (cf_f c) 6 0 /\ is_derive (cf_f c) (6 * (1/4)) 0.
Proof.
  destruct (configure_some CT_COS 6 (1/4) ltac:(lra)) as [c Hc].
  exists c. split; [exact Hc|]. split.
  - evar_last. apply (C02_cutoff_derivative CT_COS 6 (1/4) c); auto; [lra | discriminate].
    apply (C01_cutoff_zero_outside CT_COS 6 (1/4) c); auto; lra.
  - evar_last. apply (C02_cutoff_derivative CT_COS 6 (1/4) c); auto; [lra | discriminate].
    apply (C01_cutoff_plateau CT_COS 6 (1/4) c); auto; try lra. exact I.
Qed.

(** ** C03 *)

(** Whatever was called before, once a valid parameter is set after the last
    radius change, the object behaves exactly like a freshly configured one. *)
Theorem C03_setters_partial : forall pre a post, 0 <= a < 1 ->
  (forall o, In o post -> ~ is_radius o) ->
  (forall o, In o post -> ~ is_param o) ->
  let c := cf_run (pre ++ OpParam a :: post) in
  0 < cf_rc c ->
  exists c', cf_configure (cf_type c) (cf_rc c) a = Some c' /\
  forall r, cf_f c r = cf_f c' r /\ cf_df c r = cf_df c' r /\ cf_fdf c r = cf_fdf c' r.
Proof. exact cf_run_configure. Qed.
Print Assumptions C03_setters_partial.

Example C03_nonvacuous :
  let pre := [OpParam (1/3); OpRadius 1; OpRadius 5] in
  let post := [OpType CT_EXP] in
  cf_rc (cf_run (pre ++ OpParam (1/2) :: post)) = 5 /\
  cf_type (cf_run (pre ++ OpParam (1/2) :: post)) = CT_EXP /\
  (forall o, In o post -> ~ is_radius o) /\ (forall o, In o post -> ~ is_param o).
Proof.
  cbv zeta. unfold cf_run. cbn [fold_left app cf_step]. unfold cf_setCutoffParameter.
  repeat (match goal with |- context [Rlt_dec ?a ?b] => destruct (Rlt_dec a b); [lra|] end).
  repeat (match goal with |- context [Rge_dec ?a ?b] => destruct (Rge_dec a b); [lra|] end).
  repeat split; intros o [<- | []]; exact (fun f => f).
Qed.

(** The full claim is false: enlarging the radius after setting the parameter
    leaves the inner radius and width stale; here the cosine cutoff with radius
    2 has value 1 at 3/2 instead of 1/2. *)
Theorem C03_setter_order_refuted : exists l1 l2 r,
  l1 = [OpType CT_COS; OpRadius 2; OpParam (1/2)] /\
  l2 = [OpType CT_COS; OpRadius 1; OpParam (1/2); OpRadius 2] /\
  0 <= r < 2 /\
  cf_f (cf_run l1) r = 1/2 /\ cf_f (cf_run l2) r = 1.
Proof. exact cf_order_matters. Qed.
Print Assumptions C03_setter_order_refuted.

(** ** C04 *)

Theorem C04_core_values : forall c,
  core_f c 0 = 1 /\ core_df c 0 = 0 /\ (core_type c <> CK_EXP -> core_f c 1 = 0).
Proof. exact (fun c => conj (core_f_at_0 c) (conj (core_df_at_0 c) (core_f_at_1 c))). Qed.
Print Assumptions C04_core_values.

(** All core functions (also the exponential one, which is only defined below
    1) approach 0 at least quadratically at the right end. *)
Theorem C04_core_range_and_decay : forall c, exists C, 0 <= C /\
  forall x, 0 <= x < 1 -> 0 <= core_f c x <= C * (1 - x)^2.
Proof. exact core_f_quadratic. Qed.
Print Assumptions C04_core_range_and_decay.

Theorem C04_core_le_one : forall c x, 0 <= x < 1 -> core_f c x <= 1.
Proof. exact core_f_le_1. Qed.
Print Assumptions C04_core_le_one.

Theorem C04_core_derivative : forall c x, 0 <= x < 1 ->
  is_derive (core_f c) x (core_df c x) /\ core_fdf c x = (core_f c x, core_df c x) /\
  core_df c x <= 0.
Proof.
  exact (fun c x H => conj (core_df_derive c x ltac:(lra))
          (conj (core_fdf_eq c x ltac:(lra)) (core_df_nonpos c x H))).
Qed.
Print Assumptions C04_core_derivative.

(** The polynomial POLYk has slope proportional to x^k (1-x)^k: together with
    the end point values this is the unique polynomial of degree 2k+1 with k
    vanishing derivatives at both ends. *)
Theorem C04_core_polynomial_shape : forall k n,
  (k = CK_POLY1 /\ n = 1%nat) \/ (k = CK_POLY2 /\ n = 2%nat) \/
  (k = CK_POLY3 /\ n = 3%nat) \/ (k = CK_POLY4 /\ n = 4%nat) ->
  exists c, 0 < c /\ forall x, core_df (core_config k false) x = - c * x ^ n * (1 - x) ^ n.
Proof. exact core_poly_shape. Qed.
Print Assumptions C04_core_polynomial_shape.

Theorem C04_compact_value : forall k asym l r c,
  compact_config k asym l r = Some c ->
  cp_f c ((l + r) / 2) = 1 /\
  (forall h, cp_f c ((l + r) / 2 - h) = cp_f c ((l + r) / 2 + h)) /\
  (forall a, l < a < r -> 0 <= cp_f c a <= 1).
Proof.
  exact (fun k asym l r c H => conj (compact_center k asym l r c H)
    (conj (compact_symmetric k asym l r c H) (compact_range k asym l r c H))).
Qed.
Print Assumptions C04_compact_value.

(** Cut to its support, the compact function is differentiable on the whole
    line, and the fused call returns value and derivative. *)
Theorem C04_compact_fused_derivative : forall k asym l r c,
  compact_config k asym l r = Some c ->
  (forall a, is_derive (on_support l r (cp_f c)) a
                       (on_support l r (fun x => snd (cp_fdf c x)) a)) /\
  (forall a, l < a < r -> fst (cp_fdf c a) = cp_f c a).
Proof.
  exact (fun k asym l r c H => conj (compact_fdf_derive k asym l r c H)
                                    (compact_fdf_fst k asym l r c H)).
Qed.
Print Assumptions C04_compact_fused_derivative.

(** The separate derivative function has the wrong sign everywhere. *)
Theorem C04_compact_df_sign : forall k asym l r c,
  compact_config k asym l r = Some c ->
  forall a, l < a < r -> cp_df c a = - snd (cp_fdf c a).
Proof. exact compact_df_wrong. Qed.
Print Assumptions C04_compact_df_sign.

Theorem C04_compact_df_refuted : exists c a,
  compact_config CK_POLY1 false 0 2 = Some c /\ 0 < a < 2 /\
  ~ is_derive (cp_f c) a (cp_df c a).
Proof. exact compact_df_refuted. Qed.
Print Assumptions C04_compact_df_refuted.

Theorem C04_screening : forall k a b s,
  screening_config k a b = Some s ->
  (forall r, r <= a -> sc_f s r = 0) /\
  (forall r, b <= r -> sc_f s r = 1) /\
  (forall r, 0 <= sc_f s r <= 1) /\
  (forall x y, x <= y -> sc_f s x <= sc_f s y) /\
  (forall r, is_derive (sc_f s) r (sc_df s r)) /\
  (forall r, sc_fdf s r = (sc_f s r, sc_df s r)).
Proof.
  exact (fun k a b s H => conj (screening_inner k a b s H) (conj (screening_outer k a b s H)
   (conj (screening_range k a b s H) (conj (screening_monotone k a b s H)
   (conj (screening_derive k a b s H) (screening_fdf k a b s H)))))).
Qed.
Print Assumptions C04_screening.

Theorem C04_screening_units : forall k a b s,
  screening_config k a b = Some s ->
  forall conv r, 0 < conv -> sc_f (sc_changeLengthUnits conv s) (r * conv) = sc_f s r.
Proof. exact screening_units. Qed.
Print Assumptions C04_screening_units.

Example C04_nonvacuous :
  (exists c, compact_config CK_EXP true 1 3 = Some c) /\
  (exists s, screening_config CK_COS 2 5 = Some s).
Proof.
  split.
  - unfold compact_config, cp_setLeftRight. destruct (Rge_dec 1 3); [lra|]. eexists; reflexivity.
  - unfold screening_config, sc_setInnerOuter. destruct (Rge_dec 2 5); [lra|]. eexists; reflexivity.
Qed.
