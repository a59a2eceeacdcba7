(** Proofs about changing the length unit of symmetry functions. *)
From Coq Require Import Reals Lra Lia ZArith Bool Arith Permutation.
From Coquelicot Require Import Coquelicot.
From Coq Require Import List.
From Verif Require Import Base.Vec3 Base.SumR Base.Loop Model.CoreFunction Model.CutoffFunction Model.CompactScreening
  Model.Strings Model.Scaling Model.NeighborList Model.SymFunctions Model.SymSetup
  Spec.CompactSpec Spec.SymSpec Spec.SetupSpec Proofs.CutoffProofs Proofs.CompactProofs Proofs.SymEval Proofs.SymGrad
  Proofs.SymAll Proofs.SymInv Proofs.SymApi.
Import ListNotations.
Local Open Scope R_scope.

Section Units.
Variable conv : R.
Hypothesis Hc : 0 < conv.

Lemma norm_conv x : norm (smul conv x) = conv * norm x.
Proof. rewrite norm_smul, Rabs_right; lra. Qed.
Lemma cos_conv x y : cos_angle (smul conv x) (smul conv y) = cos_angle x y.
Proof.
  unfold cos_angle. rewrite dot_smul_l, dot_comm, dot_smul_l, !norm_conv, dot_comm. unfold Rdiv.
  replace (conv * norm x * (conv * norm y)) with ((conv * conv) * (norm x * norm y)) by ring.
  rewrite Rinv_mult. generalize (/ (norm x * norm y)). intros w. field. lra.
Qed.
Lemma vsub_conv x y : vsub (smul conv x) (smul conv y) = smul conv (vsub x y).
Proof. vring. Qed.
Lemma smul_conv_zero x : x <> vzero -> smul conv x <> vzero.
Proof.
  intros H E. apply H. apply norm_zero_iff. apply norm_zero_iff in E. rewrite norm_conv in E. nra.
Qed.

Lemma scaled_lt x y : (conv * x < y * conv) <-> x < y.
Proof. split; nra. Qed.

Lemma cutoff_units fc rc : cutoff_setup fc rc -> exists fc', refresh_fc (rc * conv) fc = Some fc' /\
  cutoff_setup fc' (rc * conv) /\ cf_type fc' = cf_type fc /\ cf_alpha fc' = cf_alpha fc /\ forall r, cf_f fc' (conv * r) = cf_f fc r.
Proof.
  intros (Hr & t & al & E). destruct (configure_eq _ _ _ _ E) as (Ha & ->).
  assert (Hr' : 0 < rc * conv) by nra.
  exists (mkCF t (rc * conv) (1 / (rc * conv)) (rc * conv * al) al (1 / (rc * conv - rc * conv * al)) (core_of t)).
  split; [|split; [|split; [|split]]]; try reflexivity.
  - unfold refresh_fc, cf_setCutoffParameter, cf_setCutoffRadius. cbn.
    destruct (Rlt_dec al 0); [lra|]. destruct (Rge_dec al 1); [lra|]. reflexivity.
  - split; auto. exists t, al. destruct (configure_some t (rc * conv) al) as (c & C); auto.
    destruct (configure_eq _ _ _ _ C) as (_ & D). now rewrite C, D.
  - intros r. unfold cf_f. cbn [cf_rc].
    destruct (Rge_dec (conv * r) (rc * conv)), (Rge_dec r rc); try (exfalso; nra); auto.
    unfold cf_fPtr. cbn [cf_type cf_rci cf_iw cf_rcinv cf_core].
    assert (X : (conv * r - rc * conv * al) * (1 / (rc * conv - rc * conv * al)) = (r - rc * al) * (1 / (rc - rc * al))).
    { field. split; nra. }
    assert (Y : conv * r * (1 / (rc * conv)) = r * (1 / rc)) by (field; lra).
    rewrite X, Y.
    destruct t; auto; destruct (Rlt_dec (conv * r) (rc * conv * al)), (Rlt_dec r (rc * al)); auto; exfalso; nra.
Qed.

Lemma compact_units c l r : compact_setup c l r -> exists c', cp_setLeftRight (l * conv) (r * conv) c = Some c' /\
  compact_setup c' (l * conv) (r * conv) /\ cp_core c' = cp_core c /\ forall x, cp_f c' (conv * x) = cp_f c x.
Proof.
  intros (k & asym & E).
  unfold compact_config, cp_setLeftRight in E. destruct (Rge_dec l r) as [|Hlr]; [discriminate|].
  injection E as <-.
  assert (Hlr' : ~ l * conv >= r * conv) by nra.
  eexists. split; [|split; [|split]].
  - unfold cp_setLeftRight. destruct (Rge_dec (l * conv) (r * conv)); [contradiction|]. reflexivity.
  - exists k, asym. unfold compact_config, cp_setLeftRight. destruct (Rge_dec (l * conv) (r * conv)); [contradiction|].
    reflexivity.
  - reflexivity.
  - intros x. unfold cp_f. cbn [cp_center cp_scale cp_core cp_setAsymmetric cp_setCoreFunction]. f_equal. f_equal.
    field. split; nra.
Qed.

Lemma on_support_units c c' l r : (forall x, cp_f c' (conv * x) = cp_f c x) ->
  forall x, on_support (l * conv) (r * conv) (cp_f c') (conv * x) = on_support l r (cp_f c) x.
Proof.
  intros H x. unfold on_support. rewrite H.
  destruct (Rlt_dec (l * conv) (conv * x)), (Rlt_dec l x), (Rlt_dec (conv * x) (r * conv)), (Rlt_dec x r); auto; exfalso; nra.
Qed.

Definition scaled_nb (n : nat * vec) : nat * vec := (fst n, smul conv (snd n)).

Lemma radial_units (t t' : nat * vec -> R) e : (forall n, t' (scaled_nb n) = t n) ->
  radial_sum t' (scaled conv e) = radial_sum t e.
Proof. intros H. unfold radial_sum, scaled. rewrite map_map. f_equal. apply map_ext. exact H. Qed.
Lemma pair_units (t t' : nat * vec -> nat * vec -> R) e : (forall n m, t' (scaled_nb n) (scaled_nb m) = t n m) ->
  pair_sum t' (scaled conv e) = pair_sum t e.
Proof.
  intros H. unfold scaled. induction e as [|x r IH]; auto. cbn [map pair_sum]. rewrite IH. f_equal.
  rewrite map_map. f_equal. apply map_ext. intros m. apply H.
Qed.
Lemma only_units e v v' : (forall x, v' (smul conv x) = v x) -> forall n, only e v' (scaled_nb n) = only e v n.
Proof. intros H [i x]. unfold only, scaled_nb. cbn. now rewrite H. Qed.
Lemma weighted_units Z v v' : (forall x, v' (smul conv x) = v x) -> forall n, weighted Z v' (scaled_nb n) = weighted Z v n.
Proof. intros H [i x]. unfold weighted, scaled_nb. cbn. now rewrite H. Qed.
Lemma only_pair_units e1 e2 v v' : (forall x y, v' (smul conv x) (smul conv y) = v x y) ->
  forall n m, only_pair e1 e2 v' (scaled_nb n) (scaled_nb m) = only_pair e1 e2 v n m.
Proof. intros H [i x] [j y]. unfold only_pair, scaled_nb. cbn. now rewrite H. Qed.
Lemma weighted_pair_units Z v v' : (forall x y, v' (smul conv x) (smul conv y) = v x y) ->
  forall n m, weighted_pair Z v' (scaled_nb n) (scaled_nb m) = weighted_pair Z v n m.
Proof. intros H [i x] [j y]. unfold weighted_pair, scaled_nb. cbn. now rewrite H. Qed.

Lemma in_scaled (P : vec -> Prop) e : (forall n, In n e -> P (snd (scaled_nb n))) -> forall n, In n (scaled conv e) -> P (snd n).
Proof. intros H n Hn. apply in_map_iff in Hn. destruct Hn as (m & <- & Hm). exact (H m Hm). Qed.
Lemma on_pairs_scaled (P Q : vec -> vec -> Prop) e : on_pairs P e -> (forall x y, P x y -> Q (smul conv x) (smul conv y)) ->
  on_pairs Q (scaled conv e).
Proof.
  intros H HQ j k n m Hjk Hj Hk. unfold scaled in Hj, Hk. rewrite nth_error_map in Hj, Hk.
  destruct (nth_error e j) as [n0|] eqn:Ej; [|discriminate]. destruct (nth_error e k) as [m0|] eqn:Ek; [|discriminate].
  injection Hj as <-. injection Hk as <-. cbn [snd]. apply HQ. exact (H j k n0 m0 Hjk Ej Ek).
Qed.

(** What a change of unit establishes. *)
Definition rescaled (k k' : kind) : Prop :=
  admissible k' /\ (forall e, depends k' e = depends k e) /\
  (forall Z e, sf_value Z k' (scaled conv e) = sf_value Z k e) /\
  (forall e, evaluable k e -> evaluable k' (scaled conv e)) /\
  (forall e, smooth_at k e -> smooth_at k' (scaled conv e)).

Lemma smul_inj x y : x <> y -> smul conv x <> smul conv y.
Proof.
  intros H E. apply H. destruct x as [a b c], y as [a' b' c']. unfold smul in E. cbn in E. injection E as X Y W.
  f_equal; nra.
Qed.


Lemma nonzero_scaled e : (forall n : nat * vec, In n e -> snd n <> vzero) -> forall n, In n (scaled conv e) -> snd n <> vzero.
Proof. intros He. apply (in_scaled (fun x => x <> vzero)). intros n Hn. apply smul_conv_zero, (He n Hn). Qed.

Lemma er_units p : cutoff_setup (er_fc p) (er_rc p) -> exists p', er_changeLengthUnit conv p = Some p' /\
  cutoff_setup (er_fc p') (er_rc p') /\ er_e1 p' = er_e1 p /\ cf_type (er_fc p') = cf_type (er_fc p) /\
  forall r, radial_gauss p' (conv * r) = radial_gauss p r.
Proof.
  intros A. destruct (cutoff_units _ _ A) as (fc' & E & S & T & AL & F).
  exists (mkER (er_e1 p) (er_eta p / (conv * conv)) (er_rs p * conv) (er_rc p * conv) fc').
  split; [|split; [|split; [|split]]]; auto.
  - unfold er_changeLengthUnit. cbv zeta. now rewrite E.
  - intros r. unfold radial_gauss. cbn [er_eta er_rs er_fc]. rewrite F. f_equal. f_equal. field. lra.
Qed.
Lemma ea_units p : cutoff_setup (ea_fc p) (ea_rc p) -> exists p', ea_changeLengthUnit conv p = Some p' /\
  cutoff_setup (ea_fc p') (ea_rc p') /\ ea_e1 p' = ea_e1 p /\ ea_e2 p' = ea_e2 p /\ cf_type (ea_fc p') = cf_type (ea_fc p) /\
  ea_lambda p' = ea_lambda p /\ ea_zeta p' = ea_zeta p /\ ea_zetaInt p' = ea_zetaInt p /\ ea_useIntegerPow p' = ea_useIntegerPow p /\
  (forall x y, angular_gauss_wide p' (smul conv x) (smul conv y) = angular_gauss_wide p x y) /\
  (forall x y, angular_gauss_narrow p' (smul conv x) (smul conv y) = angular_gauss_narrow p x y).
Proof.
  intros A. destruct (cutoff_units _ _ A) as (fc' & E & S & T & AL & F).
  exists (mkEA (ea_e1 p) (ea_e2 p) (ea_eta p / (conv * conv)) (ea_rs p * conv) (ea_lambda p) (ea_zeta p)
                          (ea_zetaInt p) (ea_useIntegerPow p) (ea_rc p * conv) fc').
  split. { unfold ea_changeLengthUnit. cbv zeta. now rewrite E. }
  do 8 (split; [auto|]).
  split; intros x y; unfold angular_gauss_wide, angular_gauss_narrow; cbv zeta; cbn [ea_lambda ea_zeta ea_eta ea_rs ea_fc];
    rewrite cos_conv, ?vsub_conv, !norm_conv, !F; f_equal; f_equal; f_equal; field; lra.
Qed.
Lemma cr_units p : compact_setup (cr_c p) (cr_rl p) (cr_rc p) -> exists p', cr_changeLengthUnit conv p = Some p' /\
  compact_setup (cr_c p') (cr_rl p') (cr_rc p') /\ cr_e1 p' = cr_e1 p /\
  forall r, radial_compact p' (conv * r) = radial_compact p r.
Proof.
  intros A. destruct (compact_units _ _ _ A) as (c' & E & S & T & F).
  exists (mkCR (cr_e1 p) (cr_rl p * conv) (cr_rc p * conv) c').
  split; [|split; [|split]]; auto.
  - unfold cr_changeLengthUnit. cbv zeta. now rewrite E.
  - intros r. unfold radial_compact. cbn [cr_rl cr_rc cr_c]. now apply on_support_units.
Qed.
Lemma ca_units p : compact_setup (ca_c p) (ca_rl p) (ca_rc p) -> exists p', ca_changeLengthUnit conv p = Some p' /\
  compact_setup (ca_c p') (ca_rl p') (ca_rc p') /\ ca_e1 p' = ca_e1 p /\ ca_e2 p' = ca_e2 p /\
  ca_a p' = ca_a p /\ ca_left p' = ca_left p /\ ca_right p' = ca_right p /\
  (forall x y, angular_compact_wide p' (smul conv x) (smul conv y) = angular_compact_wide p x y) /\
  (forall x y, angular_compact_narrow p' (smul conv x) (smul conv y) = angular_compact_narrow p x y).
Proof.
  intros A. destruct (compact_units _ _ _ A) as (c' & E & S & T & F).
  exists (mkCA (ca_e1 p) (ca_e2 p) (ca_rl p * conv) (ca_rc p * conv) (ca_left p) (ca_right p) c' (ca_a p)).
  split. { unfold ca_changeLengthUnit. cbv zeta. now rewrite E. }
  do 6 (split; [auto|]).
  assert (G := on_support_units _ _ (ca_rl p) (ca_rc p) F).
  split; intros x y; unfold angular_compact_wide, angular_compact_narrow, rad_compact, ang_compact;
    cbn [ca_rl ca_rc ca_c ca_left ca_right ca_a]; rewrite cos_conv, ?vsub_conv, !norm_conv, !G; reflexivity.
Qed.

Lemma units_kind k : admissible k -> exists k', changeLengthUnit conv k = Some k' /\ rescaled k k'.
Proof.
  destruct k as [p|p|p|p|p|p|p|p|p|p|p]; cbn [admissible]; intros A.
  - destruct (er_units p A) as (p' & E & S & E1 & T & F). exists (ExpRad p'). cbn [changeLengthUnit]. rewrite E.
    split; [reflexivity|]. split; [exact S|]. split; [intros e; cbn; now rewrite E1|]. split.
    { intros Z e. cbn [sf_value]. rewrite E1. apply radial_units, only_units. intros x. rewrite norm_conv. apply F. }
    split; [intros e (H & _); split; auto; now apply nonzero_scaled|].
    intros e ((H & _) & K). split; [split; auto; now apply nonzero_scaled|]. unfold not_hard in *. now rewrite T.
  - destruct (er_units p A) as (p' & E & S & E1 & T & F). exists (ExpRadWeighted p'). cbn [changeLengthUnit]. rewrite E.
    split; [reflexivity|]. split; [exact S|]. split; [reflexivity|]. split.
    { intros Z e. cbn [sf_value]. apply radial_units, weighted_units. intros x. rewrite norm_conv. apply F. }
    split; [intros e (H & _); split; auto; now apply nonzero_scaled|].
    intros e ((H & _) & K). split; [split; auto; now apply nonzero_scaled|]. unfold not_hard in *. now rewrite T.
  - destruct A as (A & Z1). destruct (ea_units p A) as (p' & E & S & E1 & E2 & T & L & Ze & ZI & UI & W & N).
    exists (ExpAngn p'). cbn [changeLengthUnit]. rewrite E.
    split; [reflexivity|]. split; [split; [exact S|unfold zeta_setup in *; rewrite ZI, UI, Ze; exact Z1]|].
    split; [intros e; cbn; now rewrite E1, E2|]. split.
    { intros Z e. cbn [sf_value]. rewrite E1, E2, Ze. f_equal. now apply pair_units, only_pair_units. }
    split; [intros e (H & _); split; auto; now apply nonzero_scaled|].
    intros e ((H & _) & K & Pw). split; [split; auto; now apply nonzero_scaled|].
    split; [unfold not_hard in *; now rewrite T|].
    apply (on_pairs_scaled _ _ _ Pw). intros x y (Q & Q'). split; [now apply smul_inj|].
    unfold smooth_power in *. now rewrite cos_conv, L, Ze.
  - destruct A as (A & Z1). destruct (ea_units p A) as (p' & E & S & E1 & E2 & T & L & Ze & ZI & UI & W & N).
    exists (ExpAngw p'). cbn [changeLengthUnit]. rewrite E.
    split; [reflexivity|]. split; [split; [exact S|unfold zeta_setup in *; rewrite ZI, UI, Ze; exact Z1]|].
    split; [intros e; cbn; now rewrite E1, E2|]. split.
    { intros Z e. cbn [sf_value]. rewrite E1, E2, Ze. f_equal. now apply pair_units, only_pair_units. }
    split; [intros e (H & _); split; auto; now apply nonzero_scaled|].
    intros e ((H & _) & K & Pw). split; [split; auto; now apply nonzero_scaled|].
    split; [unfold not_hard in *; now rewrite T|].
    apply (on_pairs_scaled _ _ _ Pw). intros x y Q'.
    unfold smooth_power in *. now rewrite cos_conv, L, Ze.
  - destruct A as (A & Z1). destruct (ea_units p A) as (p' & E & S & E1 & E2 & T & L & Ze & ZI & UI & W & N).
    exists (ExpAngnWeighted p'). cbn [changeLengthUnit]. rewrite E.
    split; [reflexivity|]. split; [split; [exact S|unfold zeta_setup in *; rewrite ZI, UI, Ze; exact Z1]|].
    split; [reflexivity|]. split.
    { intros Z e. cbn [sf_value]. rewrite Ze. f_equal. now apply pair_units, weighted_pair_units. }
    split; [intros e (H & _); split; auto; now apply nonzero_scaled|].
    intros e ((H & _) & K & Pw). split; [split; auto; now apply nonzero_scaled|].
    split; [unfold not_hard in *; now rewrite T|].
    apply (on_pairs_scaled _ _ _ Pw). intros x y (Q & Q'). split; [now apply smul_inj|].
    unfold smooth_power in *. now rewrite cos_conv, L, Ze.
  - destruct (cr_units p A) as (p' & E & S & E1 & F). exists (CompRad p'). cbn [changeLengthUnit]. rewrite E.
    split; [reflexivity|]. split; [exact S|]. split; [intros e; cbn; now rewrite E1|]. split.
    { intros Z e. cbn [sf_value]. rewrite E1. apply radial_units, only_units. intros x. rewrite norm_conv. apply F. }
    split; [intros e (H & _); split; auto; now apply nonzero_scaled|].
    intros e ((H & _) & K). split; [split; auto; now apply nonzero_scaled|]. exact I.
  - destruct (cr_units p A) as (p' & E & S & E1 & F). exists (CompRadWeighted p'). cbn [changeLengthUnit]. rewrite E.
    split; [reflexivity|]. split; [exact S|]. split; [reflexivity|]. split.
    { intros Z e. cbn [sf_value]. apply radial_units, weighted_units. intros x. rewrite norm_conv. apply F. }
    split; [intros e (H & _); split; auto; now apply nonzero_scaled|].
    intros e ((H & _) & K). split; [split; auto; now apply nonzero_scaled|]. exact I.
  - destruct A as (A & B). destruct (ca_units p A) as (p' & E & S & E1 & E2 & CA & LL & RR & W & N).
    exists (CompAngn p'). cbn [changeLengthUnit]. rewrite E.
    split; [reflexivity|]. split; [split; [exact S|now rewrite CA, LL, RR]|].
    split; [intros e; cbn; now rewrite E1, E2|]. split.
    { intros Z e. cbn [sf_value]. rewrite E1, E2. now apply pair_units, only_pair_units. }
    assert (EV : forall e, evaluable (CompAngn p) e -> evaluable (CompAngn p') (scaled conv e)).
    { intros e (H & K). split; [now apply nonzero_scaled|].
      apply (on_pairs_scaled _ _ _ K). intros x y (Q & Q' & Q''). split; [now apply smul_inj|].
      unfold off_boundary in *. now rewrite cos_conv, CA, LL, RR. }
    split; [exact EV|]. intros e (H & K). split; [now apply EV|exact I].
  - destruct A as (A & B). destruct (ca_units p A) as (p' & E & S & E1 & E2 & CA & LL & RR & W & N).
    exists (CompAngw p'). cbn [changeLengthUnit]. rewrite E.
    split; [reflexivity|]. split; [split; [exact S|now rewrite CA, LL, RR]|].
    split; [intros e; cbn; now rewrite E1, E2|]. split.
    { intros Z e. cbn [sf_value]. rewrite E1, E2. now apply pair_units, only_pair_units. }
    assert (EV : forall e, evaluable (CompAngw p) e -> evaluable (CompAngw p') (scaled conv e)).
    { intros e (H & K). split; [now apply nonzero_scaled|].
      apply (on_pairs_scaled _ _ _ K). intros x y (Q' & Q'').
      unfold off_boundary in *. now rewrite cos_conv, CA, LL, RR. }
    split; [exact EV|]. intros e (H & K). split; [now apply EV|exact I].
  - destruct A as (A & B). destruct (ca_units p A) as (p' & E & S & E1 & E2 & CA & LL & RR & W & N).
    exists (CompAngnWeighted p'). cbn [changeLengthUnit]. rewrite E.
    split; [reflexivity|]. split; [split; [exact S|now rewrite CA, LL, RR]|].
    split; [reflexivity|]. split.
    { intros Z e. cbn [sf_value]. now apply pair_units, weighted_pair_units. }
    assert (EV : forall e, evaluable (CompAngnWeighted p) e -> evaluable (CompAngnWeighted p') (scaled conv e)).
    { intros e (H & K). split; [now apply nonzero_scaled|].
      apply (on_pairs_scaled _ _ _ K). intros x y (Q & Q' & Q''). split; [now apply smul_inj|].
      unfold off_boundary in *. now rewrite cos_conv, CA, LL, RR. }
    split; [exact EV|]. intros e (H & K). split; [now apply EV|exact I].
  - destruct A as (A & B). destruct (ca_units p A) as (p' & E & S & E1 & E2 & CA & LL & RR & W & N).
    exists (CompAngwWeighted p'). cbn [changeLengthUnit]. rewrite E.
    split; [reflexivity|]. split; [split; [exact S|now rewrite CA, LL, RR]|].
    split; [reflexivity|]. split.
    { intros Z e. cbn [sf_value]. now apply pair_units, weighted_pair_units. }
    assert (EV : forall e, evaluable (CompAngwWeighted p) e -> evaluable (CompAngwWeighted p') (scaled conv e)).
    { intros e (H & K). split; [now apply nonzero_scaled|].
      apply (on_pairs_scaled _ _ _ K). intros x y (Q' & Q'').
      unfold off_boundary in *. now rewrite cos_conv, CA, LL, RR. }
    split; [exact EV|]. intros e (H & K). split; [now apply EV|exact I].
Qed.
End Units.

(** ** Derivatives *)
Lemma displace_scaled conv u v t e : conv <> 0 ->
  displace u v t (scaled conv e) = scaled conv (displace (smul (/ conv) u) (fun j => smul (/ conv) (v j)) t e).
Proof.
  intros Hc. unfold displace, scaled. rewrite map_length, map_map.
  generalize 0%nat. induction e as [|x r IH]; intros i; auto. cbn [length seq map List.combine]. f_equal; [|apply IH].
  cbn [fst snd]. f_equal. destruct (snd x) as [a b c], u as [a' b' c'], (v i) as [a'' b'' c''].
  unfold vadd, smul, vsub; cbn. f_equal; field; auto.
Qed.

Lemma dot_all x y : (forall u, dot x u = dot y u) -> x = y.
Proof.
  intros H. assert (X := H (mkVec 1 0 0)). assert (Y := H (mkVec 0 1 0)). assert (W := H (mkVec 0 0 1)).
  destruct x, y. unfold dot in *. cbn in *. f_equal; lra.
Qed.
Lemma rsum_single {A} (f : nat * A -> R) l j n : nth_error l j = Some n -> (forall i m, i <> j -> f (i, m) = 0) ->
  rsum (map f (List.combine (seq 0 (length l)) l)) = f (j, n).
Proof.
  intros Hj Hf. enough (forall i, rsum (map f (List.combine (seq i (length l)) l)) = (if Nat.leb i j then match nth_error l (j - i) with Some n => f (j, n) | None => 0 end else 0)).
  { rewrite H. cbn. now rewrite Nat.sub_0_r, Hj. }
  clear Hj n. induction l as [|x r IH]; intros i.
  { cbn. destruct (i <=? j); auto. now destruct (j - i)%nat. }
  cbn [length seq List.combine map rsum]. rewrite IH. destruct (Nat.eq_dec i j) as [->|N].
  - rewrite Nat.leb_refl, Nat.sub_diag. cbn [nth_error]. destruct (Nat.leb_spec (S j) j); [lia|]. ring.
  - rewrite (Hf i x N). destruct (Nat.leb_spec i j).
    + destruct (Nat.leb_spec (S i) j); [|lia]. replace (j - i)%nat with (S (j - S i)) by lia. cbn [nth_error]. ring.
    + destruct (Nat.leb_spec (S i) j); [lia|]. ring.
Qed.

Lemma directional_LA c nbs D u : directional c nbs D u (fun _ => vzero) = dot (D (LA (sf_index c))) u.
Proof.
  unfold directional. rewrite rsum_zero; [ring|]. intros jn _. rewrite dot_comm. apply dot_vzero_l.
Qed.
Lemma directional_LN c nbs D w j n : nth_error nbs j = Some n ->
  directional c nbs D vzero (fun i => if Nat.eqb i j then w else vzero) = dot (D (LN j (sf_perElement c (nb_element n)))) w.
Proof.
  intros Hj. unfold directional. rewrite (rsum_single _ _ j n Hj).
  - cbn [fst snd]. rewrite Nat.eqb_refl, (dot_comm _ vzero), dot_vzero_l. ring.
  - intros i m Hi. cbn [fst snd]. apply Nat.eqb_neq in Hi. rewrite Hi, dot_comm. apply dot_vzero_l.
Qed.

Theorem units_api Z f a conv : 0 < conv -> admissible (sf_kind f) -> good_list a -> no_slots f ->
  exists k', changeLengthUnit conv (sf_kind f) = Some k' /\ admissible k' /\
    (forall e, sf_value Z k' (scaled conv e) = sf_value Z (sf_kind f) e) /\
    forall a' deriv s, good_list a' -> env_of (a_nbs a') = scaled conv (env_of (a_nbs a)) ->
      evaluable (sf_kind f) (env_of (a_nbs a)) ->
      exists s1 s2, calculate Z f a deriv s = Some s1 /\ calculate Z (mkSF (sf_c f) k') a' deriv s = Some s2 /\
        (forall i, st_G s2 i = st_G s1 i) /\
        (deriv = true -> smooth_at (sf_kind f) (env_of (a_nbs a)) -> scaling_setup (sf_scaling (sf_c f)) ->
           forall l, vsub (st_D s2 l) (st_D s l) = smul (/ conv) (vsub (st_D s1 l) (st_D s l))).
Proof.
  intros Hc Ha Hg Hn. destruct (units_kind conv Hc (sf_kind f) Ha) as (k' & E & A' & Dp & V & Ev & Sm).
  exists k'. split; auto. split; auto. split; [intros; apply V|]. intros a' deriv s Hg' He Hev.
  destruct (calculate_api Z f a deriv s Hg Hn Ha Hev) as (s1 & E1 & G1 & O1 & _ & L1 & D1 & _).
  assert (Hev' : evaluable k' (env_of (a_nbs a'))) by (rewrite He; now apply Ev).
  destruct (calculate_api Z (mkSF (sf_c f) k') a' deriv s Hg' Hn A' Hev') as (s2 & E2 & G2 & O2 & _ & L2 & D2 & _).
  cbn [sf_c sf_kind] in *. exists s1, s2. split; auto. split; auto. split.
  { intros i. destruct (Nat.eq_dec i (sf_index (sf_c f))) as [->|Hi]; [|now rewrite O1, O2].
    rewrite G1, G2, He, V. reflexivity. }
  intros Hd Hs Hsc l. specialize (D1 Hd Hs Hsc). specialize (D2 Hd). rewrite He in D2. specialize (D2 (Sm _ Hs) Hsc).
  assert (Hlen : map fst (env_of (a_nbs a')) = map fst (env_of (a_nbs a))).
  { rewrite He. unfold scaled. rewrite map_map. reflexivity. }
  assert (Hnth : forall j n', nth_error (a_nbs a') j = Some n' -> exists n, nth_error (a_nbs a) j = Some n /\ nb_element n = nb_element n').
  { intros j n' Hj. unfold env_of in Hlen. rewrite !map_map in Hlen. cbn in Hlen.
    assert (X : nth_error (map (fun x => nb_element x) (a_nbs a')) j = Some (nb_element n')) by (rewrite nth_error_map, Hj; auto).
    rewrite Hlen, nth_error_map in X. destruct (nth_error (a_nbs a) j) as [n|]; [|discriminate]. injection X as X. eauto. }
  assert (Hnth' : forall j n, nth_error (a_nbs a) j = Some n -> exists n', nth_error (a_nbs a') j = Some n' /\ nb_element n' = nb_element n).
  { intros j n Hj. unfold env_of in Hlen. rewrite !map_map in Hlen. cbn in Hlen.
    assert (X : nth_error (map (fun x => nb_element x) (a_nbs a)) j = Some (nb_element n)) by (rewrite nth_error_map, Hj; auto).
    rewrite <- Hlen, nth_error_map in X. destruct (nth_error (a_nbs a') j) as [n'|]; [|discriminate]. injection X as X. eauto. }
  assert (K : forall u v, directional (sf_c f) (a_nbs a') (fun l => vsub (st_D s2 l) (st_D s l)) u v =
     directional (sf_c f) (a_nbs a) (fun l => vsub (st_D s1 l) (st_D s l)) (smul (/ conv) u) (fun j => smul (/ conv) (v j))).
  { intros u v. specialize (D1 (smul (/ conv) u) (fun j => smul (/ conv) (v j))). specialize (D2 u v).
    apply is_derive_unique in D1. apply is_derive_unique in D2. rewrite <- D1, <- D2. apply Derive_ext. intros t.
    rewrite displace_scaled by lra. now rewrite V. }
  assert (KA : vsub (st_D s2 (LA (sf_index (sf_c f)))) (st_D s (LA (sf_index (sf_c f)))) =
               smul (/ conv) (vsub (st_D s1 (LA (sf_index (sf_c f)))) (st_D s (LA (sf_index (sf_c f)))))).
  { apply dot_all. intros u. specialize (K u (fun _ => vzero)). rewrite directional_LA in K. rewrite K.
    rewrite <- (directional_LA (sf_c f) (a_nbs a) (fun l => smul (/ conv) (vsub (st_D s1 l) (st_D s l)))).
    unfold directional. f_equal; [unfold dot, smul, vzero; cbn [vx vy vz]; ring|]. apply rsum_ext. intros jn _. unfold dot, smul, vzero; cbn [vx vy vz]; ring. }
  assert (KN : forall j n, nth_error (a_nbs a) j = Some n -> let l := LN j (sf_perElement (sf_c f) (nb_element n)) in
     vsub (st_D s2 l) (st_D s l) = smul (/ conv) (vsub (st_D s1 l) (st_D s l))).
  { intros j n Hj l0. apply dot_all. intros w. specialize (K vzero (fun i => if Nat.eqb i j then w else vzero)).
    destruct (Hnth' j n Hj) as (n' & Hj' & He'). rewrite (directional_LN _ _ _ w j n' Hj') in K.
    rewrite He' in K. fold l0 in K. rewrite K.
    unfold l0. rewrite <- (directional_LN (sf_c f) (a_nbs a) (fun l => smul (/ conv) (vsub (st_D s1 l) (st_D s l))) w j n Hj).
    unfold directional. f_equal; [unfold dot, smul, vzero; cbn [vx vy vz]; ring|]. apply rsum_ext. intros jn _.
    destruct (fst jn =? j)%nat; unfold dot, smul, vzero; cbn [vx vy vz]; ring. }
  assert (vdec : forall x y : vec, x = y \/ x <> y).
  { intros [a0 b0 c0] [a1 b1 c1]. destruct (Req_dec a0 a1) as [->|N]; [|right; congruence].
    destruct (Req_dec b0 b1) as [->|N]; [|right; congruence]. destruct (Req_dec c0 c1) as [->|N]; [left; auto|right; congruence]. }
  destruct (vdec (st_D s1 l) (st_D s l)) as [X1|X1].
  2:{ destruct (L1 l X1) as [->|(j & n & Hj & Hde & ->)]; auto. }
  destruct (vdec (st_D s2 l) (st_D s l)) as [X2|X2].
  2:{ destruct (L2 l X2) as [->|(j & n' & Hj & Hde & ->)]; auto. cbn [sf_c] in *.
      destruct (Hnth j n' Hj) as (n & Hj' & <-). now apply KN. }
  rewrite X1, X2. vring.
Qed.
