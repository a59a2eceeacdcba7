From Coq Require Import Reals Lra Psatz.
From Coquelicot Require Import Coquelicot.
From Verif Require Import Base.RealBase Model.CoreFunction Model.CutoffFunction Model.CompactScreening
  Spec.CompactSpec Spec.CutoffSpec Proofs.CoreProofs Proofs.CutoffProofs.
Local Open Scope R_scope.

Section Unit.
Variable c : core_function.

Let P := prof (core_f c) 0 1.
Let dP := dprof (core_df c) 0 1.

Lemma unit_derive x : is_derive P x (dP x).
Proof.
  destruct (core_f_quadratic c) as [C [HC HQ]].
  apply prof_derive with C; auto; try lra.
  - apply core_f_at_0.
  - apply core_df_at_0.
  - intros; apply core_df_derive; auto.
Qed.

Lemma dP_0 : dP 0 = 0.
Proof.
  unfold dP, dprof. destruct (Rge_dec 0 1); [lra|]. destruct (Rlt_dec 0 0); [lra|].
  replace ((0 - 0) * (1 / (1 - 0))) with 0 by field. rewrite core_df_at_0. ring.
Qed.

Lemma even_derive x : is_derive (fun y => P (Rabs y)) x (if Rlt_dec x 0 then - dP (- x) else dP x).
Proof.
  assert (DN : is_derive (fun y => P (- y)) x (- dP (- x))).
  { evar_last. apply (is_derive_comp P (fun y => - y)). apply unit_derive. auto_derive; auto.
    unfold scal; simpl; unfold mult; simpl. ring. }
  destruct (Rtotal_order x 0) as [H | [H | H]].
  - destruct (Rlt_dec x 0); [|lra].
    apply is_derive_ext_right_loc with (2 := fun y (Hy : x - (-x) < y < x + (-x)) =>
       f_equal P (Rabs_left y ltac:(lra))); [lra | exact DN].
  - subst x. destruct (Rlt_dec 0 0); [lra|]. rewrite dP_0. rewrite Ropp_0, dP_0, Ropp_0 in DN.
    apply is_derive_glue with (g := fun y => P (- y)) (h := P).
    + intros y Hy. now rewrite Rabs_left.
    + intros y Hy. now rewrite Rabs_right by lra.
    + now rewrite Rabs_R0, Ropp_0.
    + now rewrite Rabs_R0.
    + exact DN.
    + assert (D0 := unit_derive 0). fold P in D0. rewrite dP_0 in D0. exact D0.
  - destruct (Rlt_dec x 0); [lra|].
    apply is_derive_ext_right_loc with (2 := fun y (Hy : x - x < y < x + x) =>
       f_equal P (Rabs_right y ltac:(lra))); [lra | apply unit_derive].
Qed.

Lemma P_inside x : 0 <= x < 1 -> P x = core_f c x /\ dP x = core_df c x.
Proof.
  intros Hx. unfold P, dP, prof, dprof. destruct (Rge_dec x 1); [lra|].
  destruct (Rlt_dec x 0); [lra|].
  replace ((x - 0) * (1 / (1 - 0))) with x by field. split; auto. field.
Qed.

Lemma P_outside x : 1 <= x -> P x = 0 /\ dP x = 0.
Proof.
  intros Hx. unfold P, dP, prof, dprof. destruct (Rge_dec x 1); lra.
Qed.
End Unit.

Lemma compact_config_eq k asym l r c : compact_config k asym l r = Some c ->
  l < r /\ c = mkCompact ((r + l)/2) ((r - l)/2) l r (1 / ((r - l)/2)) (core_config k asym).
Proof.
  unfold compact_config, cp_setLeftRight. destruct (Rge_dec l r); [discriminate|].
  intros H. injection H as <-. split; [lra|]. reflexivity.
Qed.

Section Compact.
Variables (k : core_kind) (asym : bool) (l r : R) (c : compact_function).
Hypothesis Hc : compact_config k asym l r = Some c.
Let Hlr : l < r. Proof. apply (compact_config_eq _ _ _ _ _ Hc). Qed.
Let Ec : c = mkCompact ((r + l)/2) ((r - l)/2) l r (1 / ((r - l)/2)) (core_config k asym).
Proof. apply (compact_config_eq _ _ _ _ _ Hc). Qed.
Let m := (r + l) / 2.
Let s := 1 / ((r - l) / 2).
Let s_pos : 0 < s. Proof. unfold s. apply Rdiv_lt_0_compat; lra. Qed.

Lemma arg_in a : l < a < r <-> Rabs ((a - m) * s) < 1.
Proof.
  assert (E : forall x, (x * s) * ((r - l)/2) = x) by (intro; unfold s; field; lra).
  split.
  - intros Ha. apply Rabs_def1.
    + apply Rmult_lt_reg_r with ((r - l)/2); [lra|]. rewrite E. unfold m; lra.
    + apply Rmult_lt_reg_r with ((r - l)/2); [lra|]. rewrite E. unfold m; lra.
  - intros H. apply Rabs_def2 in H. destruct H as [H1 H2].
    apply (Rmult_lt_compat_r ((r-l)/2)) in H1; [|lra]. rewrite E in H1.
    apply (Rmult_lt_compat_r ((r-l)/2)) in H2; [|lra]. rewrite E in H2.
    unfold m in *. lra.
Qed.

Lemma compact_fdf_fst a : l < a < r -> fst (cp_fdf c a) = cp_f c a.
Proof.
  intros Ha. rewrite Ec. unfold cp_fdf, cp_f. cbn -[core_fdf core_f core_config Rabs].
  fold m; fold s. assert (H := proj1 (arg_in a) Ha).
  rewrite core_fdf_eq; [reflexivity|]. assert (A := Rabs_pos ((a - m) * s)). lra.
Qed.

Lemma compact_on_support a : on_support l r (cp_f c) a = prof (core_f (core_config k asym)) 0 1 (Rabs ((a - m) * s)).
Proof.
  assert (A := arg_in a). assert (B := Rabs_pos ((a - m) * s)).
  unfold on_support. destruct (Rlt_dec l a), (Rlt_dec a r).
  2-4: symmetry; apply P_outside; destruct (Rle_lt_dec 1 (Rabs ((a - m) * s))); auto; exfalso; tauto.
  rewrite (proj1 (P_inside _ (Rabs ((a - m) * s)) ltac:(tauto))).
  rewrite Ec. reflexivity.
Qed.

Lemma compact_fdf_derive a :
  is_derive (on_support l r (cp_f c)) a (on_support l r (fun x => snd (cp_fdf c x)) a).
Proof.
  apply is_derive_ext with (1 := fun y => eq_sym (compact_on_support y)).
  set (cc := core_config k asym). set (u := (a - m) * s).
  assert (D : is_derive (fun y => prof (core_f cc) 0 1 (Rabs ((y - m) * s))) a
     (s * (if Rlt_dec u 0 then - dprof (core_df cc) 0 1 (- u) else dprof (core_df cc) 0 1 u))).
  { apply (is_derive_comp (fun y => prof (core_f cc) 0 1 (Rabs y)) (fun y => (y - m) * s)).
    - apply even_derive.
    - auto_derive; auto. ring. }
  evar_last. exact D.
  assert (A := arg_in a). fold u in A. assert (B := Rabs_pos u).
  unfold on_support. 
  assert (Hin : Rabs u < 1 \/ 1 <= Rabs u) by lra.
  destruct Hin as [Hin | Hout].
  - destruct (Rlt_dec l a); [|exfalso; tauto]. destruct (Rlt_dec a r); [|exfalso; tauto].
    rewrite Ec. unfold cp_fdf. cbn -[core_fdf core_config Rlt_dec]. fold m; fold s; fold u; fold cc.
    rewrite core_fdf_eq by lra. cbn -[core_config Rlt_dec]. unfold copysign.
    rewrite (Rabs_right s) by lra.
    destruct (Rlt_dec u 0) as [Hn | Hn].
    + rewrite Rabs_left in * by lra. rewrite (proj2 (P_inside cc (- u) ltac:(lra))). ring.
    + rewrite Rabs_right in * by lra. rewrite (proj2 (P_inside cc u ltac:(lra))). ring.
  - transitivity 0; [|destruct (Rlt_dec l a); auto; destruct (Rlt_dec a r); auto; exfalso; apply (Rlt_not_le _ _ (proj1 A (conj r0 r1))); auto].
    destruct (Rlt_dec u 0).
    + rewrite Rabs_left in * by lra. rewrite (proj2 (P_outside cc (- u) ltac:(lra))). ring.
    + rewrite Rabs_right in * by lra. rewrite (proj2 (P_outside cc u ltac:(lra))). ring.
Qed.

Lemma compact_range a : l < a < r -> 0 <= cp_f c a <= 1.
Proof.
  intros Ha. assert (H := proj1 (arg_in a) Ha). assert (B := Rabs_pos ((a - m) * s)).
  rewrite Ec. unfold cp_f; cbn -[core_f core_config]. fold m; fold s.
  split; [apply core_f_nonneg | apply core_f_le_1]; lra.
Qed.

Lemma compact_center : cp_f c ((l + r)/2) = 1.
Proof.
  rewrite Ec. unfold cp_f; cbn -[core_f core_config].
  replace (((l + r)/2 - (r + l)/2) * (1 / ((r - l)/2))) with 0 by (field; lra).
  rewrite Rabs_R0. apply core_f_at_0.
Qed.

Lemma compact_symmetric h : cp_f c ((l + r)/2 - h) = cp_f c ((l + r)/2 + h).
Proof.
  rewrite Ec. unfold cp_f; cbn -[core_f core_config]. f_equal.
  rewrite <- (Rabs_Ropp (((l + r) / 2 - h - (r + l) / 2) * (1 / ((r - l) / 2)))).
  f_equal. field. lra.
Qed.

(** CompactFunction::df returns the negated derivative. *)
Lemma compact_df_wrong a : l < a < r -> cp_df c a = - snd (cp_fdf c a).
Proof.
  intros Ha. assert (H := proj1 (arg_in a) Ha). assert (B := Rabs_pos ((a - m) * s)).
  rewrite Ec. unfold cp_df, cp_fdf. cbn -[core_fdf core_df core_config Rlt_dec Rabs].
  fold m; fold s. rewrite core_fdf_eq by lra. cbn -[core_df core_config Rlt_dec Rabs].
  assert (N := core_df_nonpos (core_config k asym) (Rabs ((a - m) * s)) ltac:(lra)).
  unfold copysign. rewrite (Rabs_right s) by lra.
  assert (E : Rabs (s * core_df (core_config k asym) (Rabs ((a - m) * s))) =
              - (s * core_df (core_config k asym) (Rabs ((a - m) * s)))).
  { apply Rabs_left1. nra. }
  rewrite E. destruct (Rlt_dec ((a - m) * s) 0); ring.
Qed.
End Compact.

Lemma compact_df_refuted : exists c a,
  compact_config CK_POLY1 false 0 2 = Some c /\ 0 < a < 2 /\
  ~ is_derive (cp_f c) a (cp_df c a).
Proof.
  destruct (compact_config CK_POLY1 false 0 2) as [c|] eqn:E.
  2: { unfold compact_config, cp_setLeftRight in E. destruct (Rge_dec 0 2); [lra | discriminate]. }
  exists c, (3/2). split; auto. split; [lra|]. intros H.
  assert (D := compact_fdf_derive _ _ _ _ _ E (3/2)).
  assert (W := compact_df_wrong _ _ _ _ _ E (3/2) ltac:(lra)).
  assert (D2 : is_derive (cp_f c) (3/2) (snd (cp_fdf c (3/2)))).
  { unfold on_support in D at 2. destruct (Rlt_dec 0 (3/2)); [|lra]. destruct (Rlt_dec (3/2) 2); [|lra].
    apply is_derive_ext_right_loc with (g := on_support 0 2 (cp_f c)) (d := 1/2); [lra| |exact D].
    intros y Hy. unfold on_support. destruct (Rlt_dec 0 y); [|lra]. destruct (Rlt_dec y 2); lra. }
  apply is_derive_unique in H. apply is_derive_unique in D2.
  assert (Z : snd (cp_fdf c (3/2)) = 0) by lra.
  rewrite (proj2 (compact_config_eq _ _ _ _ _ E)) in Z.
  unfold cp_fdf in Z. cbn -[Rlt_dec Rabs] in Z.
  replace ((3 / 2 - (2 + 0) / 2) * (1 / ((2 - 0) / 2))) with (1/2) in Z by field.
  rewrite (Rabs_right (1/2)) in Z by lra.
  unfold copysign in Z. destruct (Rlt_dec (1/2) 0); [lra|].
  rewrite Rabs_right in Z by lra. lra.
Qed.

Lemma screening_config_eq k a b s : screening_config k a b = Some s ->
  a < b /\ s = mkScreen a b (1 / (b - a)) (core_config k false).
Proof.
  unfold screening_config, sc_setInnerOuter. destruct (Rge_dec a b); [discriminate|].
  intros H. injection H as <-. split; [lra|]. reflexivity.
Qed.

Section Screening.
Variables (k : core_kind) (a b : R) (s : screening_function).
Hypothesis Hs : screening_config k a b = Some s.
Let Hab : a < b. Proof. apply (screening_config_eq _ _ _ _ Hs). Qed.
Let Es : s = mkScreen a b (1 / (b - a)) (core_config k false).
Proof. apply (screening_config_eq _ _ _ _ Hs). Qed.
Let cc := core_config k false.

Lemma screening_prof r : sc_f s r = 1 - prof (core_f cc) a b r /\ sc_df s r = - dprof (core_df cc) a b r.
Proof.
  rewrite Es. unfold sc_f, sc_df, prof, dprof. cbn -[core_f core_df core_config Rge_dec Rle_dec Rlt_dec]. fold cc.
  destruct (Rge_dec r b); [split; ring|].
  destruct (Rle_dec r a), (Rlt_dec r a); try lra.
  replace r with a by lra. replace ((a - a) * (1 / (b - a))) with 0 by ring.
  rewrite core_f_at_0, core_df_at_0. split; ring.
Qed.

Lemma screening_derive r : is_derive (sc_f s) r (sc_df s r).
Proof.
  rewrite (proj2 (screening_prof r)).
  apply is_derive_ext with (fun r => 1 - prof (core_f cc) a b r).
  { intros y. symmetry. apply screening_prof. }
  destruct (core_f_quadratic cc) as [C [HC HQ]].
  evar_last. apply (is_derive_minus (fun _ => 1)). auto_derive; auto.
  apply prof_derive with (dF := core_df cc) (C := C); auto.
  - apply core_f_at_0.
  - apply core_df_at_0.
  - intros; apply core_df_derive; auto.
  - unfold minus, plus, opp; simpl. ring.
Qed.

Lemma screening_fdf r : sc_fdf s r = (sc_f s r, sc_df s r).
Proof.
  rewrite Es. unfold sc_fdf, sc_f, sc_df. cbn -[core_f core_df core_fdf core_config Rge_dec Rle_dec].
  destruct (Rge_dec r b); auto. destruct (Rle_dec r a); auto.
  rewrite core_fdf_eq; auto.
  assert (A := prof_arg a b Hab r ltac:(lra)). simpl in A. lra.
Qed.

Lemma screening_df_nonneg r : 0 <= sc_df s r.
Proof.
  rewrite (proj2 (screening_prof r)). unfold dprof.
  destruct (Rge_dec r b); [lra|]. destruct (Rlt_dec r a); [lra|].
  assert (A := prof_arg a b Hab r ltac:(lra)). simpl in A.
  assert (N := core_df_nonpos cc _ A).
  assert (0 < 1 / (b - a)) by (apply Rdiv_lt_0_compat; lra). nra.
Qed.

Lemma screening_monotone x y : x <= y -> sc_f s x <= sc_f s y.
Proof.
  intros H.
  assert (- sc_f s y <= - sc_f s x); [|lra].
  apply (decreasing_of_derive (fun r => - sc_f s r) (fun r => - sc_df s r) x y); try lra.
  - intros z _. apply (is_derive_opp (sc_f s)). apply screening_derive.
  - intros z _. assert (A := screening_df_nonneg z). lra.
Qed.

Lemma screening_inner r : r <= a -> sc_f s r = 0.
Proof.
  intros H. rewrite Es. unfold sc_f; cbn -[core_f core_config Rge_dec Rle_dec].
  destruct (Rge_dec r b); [lra|]. destruct (Rle_dec r a); lra.
Qed.
Lemma screening_outer r : b <= r -> sc_f s r = 1.
Proof.
  intros H. rewrite Es. unfold sc_f; cbn -[core_f core_config Rge_dec Rle_dec].
  destruct (Rge_dec r b); lra.
Qed.
Lemma screening_range r : 0 <= sc_f s r <= 1.
Proof.
  split.
  - destruct (Rle_dec r a). rewrite screening_inner by lra; lra.
    rewrite <- (screening_inner a) by lra. apply screening_monotone; lra.
  - destruct (Rle_dec b r). rewrite screening_outer by lra; lra.
    rewrite <- (screening_outer b) by lra. apply screening_monotone; lra.
Qed.
Lemma screening_units conv r : 0 < conv -> 
  sc_f (sc_changeLengthUnits conv s) (r * conv) = sc_f s r.
Proof.
  intros Hv. rewrite Es. unfold sc_f, sc_changeLengthUnits; cbn -[core_f core_config Rge_dec Rle_dec].
  destruct (Rge_dec (r * conv) (b * conv)), (Rge_dec r b); try reflexivity; try (exfalso; nra).
  destruct (Rle_dec (r * conv) (a * conv)), (Rle_dec r a); try reflexivity; try (exfalso; nra).
  f_equal. f_equal. field. split; lra.
Qed.
End Screening.
