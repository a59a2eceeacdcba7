(** Newton's method for exp(-a x^2) / sqrt(x) = y. *)
From Coq Require Import Reals Lra Lia Psatz Bool Arith.
From Coquelicot Require Import Coquelicot.
From Verif Require Import Model.SymFunctions Model.EwaldSetup.
Local Open Scope R_scope.

Lemma acc_pos : 0 < acceptError.
Proof. unfold acceptError. apply Rinv_0_lt_compat. lra. Qed.
Lemma acc_small : acceptError < 1.
Proof. unfold acceptError. rewrite <- Rinv_1. apply Rinv_lt_contravar; lra. Qed.
Lemma ltR_true x y : ltR x y = true <-> x < y.
Proof. unfold ltR. destruct (Rlt_dec x y); split; intros; try easy; lra. Qed.
Lemma ltR_false x y : ltR x y = false <-> y <= x.
Proof. unfold ltR. destruct (Rlt_dec x y); split; intros; try easy; lra. Qed.

Lemma exp_le x y : x <= y -> exp x <= exp y.
Proof. intros [H| ->]; [left; now apply exp_increasing | right; reflexivity]. Qed.

Section Newton.
Variable a : R.
Hypothesis Ha : 0 < a.

Definition g (x : R) : R := exp (- (a * x ^ 2)) / sqrt x.
Definition dg (x : R) : R := - g x * ((4 * a * x ^ 2 + 1) / (2 * x)).
Definition newton_step (y x : R) : R := 2 * x / (4 * a * x ^ 2 + 1) * (1 - y / g x).

Lemma g_pos x : 0 < x -> 0 < g x.
Proof. intro H. unfold g. apply Rdiv_lt_0_compat; [apply exp_pos | now apply sqrt_lt_R0]. Qed.
Lemma den_pos x : 0 < 4 * a * x ^ 2 + 1.
Proof. pose proof (pow2_ge_0 x). nra. Qed.
Lemma dg_neg x : 0 < x -> dg x < 0.
Proof.
  intro H. unfold dg.
  assert (0 < (4 * a * x ^ 2 + 1) / (2 * x)) by (apply Rdiv_lt_0_compat; [apply den_pos | lra]).
  pose proof (g_pos x H). nra.
Qed.
Lemma g_derive x : 0 < x -> is_derive g x (dg x).
Proof.
  intro H. pose proof (sqrt_lt_R0 x H) as Hs. unfold g. auto_derive.
  - split; [exact H | split; [lra | exact I]].
  - unfold dg, g. assert (E : sqrt x * sqrt x = x) by (apply sqrt_sqrt; lra).
    replace (x * (x * 1)) with (x ^ 2) by ring. set (e := exp _). rewrite E.
    field_simplify_eq; [ | lra..].
    replace (sqrt x ^ 2) with x by (simpl; rewrite Rmult_1_r; lra). ring.
Qed.
Lemma dg_derive x : 0 < x -> is_derive dg x (g x * (4 * a ^ 2 * x ^ 2 + 3 / (4 * x ^ 2))).
Proof.
  intro H. unfold dg.
  evar_last.
  - apply (is_derive_mult (fun x => - g x) (fun x => (4 * a * x ^ 2 + 1) / (2 * x))).
    + apply (is_derive_opp g). now apply g_derive.
    + auto_derive; [lra | reflexivity].
    + intros; apply Rmult_comm.
  - unfold plus, mult, opp; cbn. unfold dg. field. lra.
Qed.
Lemma mvt f df x u : 0 < x -> 0 < u -> (forall z, 0 < z -> is_derive f z (df z)) ->
  exists c, 0 < c /\ Rmin x u <= c <= Rmax x u /\ f u - f x = df c * (u - x).
Proof.
  intros Hx Hu D.
  assert (Hm : 0 < Rmin x u) by now apply Rmin_glb_lt.
  destruct (MVT_gen f x u df) as (c & Hc & E).
  - intros z Hz. apply D. lra.
  - intros z Hz. apply continuity_pt_filterlim. apply (ex_derive_continuous f z). exists (df z). apply D. lra.
  - exists c. split; [lra|]. now split.
Qed.
Lemma dg_incr x z : 0 < x -> x <= z -> dg x <= dg z.
Proof.
  intros Hx Hz.
  destruct (mvt dg (fun x => g x * (4 * a ^ 2 * x ^ 2 + 3 / (4 * x ^ 2))) x z Hx ltac:(lra) dg_derive) as (c & Hc & _ & E).
  assert (0 < g c * (4 * a ^ 2 * c ^ 2 + 3 / (4 * c ^ 2))).
  { apply Rmult_lt_0_compat; [now apply g_pos|].
    assert (0 < c ^ 2) by nra. assert (0 < 3 / (4 * c ^ 2)) by (apply Rdiv_lt_0_compat; lra).
    assert (0 <= 4 * a ^ 2 * c ^ 2) by nra. lra. }
  nra.
Qed.
Lemma g_decr x z : 0 < x -> x <= z -> g z <= g x.
Proof.
  intros Hx Hz. destruct (mvt g dg x z Hx ltac:(lra) g_derive) as (c & Hc & _ & E).
  pose proof (dg_neg c Hc). nra.
Qed.
Lemma g_tangent x u : 0 < x -> 0 < u -> g x + dg x * (u - x) <= g u.
Proof.
  intros Hx Hu. destruct (mvt g dg x u Hx Hu g_derive) as (c & Hc & B & E).
  destruct (Rle_dec x u) as [L|L].
  - rewrite Rmin_left, Rmax_right in B by lra. pose proof (dg_incr x c Hx ltac:(lra)). nra.
  - rewrite Rmin_right, Rmax_left in B by lra. pose proof (dg_incr c x Hc ltac:(lra)). nra.
Qed.
Lemma step_dg y x : 0 < x -> dg x * newton_step y x = y - g x.
Proof.
  intro H. pose proof (g_pos x H). pose proof (den_pos x). unfold dg, newton_step. field. lra.
Qed.
Lemma step_lands y x : 0 < x -> 0 < x + newton_step y x -> y <= g (x + newton_step y x).
Proof.
  intros H Hu. pose proof (g_tangent x _ H Hu) as T. replace (x + newton_step y x - x) with (newton_step y x) in T by ring.
  rewrite step_dg in T by exact H. lra.
Qed.
Lemma step_pos y x : 0 < x -> y <= g x -> 0 <= newton_step y x.
Proof.
  intros H L. pose proof (step_dg y x H). pose proof (dg_neg x H). nra.
Qed.

(** The loop. *)
Fixpoint newton (fuel : nat) (y x relX relY : R) : option R :=
  match fuel with
  | O => None
  | S fuel =>
    if (ltR acceptError relX || ltR acceptError relY)%bool then
      let st := newton_step y x in
      if Rle_dec (x + st) 0 then newton fuel y (x / 2) relX relY
      else newton fuel y (x + st) (Rabs (st / (x + st))) (Rabs ((g (x + st) - y) / y))
    else Some x
  end.

(** Close to the solution, from below. *)
Definition near (y x : R) : Prop := 0 < x /\ y <= g x /\ g x <= y * (1 + acceptError).

Lemma newton_sound fuel y : 0 < y -> forall x relX relY, 0 < x ->
  ((acceptError < relX \/ acceptError < relY) \/ (y <= g x /\ relY = (g x - y) / y)) ->
  forall r, newton fuel y x relX relY = Some r -> near y r.
Proof.
  intro Hy. induction fuel as [|f IH]; intros x relX relY Hx Hs r H; [discriminate|].
  cbn [newton] in H.
  destruct (ltR acceptError relX || ltR acceptError relY)%bool eqn:B.
  - apply orb_true_iff in B. rewrite !ltR_true in B.
    destruct (Rle_dec _ 0) as [L|L].
    + apply IH in H; [exact H | lra | now left].
    + apply IH in H; [exact H | lra |]. right. apply Rnot_le_lt in L.
      pose proof (step_lands y x Hx L) as G. split; [exact G|].
      rewrite Rabs_right; [reflexivity|]. apply Rle_ge. apply Rmult_le_pos; [lra | left; now apply Rinv_0_lt_compat].
  - apply orb_false_iff in B. rewrite !ltR_false in B. injection H as <-.
    destruct Hs as [Hs|[G E]]; [lra|]. split; [exact Hx|]. split; [exact G|].
    destruct B as [_ B]. rewrite E in B. apply (Rmult_le_compat_r y) in B; [|lra].
    replace ((g x - y) / y * y) with (g x - y) in B by (field; lra). lra.
Qed.
Lemma newton_more f1 f2 y : (f1 <= f2)%nat -> forall x relX relY r,
  newton f1 y x relX relY = Some r -> newton f2 y x relX relY = Some r.
Proof.
  revert f2. induction f1 as [|f IH]; intros f2 L x relX relY r H; [discriminate|].
  destruct f2 as [|f2]; [lia|]. cbn [newton] in *.
  destruct (_ || _)%bool; [|exact H].
  destruct (Rle_dec _ 0); (apply IH; [lia | exact H]).
Qed.

(** From below the solution, in steps of at least [d]. *)
Lemma newton_climbs y x1 B : 0 < y -> 0 < x1 -> g B < y -> 0 < B ->
  forall n x relX relY, x1 <= x -> y <= g x ->
  let d := Rmin (acceptError * x1) (acceptError * y / - dg x1) in
  B - x <= INR n * d ->
  exists r, newton (n + 2) y x relX relY = Some r.
Proof.
  intros Hy H1 HB HB0. induction n as [|n IH]; intros x relX relY Hx G d Hn.
  - exfalso. cbn in Hn. assert (B <= x) by lra.
    pose proof (g_decr B x HB0 ltac:(lra)). lra.
  - cbn [newton Nat.add]. destruct (_ || _)%bool; [|now exists x].
    pose proof (step_pos y x ltac:(lra) G) as Sp.
    destruct (Rle_dec _ 0) as [L|_]; [lra|].
    pose proof (step_lands y x ltac:(lra) ltac:(lra)) as G'.
    destruct (Rle_dec (newton_step y x) d) as [Sd|Sd].
    + replace (n + 2)%nat with (S (S n)) by lia. cbn [newton].
      pose proof acc_pos as Ap.
      assert (D1 : dg x1 < 0) by now apply dg_neg.
      assert (R1 : Rabs (newton_step y x / (x + newton_step y x)) <= acceptError).
      { rewrite Rabs_right.
        - apply Rle_div_l; [lra|]. apply Rle_trans with (acceptError * x1).
          + apply Rle_trans with d; [exact Sd | apply Rmin_l].
          + apply Rmult_le_compat_l; lra.
        - apply Rle_ge, Rmult_le_pos; [lra|]. left. apply Rinv_0_lt_compat. lra. }
      assert (R2 : Rabs ((g (x + newton_step y x) - y) / y) <= acceptError).
      { rewrite Rabs_right.
        - apply Rle_div_l; [lra|].
          assert (g (x + newton_step y x) <= g x) by (apply g_decr; lra).
          pose proof (step_dg y x ltac:(lra)) as E.
          pose proof (dg_incr x1 x H1 Hx).
          assert (newton_step y x * - dg x1 <= acceptError * y).
          { apply Rle_div_r; [lra|]. apply Rle_trans with d; [exact Sd | apply Rmin_r]. }
          nra.
        - apply Rle_ge, Rmult_le_pos; [lra|]. left. now apply Rinv_0_lt_compat. }
      apply ltR_false in R1, R2. rewrite R1, R2. cbn [orb]. now eexists.
    + apply IH; [lra | exact G' |]. rewrite S_INR in Hn. fold d. lra.
Qed.
Lemma g_small y : 0 < y -> exists B, 0 < B /\ g B < y.
Proof.
  intro Hy. exists (4 / y ^ 2). assert (0 < y ^ 2) by nra.
  assert (P : 0 < 4 / y ^ 2) by (apply Rdiv_lt_0_compat; lra).
  split; [exact P|]. unfold g.
  replace (sqrt (4 / y ^ 2)) with (2 / y).
  2:{ symmetry. replace (4 / y ^ 2) with ((2 / y) ^ 2) by (field; lra). apply sqrt_pow2. left. apply Rdiv_lt_0_compat; lra. }
  assert (exp (- (a * (4 / y ^ 2) ^ 2)) <= 1).
  { rewrite <- exp_0. apply exp_le. pose proof (pow2_ge_0 (4 / y ^ 2)). nra. }
  set (e := exp _) in *. replace (e / (2 / y)) with (e * y / 2) by (field; lra). nra.
Qed.
Lemma g_large y : 0 < y -> exists b, 0 < b /\ forall x, 0 < x <= b -> y <= g x.
Proof.
  intro Hy. set (z := exp (- a) / y). assert (Hz : 0 < z) by (apply Rdiv_lt_0_compat; [apply exp_pos | exact Hy]).
  exists (Rmin 1 (z ^ 2)). split; [apply Rmin_glb_lt; [lra | nra]|].
  intros x [Hx Hb]. pose proof (Rmin_l 1 (z ^ 2)). pose proof (Rmin_r 1 (z ^ 2)).
  unfold g. apply Rle_div_r; [now apply sqrt_lt_R0|].
  apply Rle_trans with (exp (- a)).
  - assert (sqrt x <= z). { rewrite <- (sqrt_pow2 z) by lra. apply sqrt_le_1_alt. lra. }
    replace (exp (- a)) with (y * z) by (unfold z; field; lra). apply Rmult_le_compat_l; lra.
  - apply exp_le. assert (x ^ 2 <= 1) by nra. nra.
Qed.
Lemma newton_finishes y x : 0 < y -> 0 < x -> exists n, forall relX relY, exists r, newton n y x relX relY = Some r.
Proof.
  intros Hy Hx. destruct (g_small y Hy) as (B & HB0 & HB). destruct (g_large y Hy) as (b & Hb & Hlarge).
  assert (Climb : forall x1, 0 < x1 -> y <= g x1 -> exists n, forall relX relY, exists r, newton n y x1 relX relY = Some r).
  { intros x1 H1 G. set (d := Rmin (acceptError * x1) (acceptError * y / - dg x1)).
    assert (Hd : 0 < d).
    { pose proof acc_pos. pose proof (dg_neg x1 H1). apply Rmin_glb_lt; [nra|]. apply Rdiv_lt_0_compat; nra. }
    destruct (nfloor_ex (Rmax 0 ((B - x1) / d)) (Rmax_l _ _)) as (n & _ & Hn).
    exists (S n + 2)%nat. intros relX relY. apply (newton_climbs y x1 B); try assumption; [lra|]. fold d.
    apply Rle_div_l; [exact Hd|]. rewrite S_INR. pose proof (Rmax_r 0 ((B - x1) / d)). lra. }
  assert (Start : forall m z, 0 < z -> z <= b * 2 ^ m -> exists n, forall relX relY, exists r, newton n y z relX relY = Some r).
  { induction m as [|m IH]; intros z Hz L.
    - apply Climb; [exact Hz|]. apply Hlarge. cbn in L. lra.
    - destruct (Rle_dec (z + newton_step y z) 0) as [N|N].
      + destruct (IH (z / 2)) as (n & Hn); [lra | cbn in L; lra |].
        exists (S n). intros relX relY. cbn [newton]. destruct (_ || _)%bool; [|now exists z].
        destruct (Rle_dec _ 0); [apply Hn | contradiction].
      + apply Rnot_le_lt in N. destruct (Climb _ N (step_lands y z Hz N)) as (n & Hn).
        exists (S n). intros relX relY. cbn [newton]. destruct (_ || _)%bool; [|now exists z].
        destruct (Rle_dec _ 0); [lra | apply Hn]. }
  destruct (Pow_x_infinity 2) with (b := x / b) as (m & Hm); [rewrite Rabs_right; lra|].
  apply (Start m x Hx). specialize (Hm m (le_n m)). rewrite Rabs_right in Hm by (left; apply pow_lt; lra).
  apply Rge_le in Hm. apply Rle_div_l in Hm; [lra | exact Hb].
Qed.
(** From any positive start the loop ends, just below the solution. *)
Lemma newton_total y x : 0 < y -> 0 < x ->
  exists n r, near y r /\ forall fuel, (n <= fuel)%nat -> newton fuel y x 1 1 = Some r.
Proof.
  intros Hy Hx. destruct (newton_finishes y x Hy Hx) as (n & H). destruct (H 1 1) as (r & E).
  exists n, r. split.
  - apply (newton_sound n y Hy x 1 1 Hx) in E; [exact E|]. left. left. apply acc_small.
  - intros fuel L. now apply (newton_more n fuel y L).
Qed.
End Newton.
