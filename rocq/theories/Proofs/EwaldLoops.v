(** The loops of the Ewald parameter search end, and what they find. *)
From Coq Require Import Reals Lra Lia Psatz Bool Arith.
From Coquelicot Require Import Coquelicot.
From Verif Require Import Model.SymFunctions Model.EwaldSetup Proofs.EwaldNewton.
Local Open Scope R_scope.

(** ** calculateS *)
Lemma s_loop_newton fuel y : forall s relX relY, 0 < s -> s_loop fuel y s relX relY = newton 1 fuel y s relX relY.
Proof.
  induction fuel as [|f IH]; intros s relX relY Hs; [reflexivity|].
  cbn [s_loop newton]. destruct (_ || _)%bool; [|reflexivity].
  pose proof (sqrt_lt_R0 s Hs) as Hq. pose proof (exp_pos (- s ^ 2)) as He.
  assert (E : 2 * s / (4 * s ^ 2 + 1) * (1 - sqrt s / exp (- s ^ 2) * y) = newton_step 1 y s).
  { unfold newton_step, g. rewrite Rmult_1_l, Rmult_1_r. f_equal. f_equal. field. lra. }
  rewrite E. destruct (Rle_dec s _) as [L|L]; destruct (Rle_dec (s + _) 0) as [M|M]; try lra.
  - apply IH. lra.
  - rewrite IH by lra. f_equal. unfold g. now rewrite Rmult_1_l.
Qed.
Lemma calculateS_total prec C eta s : 0 < prec -> 0 < C -> 0 < eta ->
  exists n r, near 1 (prec / C * sqrt (eta / 2)) r /\ forall fuel, (n <= fuel)%nat -> calculateS fuel prec C eta s = Some r.
Proof.
  intros Hp HC He.
  assert (Hy : 0 < prec / C * sqrt (eta / 2)).
  { apply Rmult_lt_0_compat; [now apply Rdiv_lt_0_compat | apply sqrt_lt_R0; lra]. }
  assert (Hs : 0 < (if Rle_dec s 0 then 1 / 2 else s)) by (destruct (Rle_dec s 0); lra).
  destruct (newton_total 1 Rlt_0_1 _ _ Hy Hs) as (n & r & N & H).
  exists n, r. split; [exact N|]. intros fuel L. unfold calculateS. rewrite s_loop_newton by exact Hs. now apply H.
Qed.
Lemma calculateS_more f1 f2 prec C eta s r : (f1 <= f2)%nat ->
  calculateS f1 prec C eta s = Some r -> calculateS f2 prec C eta s = Some r.
Proof.
  intros L. unfold calculateS.
  assert (Hs : 0 < (if Rle_dec s 0 then 1 / 2 else s)) by (destruct (Rle_dec s 0); lra).
  rewrite !s_loop_newton by exact Hs. now apply newton_more.
Qed.

(** ** calculateKCut *)
Lemma kcut_loop_newton fuel eta y : 0 < eta -> forall k relX relY, 0 < k ->
  kcut_loop fuel eta y k relX relY = newton (eta ^ 2 / 2) fuel y k relX relY.
Proof.
  intro He. induction fuel as [|f IH]; intros k relX relY Hk; [reflexivity|].
  cbn [kcut_loop newton]. destruct (_ || _)%bool; [|reflexivity].
  pose proof (sqrt_lt_R0 k Hk) as Hq.
  assert (G : forall k, 0 < k -> 1 / sqrt k * exp (- (k * eta) ^ 2 / 2) = g (eta ^ 2 / 2) k).
  { intros z Hz. pose proof (sqrt_lt_R0 z Hz). unfold g.
    replace (- (eta ^ 2 / 2 * z ^ 2)) with (- (z * eta) ^ 2 / 2) by field. field. lra. }
  assert (E : k - 2 * k / (1 + 2 * (k * eta) ^ 2) * (- (1) + sqrt k * exp ((k * eta) ^ 2 / 2) * y)
              = k + newton_step (eta ^ 2 / 2) y k).
  { unfold newton_step. rewrite <- G by exact Hk.
    replace (- (k * eta) ^ 2 / 2) with (- ((k * eta) ^ 2 / 2)) by field. rewrite exp_Ropp.
    pose proof (exp_pos ((k * eta) ^ 2 / 2)). pose proof (pow2_ge_0 (k * eta)). pose proof (pow2_ge_0 k).
    pose proof (pow2_ge_0 eta).
    assert (0 <= 4 * (eta ^ 2 / 2) * k ^ 2) by nra.
    field. repeat split; lra. }
  rewrite E. destruct (Rle_dec _ 0) as [L|L]; [apply IH; lra|].
  apply Rnot_le_lt in L. rewrite IH, G by lra. f_equal. f_equal. f_equal. ring.
Qed.
Lemma fixr_kCut_total C eta prec : 0 < C -> 0 < eta -> 0 < prec ->
  exists n r, near (eta ^ 2 / 2) (eta * prec / (sqrt 2 * C)) r /\ forall fuel, (n <= fuel)%nat -> fixr_kCut fuel C eta prec = Some r.
Proof.
  intros HC He Hp. pose proof (sqrt_lt_R0 2 ltac:(lra)).
  assert (Hy : 0 < eta * prec / (sqrt 2 * C)) by (apply Rdiv_lt_0_compat; nra).
  assert (Hk : 0 < 1 / eta) by (apply Rdiv_lt_0_compat; lra).
  destruct (newton_total (eta ^ 2 / 2) ltac:(nra) _ _ Hy Hk) as (n & r & N & H0).
  exists n, r. split; [exact N|]. intros fuel L. unfold fixr_kCut. rewrite kcut_loop_newton by assumption. now apply H0.
Qed.

(** ** calculateEta *)
Section Eta.
Variables prec C eta0 : R.
Hypothesis (Hp : 0 < prec) (HC : 0 < C) (H0 : 0 < eta0).

Let L := ln (1 + acceptError).
Let h s := s ^ 2 + 1 / 2 * ln s.
Let k s := 1 / 6 * ln (1 + 1 / (2 * s ^ 2)).
Definition next_eta (s : R) : R := eta0 * c_pow (1 + 1 / (2 * s ^ 2)) (1 / 6).
Let y eta := prec / C * sqrt (eta / 2).

Lemma L_pos : 0 < L.
Proof. unfold L. rewrite <- ln_1. apply ln_increasing; pose proof acc_pos; lra. Qed.
Lemma one_pos s : 0 < s -> 1 < 1 + 1 / (2 * s ^ 2).
Proof. intro Hs. assert (0 < 1 / (2 * s ^ 2)) by (apply Rdiv_lt_0_compat; nra). lra. Qed.
Lemma next_eta_pos s : 0 < s -> 0 < next_eta s.
Proof.
  intro Hs. pose proof (one_pos s Hs). unfold next_eta, c_pow. destruct (Req_EM_T _ 0); [lra|].
  apply Rmult_lt_0_compat; [exact H0 | apply exp_pos].
Qed.
Lemma ln_next s : 0 < s -> ln (next_eta s) = ln eta0 + k s.
Proof.
  intro Hs. pose proof (one_pos s Hs). unfold next_eta, c_pow. destruct (Req_EM_T _ 0); [lra|].
  rewrite ln_mult; [|exact H0 | apply exp_pos]. unfold Rpower. now rewrite ln_exp.
Qed.
Lemma y_pos eta : 0 < eta -> 0 < y eta.
Proof. intro He. unfold y. apply Rmult_lt_0_compat; [now apply Rdiv_lt_0_compat | apply sqrt_lt_R0; lra]. Qed.
Lemma ln_sqrt x : 0 < x -> ln (sqrt x) = 1 / 2 * ln x.
Proof.
  intro Hx. pose proof (sqrt_lt_R0 x Hx). rewrite <- (sqrt_sqrt x) at 2 by lra. rewrite ln_mult by assumption. lra.
Qed.
Lemma ln_y eta : 0 < eta -> ln (y eta) = ln (prec / C) + 1 / 2 * (ln eta - ln 2).
Proof.
  intro He. unfold y. rewrite ln_mult; [|now apply Rdiv_lt_0_compat | apply sqrt_lt_R0; lra].
  rewrite ln_sqrt by lra. now rewrite (ln_div eta 2) by lra.
Qed.
Lemma ln_g s : 0 < s -> ln (g 1 s) = - h s.
Proof.
  intro Hs. unfold g, h. rewrite ln_div; [|apply exp_pos | now apply sqrt_lt_R0].
  rewrite ln_exp, ln_sqrt by exact Hs. ring.
Qed.
(** What calculateS finds, in logarithms. *)
Lemma near_h eta s : 0 < eta -> near 1 (y eta) s -> - ln (y eta) - L <= h s <= - ln (y eta).
Proof.
  intros He (Hs & A & B). pose proof (y_pos eta He) as Hy. pose proof (g_pos 1 s Hs).
  pose proof acc_pos. pose proof (ln_g s Hs) as E.
  assert (ln (y eta) <= ln (g 1 s)). { destruct A as [A|A]; [left; now apply ln_increasing | rewrite A; lra]. }
  assert (ln (g 1 s) <= ln (y eta) + L).
  { unfold L. rewrite <- ln_mult by lra. destruct B as [B|B]; [left; now apply ln_increasing | rewrite B; lra]. }
  lra.
Qed.
Lemma h_incr s t : 0 < s -> s <= t -> h s <= h t.
Proof.
  intros Hs Ht. unfold h. assert (ln s <= ln t). { destruct Ht as [Ht| ->]; [left; now apply ln_increasing | lra]. }
  assert (s ^ 2 <= t ^ 2) by nra. lra.
Qed.
Lemma h_incr_inv s t : 0 < s -> 0 < t -> h s <= h t -> s <= t.
Proof.
  intros Hs Ht Hh. destruct (Rle_dec s t) as [A|A]; [exact A|]. exfalso. apply Rnot_le_lt in A.
  assert (ln t < ln s) by now apply ln_increasing. unfold h in Hh. nra.
Qed.
Lemma k_decr s t : 0 < s -> s <= t -> k t <= k s.
Proof.
  intros Hs Ht. unfold k. apply Rmult_le_compat_l; [lra|].
  assert (A : 1 / (2 * t ^ 2) <= 1 / (2 * s ^ 2)).
  { unfold Rdiv. rewrite !Rmult_1_l. apply Rinv_le_contravar; nra. }
  pose proof (one_pos t ltac:(lra)).
  destruct A as [A|A]; [left; apply ln_increasing; lra | rewrite A; lra].
Qed.
(** Contraction, above a positive lower bound for s. *)
Definition ratio (m : R) : R := 2 / 3 / ((2 * m ^ 2 + 1) * (4 * m ^ 2 + 1)).
Lemma ratio_bounds m : 0 < m -> 0 < ratio m < 2 / 3.
Proof.
  intro Hm. unfold ratio. assert (0 < m ^ 2) by nra. set (q := m ^ 2) in *.
  assert (D : 1 < (2 * q + 1) * (4 * q + 1)) by nra. split.
  - apply Rdiv_lt_0_compat; lra.
  - apply Rlt_div_l; nra.
Qed.
Lemma k_contracts m s t : 0 < m -> m <= s -> s <= t -> k s - k t <= ratio m * (h t - h s).
Proof.
  intros Hm Hs Ht.
  set (F := fun x => k x + ratio m * h x).
  set (dF := fun x => - (1 / (3 * x * (2 * x ^ 2 + 1))) + ratio m * ((4 * x ^ 2 + 1) / (2 * x))).
  assert (D : forall z, 0 < z -> is_derive F z (dF z)).
  { intros z Hz. unfold F, k, h, dF. pose proof (one_pos z Hz).
    auto_derive.
    - assert (0 < z * (z * 1)) by nra.
      repeat split; try lra. replace (z * (z * 1)) with (z ^ 2) by ring. lra.
    - assert (0 < z * (z * 1)) by nra.
      field_simplify_eq; [ring|]. repeat split; try lra. }
  destruct (mvt F dF s t ltac:(lra) ltac:(lra) D) as (c & Hc & B & E).
  rewrite Rmin_left, Rmax_right in B by lra.
  assert (0 <= dF c).
  { unfold dF. assert (m ^ 2 <= c ^ 2) by nra. assert (0 < m ^ 2) by nra.
    set (q := c ^ 2) in *. set (p := m ^ 2) in *.
    unfold ratio. fold p.
    assert (P1 : 0 < 2 * p + 1) by lra. assert (P2 : 0 < 4 * p + 1) by lra.
    assert (Q1 : 0 < 2 * q + 1) by lra. assert (Q2 : 0 < 4 * q + 1) by lra.
    replace (- (1 / (3 * c * (2 * q + 1))) + 2 / 3 / ((2 * p + 1) * (4 * p + 1)) * ((4 * q + 1) / (2 * c)))
      with (/ (3 * c) * ((4 * q + 1) / ((2 * p + 1) * (4 * p + 1)) - 1 / (2 * q + 1))).
    2:{ field. repeat split; lra. }
    apply Rmult_le_pos; [left; apply Rinv_0_lt_compat; lra|].
    assert (1 / (2 * q + 1) <= (4 * q + 1) / ((2 * p + 1) * (4 * p + 1))); [|lra].
    apply Rle_div_l; [exact Q1|]. unfold Rdiv. rewrite Rmult_assoc, (Rmult_comm (/ _)), <- Rmult_assoc.
    apply (Rle_div_r 1 _ _); nra. }
  unfold F in E. nra.
Qed.
Lemma k_contracts_abs m s t : 0 < m -> m <= s -> m <= t -> Rabs (k t - k s) <= ratio m * Rabs (h t - h s).
Proof.
  intros Hm Hs Ht. destruct (Rle_dec s t) as [A|A].
  - pose proof (k_contracts m s t Hm Hs A). pose proof (h_incr s t ltac:(lra) A). pose proof (k_decr s t ltac:(lra) A).
    rewrite Rabs_left1, Rabs_right by lra. lra.
  - apply Rnot_le_lt in A. assert (A' : t <= s) by lra.
    pose proof (k_contracts m t s Hm Ht A'). pose proof (h_incr t s ltac:(lra) A'). pose proof (k_decr t s ltac:(lra) A').
    rewrite (Rabs_right (k t - k s)), Rabs_left1 by lra. lra.
Qed.

(** A bound for eta, and the lower bound for s which comes with it. *)
Let c0 := Rabs (ln (prec / C)) + Rabs (ln 2).
Let X := Rabs (ln eta0) + 3 / 2 * (Rabs (ln eta0) + 1 / 6 + (2 + 2 * c0 + 2 * L) / 3).
Let m := exp (- (2 + 2 * c0 + 2 * L + X)).
Lemma c0_pos : 0 <= c0.
Proof. unfold c0. pose proof (Rabs_pos (ln (prec / C))). pose proof (Rabs_pos (ln 2)). lra. Qed.
Lemma X_pos : 0 <= X.
Proof. unfold X. pose proof c0_pos. pose proof L_pos. pose proof (Rabs_pos (ln eta0)). lra. Qed.
Lemma s_bound eta s : 0 < eta -> ln eta <= X -> near 1 (y eta) s -> m <= s.
Proof.
  intros He HX N. pose proof (near_h eta s He N) as [A _]. rewrite ln_y in A by exact He.
  apply h_incr_inv; [apply exp_pos | apply N |].
  apply Rle_trans with (- (ln (prec / C) + 1 / 2 * (ln eta - ln 2)) - L); [|exact A].
  unfold h, m. rewrite ln_exp.
  assert (exp (- (2 + 2 * c0 + 2 * L + X)) ^ 2 <= 1).
  { assert (exp (- (2 + 2 * c0 + 2 * L + X)) <= 1).
    { rewrite <- exp_0. apply exp_le. pose proof c0_pos. pose proof L_pos. pose proof X_pos. lra. }
    pose proof (exp_pos (- (2 + 2 * c0 + 2 * L + X))). nra. }
  pose proof (Rle_abs (ln (prec / C))). pose proof (Rle_abs (- ln 2)) as A2. rewrite Rabs_Ropp in A2.
  pose proof (Rabs_pos (ln 2)).
  assert (c0 = Rabs (ln (prec / C)) + Rabs (ln 2)) by reflexivity. lra.
Qed.
Lemma eta_bound eta s : 0 < eta -> ln eta <= X -> near 1 (y eta) s -> ln (next_eta s) <= X.
Proof.
  intros He HX N. pose proof (s_bound eta s He HX N) as B. destruct N as (Hs & _).
  rewrite ln_next by exact Hs. pose proof (k_decr m s (exp_pos _) B) as K.
  assert (K2 : k m <= 1 / 6 + (2 + 2 * c0 + 2 * L + X) / 3).
  { unfold k. assert (M : 0 < m) by apply exp_pos. assert (m <= 1).
    { unfold m. rewrite <- exp_0. apply exp_le. pose proof c0_pos. pose proof L_pos. pose proof X_pos. lra. }
    assert (0 < m ^ 2 <= 1) by nra.
    assert (E1 : 1 + 1 / (2 * m ^ 2) <= exp 1 / m ^ 2).
    { apply (Rmult_le_reg_r (m ^ 2)); [lra|]. replace ((1 + 1 / (2 * m ^ 2)) * m ^ 2) with (m ^ 2 + 1 / 2) by (field; lra).
      replace (exp 1 / m ^ 2 * m ^ 2) with (exp 1) by (field; lra). pose proof (exp_ineq1 1 ltac:(lra)). lra. }
    assert (E2 : ln (1 + 1 / (2 * m ^ 2)) <= 1 - 2 * ln m).
    { apply Rle_trans with (ln (exp 1 / m ^ 2)).
      - pose proof (one_pos m M). destruct E1 as [E1| ->]; [left; apply ln_increasing; lra | lra].
      - rewrite ln_div by (try apply exp_pos; lra). rewrite ln_exp. replace (m ^ 2) with (m * m) by ring.
        rewrite ln_mult by exact M. lra. }
    unfold m in E2 at 2. rewrite ln_exp in E2. lra. }
  pose proof (Rle_abs (ln eta0)). pose proof (Rabs_pos (ln eta0)). pose proof c0_pos. pose proof L_pos.
  assert (X = Rabs (ln eta0) + 3 / 2 * (Rabs (ln eta0) + 1 / 6 + (2 + 2 * c0 + 2 * L) / 3)) by reflexivity. lra.
Qed.
Lemma rel_ok old new : 0 < old -> 0 < new -> Rabs (ln old - ln new) <= L -> Rabs (old - new) / new <= acceptError.
Proof.
  intros Ho Hn H. pose proof acc_pos. apply Rle_div_l; [exact Hn|].
  destruct (Rle_dec new old) as [A|A].
  - rewrite Rabs_right by lra. pose proof (Rle_abs (ln old - ln new)).
    assert (ln old <= ln (new * (1 + acceptError))) by (rewrite ln_mult by lra; fold L; lra).
    assert (old <= new * (1 + acceptError)); [|lra].
    destruct (Rle_dec old (new * (1 + acceptError))) as [B|B]; [exact B|]. apply Rnot_le_lt in B.
    apply ln_increasing in B; [lra | nra].
  - apply Rnot_le_lt in A. rewrite Rabs_left by lra. pose proof (Rle_abs (- (ln old - ln new))) as A2. rewrite Rabs_Ropp in A2.
    assert (ln new <= ln (old * (1 + acceptError))) by (rewrite ln_mult by lra; fold L; lra).
    assert (new <= old * (1 + acceptError)).
    { destruct (Rle_dec new (old * (1 + acceptError))) as [B|B]; [exact B|]. apply Rnot_le_lt in B.
      apply ln_increasing in B; [lra | nra]. }
    nra.
Qed.

(** The result: s solves for an eta close to the one returned. *)
Definition eta_found (s eta : R) : Prop :=
  0 < s /\ eta = next_eta s /\ exists old, 0 < old /\ near 1 (y old) s /\ Rabs (old - eta) / eta <= acceptError.

Lemma eta_loop_more f1 : forall f2 s eta rel r, (f1 <= f2)%nat ->
  eta_loop f1 prec C eta0 s eta rel = Some r -> eta_loop f2 prec C eta0 s eta rel = Some r.
Proof.
  induction f1 as [|f IH]; intros f2 s eta rel r Lf H; [discriminate|].
  destruct f2 as [|f2]; [lia|]. cbn [eta_loop] in *. destruct (ltR _ _); [|exact H].
  destruct (calculateS f prec C eta s) as [s'|] eqn:E; [|discriminate].
  rewrite (calculateS_more f f2 _ _ _ _ _ ltac:(lia) E). apply IH; [lia | exact H].
Qed.
(** One round. *)
Lemma eta_round old s rel s' n : 
  (forall fuel, (n <= fuel)%nat -> calculateS fuel prec C old s = Some s') -> acceptError < rel ->
  forall n2 r, (forall fuel, (n2 <= fuel)%nat -> eta_loop fuel prec C eta0 s' (next_eta s') (Rabs (old - next_eta s') / next_eta s') = Some r) ->
  forall fuel, (S (Nat.max n n2) <= fuel)%nat -> eta_loop fuel prec C eta0 s old rel = Some r.
Proof.
  intros HS Hr n2 r H fuel Lf. destruct fuel as [|f]; [lia|]. cbn [eta_loop].
  apply ltR_true in Hr. rewrite Hr. rewrite HS by lia. apply H. lia.
Qed.

(** From the second round on the change of ln eta goes down to below L. *)
Lemma eta_tail N : forall old s,
  0 < old -> ln old <= X -> near 1 (y old) s ->
  let d := Rabs (ln (next_eta s) - ln old) in
  let q := ratio m in
  let lim := q * L / (1 - q / 2) in
  d <= lim + (L - lim) * 3 ^ N ->
  exists n r, eta_found (fst r) (snd r) /\
    forall fuel, (n <= fuel)%nat -> eta_loop fuel prec C eta0 s (next_eta s) (Rabs (old - next_eta s) / next_eta s) = Some r.
Proof.
  pose proof L_pos as HL. pose proof (ratio_bounds m (exp_pos _)) as Hq.
  assert (Hlim : let q := ratio m in let lim := q * L / (1 - q / 2) in 0 < lim < L).
  { cbv zeta. set (q := ratio m) in *. split; [apply Rdiv_lt_0_compat; nra | apply Rlt_div_l; nra]. }
  induction N as [|N IH]; intros old s Ho HX Nr d q lim Hd; cbv zeta in Hlim; fold q lim in Hlim; pose proof Hq as Hq2; fold q in Hq2.
  - exists 1%nat, (s, next_eta s). pose proof (next_eta_pos s (proj1 Nr)) as Hn.
    assert (R : Rabs (old - next_eta s) / next_eta s <= acceptError).
    { apply rel_ok; [exact Ho | exact Hn |]. rewrite Rabs_minus_sym. cbn in Hd. unfold d in Hd. lra. }
    split.
    + split; [apply Nr|]. split; [reflexivity|]. exists old. split; [exact Ho|]. split; [exact Nr | exact R].
    + intros [|f] Lf; [lia|]. cbn [eta_loop]. apply ltR_false in R. now rewrite R.
  - pose proof (next_eta_pos s (proj1 Nr)) as Hn.
    destruct (Rle_dec (Rabs (old - next_eta s) / next_eta s) acceptError) as [R|R].
    + exists 1%nat, (s, next_eta s). split.
      * split; [apply Nr|]. split; [reflexivity|]. exists old. split; [exact Ho|]. split; [exact Nr | exact R].
      * intros [|f] Lf; [lia|]. cbn [eta_loop]. apply ltR_false in R. now rewrite R.
    + apply Rnot_le_lt in R.
      destruct (calculateS_total prec C (next_eta s) s Hp HC Hn) as (n1 & s' & Nr' & HS). fold (y (next_eta s)) in Nr'.
      pose proof (eta_bound old s Ho HX Nr) as HX'.
      destruct (IH (next_eta s) s' Hn HX' Nr') as (n2 & r & F & H).
      { fold q lim.
        pose proof (s_bound old s Ho HX Nr) as B. pose proof (s_bound _ s' Hn HX' Nr') as B'.
        pose proof (k_contracts_abs m s s' (exp_pos _) B B') as K.
        pose proof (near_h old s Ho Nr) as A. pose proof (near_h _ s' Hn Nr') as A'.
        rewrite ln_y in A, A' by assumption.
        assert (Hh : Rabs (h s' - h s) <= 1 / 2 * d + L).
        { unfold d. apply Rabs_le. destruct (Rabs_le_between (ln (next_eta s) - ln old) (Rabs (ln (next_eta s) - ln old))) as [Q _].
          specialize (Q (Rle_refl _)). lra. }
        rewrite (ln_next s'), (ln_next s) by (apply Nr' || apply Nr).
        replace (ln eta0 + k s' - (ln eta0 + k s)) with (k s' - k s) by ring.
        fold q in K. apply Rle_trans with (q * (1 / 2 * d + L)); [nra|].
        assert (E : lim * (1 - q / 2) = q * L) by (unfold lim; field; lra).
        assert (T : 0 < 3 ^ N) by (apply pow_lt; lra). cbn [pow] in Hd.
        assert (q * (1 / 2 * d) <= q * (1 / 2 * (lim + (L - lim) * (3 * 3 ^ N)))) by nra.
        assert (Z : 0 <= (L - lim) * 3 ^ N) by nra. nra. }
      exists (S (Nat.max n1 n2)), r. split; [exact F|].
      exact (eta_round (next_eta s) s _ s' n1 HS R n2 r H).
Qed.
Lemma eta_total : exists n r, eta_found (fst r) (snd r) /\
  forall fuel, (n <= fuel)%nat -> eta_loop fuel prec C eta0 1 eta0 1 = Some r.
Proof.
  destruct (calculateS_total prec C eta0 1 Hp HC H0) as (n1 & s & Nr & HS). fold (y eta0) in Nr.
  assert (HX : ln eta0 <= X).
  { unfold X. pose proof (Rle_abs (ln eta0)). pose proof (Rabs_pos (ln eta0)). pose proof c0_pos. pose proof L_pos. lra. }
  pose proof L_pos as HL. pose proof (ratio_bounds m (exp_pos _)) as Hq.
  set (q := ratio m) in *. set (lim := q * L / (1 - q / 2)).
  assert (Hlim : 0 < lim < L) by (unfold lim; split; [apply Rdiv_lt_0_compat; nra | apply Rlt_div_l; nra]).
  destruct (Pow_x_infinity 3) with (b := Rabs (ln (next_eta s) - ln eta0) / (L - lim)) as (N & HN); [rewrite Rabs_right; lra|].
  destruct (eta_tail N eta0 s H0 HX Nr) as (n2 & r & F & H).
  { specialize (HN N (le_n N)). rewrite Rabs_right in HN by (left; apply pow_lt; lra). apply Rge_le in HN.
    fold q lim. apply Rle_div_l in HN; lra. }
  exists (S (Nat.max n1 n2)), r. split; [exact F|].
  exact (eta_round eta0 1 1 s n1 HS acc_small n2 r H).
Qed.
End Eta.
