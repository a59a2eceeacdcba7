(** Differentiating the solution of a system of linear equations. *)
From Coq Require Import Reals Lra Arith Lia.
From Coquelicot Require Import Coquelicot.
From Coq Require Import List.
From Verif Require Import Base.SumR Base.Linear.
Local Open Scope R_scope.

Definition tends (f : R -> R) (t0 l : R) : Prop := forall eps, 0 < eps -> locally t0 (fun t => Rabs (f t - l) < eps).

Lemma derive_tends f t0 l : is_derive f t0 l -> tends f t0 (f t0).
Proof.
  intros H eps Heps. assert (C : continuous f t0).
  { apply (ex_derive_continuous (K:=R_AbsRing) (V:=R_NormedModule) f t0). eexists; eauto. }
  apply (proj1 (filterlim_locally f (f t0)) C (mkposreal eps Heps)).
Qed.
Lemma tends_const c t0 : tends (fun _ => c) t0 c.
Proof. intros eps Heps. exists (mkposreal 1 Rlt_0_1). intros. rewrite Rminus_diag_eq, Rabs_R0; auto. Qed.
Lemma tends_plus f g t0 a b : tends f t0 a -> tends g t0 b -> tends (fun t => f t + g t) t0 (a + b).
Proof.
  intros Hf Hg eps Heps. generalize (filter_and (F := locally t0) _ _ (Hf (eps / 2) ltac:(lra)) (Hg (eps / 2) ltac:(lra))).
  apply filter_imp. intros t [H1 H2]. replace (f t + g t - (a + b)) with ((f t - a) + (g t - b)) by ring.
  eapply Rle_lt_trans; [apply Rabs_triang|]. lra.
Qed.
Lemma tends_ext_loc f g t0 a : locally t0 (fun t => f t = g t) -> tends f t0 a -> tends g t0 a.
Proof.
  intros He Hf eps Heps. generalize (filter_and (F := locally t0) _ _ He (Hf eps Heps)). apply filter_imp. intros t [<- H]. auto.
Qed.
Lemma tends_sumn n f t0 l : (forall i, (i < n)%nat -> tends (f i) t0 (l i)) ->
  tends (fun t => sumn n (fun i => f i t)) t0 (sumn n l).
Proof.
  induction n; intros H.
  - apply (tends_ext_loc (fun _ => 0)). { apply filter_forall. reflexivity. } apply tends_const.
  - rewrite sumn_S. apply (tends_ext_loc (fun t => sumn n (fun i => f i t) + f n t)).
    { apply filter_forall. intros t. now rewrite sumn_S. }
    apply tends_plus; auto.
Qed.
Lemma tends_abs f t0 a : tends f t0 a -> tends (fun t => Rabs (f t)) t0 (Rabs a).
Proof.
  intros H eps Heps. generalize (H eps Heps). apply filter_imp. intros t Ht.
  eapply Rle_lt_trans; [apply Rabs_triang_inv2|]. auto.
Qed.
Lemma tends_scal k f t0 a : tends f t0 a -> tends (fun t => k * f t) t0 (k * a).
Proof.
  intros H eps Heps. pose proof (Rabs_pos k).
  generalize (H (eps / (Rabs k + 1)) ltac:(apply Rdiv_lt_0_compat; lra)). apply filter_imp. intros t Ht.
  replace (k * f t - k * a) with (k * (f t - a)) by ring. rewrite Rabs_mult. pose proof (Rabs_pos (f t - a)).
  apply Rle_lt_trans with ((Rabs k + 1) * Rabs (f t - a)); [nra|].
  apply Rlt_le_trans with ((Rabs k + 1) * (eps / (Rabs k + 1))); [apply Rmult_lt_compat_l; lra|].
  right. field. lra.
Qed.
Lemma tends_bounded_mult f g t0 M : tends f t0 0 -> locally t0 (fun t => Rabs (g t) <= M) -> tends (fun t => f t * g t) t0 0.
Proof.
  intros Hf Hg eps Heps.
  assert (HM : 0 <= M). { apply locally_singleton in Hg. pose proof (Rabs_pos (g t0)). lra. }
  generalize (filter_and (F := locally t0) _ _ Hg (Hf (eps / (M + 1)) ltac:(apply Rdiv_lt_0_compat; lra))). apply filter_imp. intros t [H1 H2].
  rewrite Rminus_0_r in *. rewrite Rabs_mult. pose proof (Rabs_pos (f t)). pose proof (Rabs_pos (g t)).
  apply Rle_lt_trans with (Rabs (f t) * (M + 1)); [nra|].
  apply Rlt_le_trans with (eps / (M + 1) * (M + 1)); [apply Rmult_lt_compat_r; lra|]. right. field. lra.
Qed.

(** A factor vanishing at the point needs no derivative of the other one. *)
Lemma derive_vanishing_mult f g t0 l : f t0 = 0 -> is_derive f t0 l -> tends g t0 (g t0) ->
  is_derive (fun t => f t * g t) t0 (l * g t0).
Proof.
  intros H0 Hf Hg. apply is_derive_Reals. apply is_derive_Reals in Hf.
  assert (HL := Rabs_pos l). assert (HG := Rabs_pos (g t0)).
  intros eps Heps.
  destruct (Hf (Rmin 1 (eps / (2 * (Rabs (g t0) + 1)))) ltac:(apply Rmin_pos; [lra|apply Rdiv_lt_0_compat; lra])) as [d1 D1].
  destruct (Hg (eps / (2 * (Rabs l + 1))) ltac:(apply Rdiv_lt_0_compat; lra)) as [d2 D2].
  exists (mkposreal (Rmin d1 d2) (Rmin_pos _ _ (cond_pos d1) (cond_pos d2))). intros h Hh Hhd. simpl in Hhd.
  pose proof (Rmin_l d1 d2). pose proof (Rmin_r d1 d2).
  specialize (D1 h Hh ltac:(lra)). rewrite H0, Rminus_0_r in D1.
  assert (B : Rabs (g (t0 + h) - g t0) < eps / (2 * (Rabs l + 1))).
  { apply D2. unfold ball; simpl. unfold AbsRing_ball, abs, minus, plus, opp; simpl. replace (t0 + h + - t0) with h by ring. lra. }
  rewrite H0. replace ((f (t0 + h) * g (t0 + h) - 0 * g t0) / h - l * g t0)
    with ((f (t0 + h) / h) * (g (t0 + h) - g t0) + (f (t0 + h) / h - l) * g t0) by (field; auto).
  set (q := f (t0 + h) / h) in *. set (e := g (t0 + h) - g t0) in *.
  pose proof (Rmin_l 1 (eps / (2 * (Rabs (g t0) + 1)))). pose proof (Rmin_r 1 (eps / (2 * (Rabs (g t0) + 1)))).
  assert (Q : Rabs q <= Rabs l + 1). { replace q with (l + (q - l)) by ring. eapply Rle_trans; [apply Rabs_triang|]. lra. }
  eapply Rle_lt_trans; [apply Rabs_triang|]. rewrite !Rabs_mult. pose proof (Rabs_pos q). pose proof (Rabs_pos e). pose proof (Rabs_pos (q - l)).
  assert (T1 : Rabs q * Rabs e < eps / 2).
  { apply Rle_lt_trans with ((Rabs l + 1) * Rabs e); [nra|].
    apply Rlt_le_trans with ((Rabs l + 1) * (eps / (2 * (Rabs l + 1)))); [apply Rmult_lt_compat_l; lra|]. right. field. lra. }
  assert (T2 : Rabs (q - l) * Rabs (g t0) <= eps / 2).
  { apply Rle_trans with (eps / (2 * (Rabs (g t0) + 1)) * (Rabs (g t0) + 1)); [apply Rmult_le_compat; lra|]. right. field. lra. }
  lra.
Qed.

(** Inverse matrix. *)
Definition unit (j i : nat) : R := if Nat.eqb i j then 1 else 0.
Definition inverse (n : nat) (A : nat -> nat -> R) (i j : nat) : R := gauss_solve n A (unit j) i.
Lemma sumn_unit n i c : (i < n)%nat -> sumn n (fun j => unit j i * c j) = c i.
Proof.
  intros Hi. rewrite (sumn_single n _ i Hi). { unfold unit. rewrite Nat.eqb_refl. ring. }
  intros j Hj Hne. unfold unit. destruct (Nat.eqb_spec i j); [congruence|]. ring.
Qed.
Lemma inverse_solves n A c : nonsingular n A -> solution n A c (fun i => sumn n (fun j => inverse n A i j * c j)).
Proof.
  intros Hn i Hi. unfold mv.
  rewrite (sumn_ext n _ (fun k => sumn n (fun j => A i k * (inverse n A k j * c j)))).
  2:{ intros. now rewrite <- sumn_scal. }
  rewrite sumn_swap. rewrite <- (sumn_unit n i c Hi). apply sumn_ext. intros j Hj.
  rewrite (sumn_ext n _ (fun k => A i k * inverse n A k j * c j)) by (intros; ring).
  rewrite sumn_scal_r. f_equal. apply (gauss_solve_exact n A (unit j) Hn i Hi).
Qed.
Lemma inverse_unique n A c x : nonsingular n A -> solution n A c x ->
  forall i, (i < n)%nat -> x i = sumn n (fun j => inverse n A i j * c j).
Proof. intros Hn Hx. apply (solution_unique n A c); auto. now apply inverse_solves. Qed.

Lemma sumn_le n f g : (forall i, (i < n)%nat -> f i <= g i) -> sumn n f <= sumn n g.
Proof. intros H. induction n; [unfold sumn; simpl; lra|]. rewrite !sumn_S. assert (f n <= g n) by (apply H; lia). assert (sumn n f <= sumn n g) by (apply IHn; intros; apply H; lia). lra. Qed.
Lemma sumn_abs n f : Rabs (sumn n f) <= sumn n (fun i => Rabs (f i)).
Proof. induction n; [unfold sumn; simpl; rewrite Rabs_R0; lra|]. rewrite !sumn_S. eapply Rle_trans; [apply Rabs_triang|]. lra. Qed.
Lemma sumn_nonneg n f : (forall i, (i < n)%nat -> 0 <= f i) -> 0 <= sumn n f.
Proof. intros H. rewrite <- (sumn_zero n (fun _ => 0)) by auto. now apply sumn_le. Qed.
Lemma sumn_term n f i : (i < n)%nat -> (forall j, (j < n)%nat -> 0 <= f j) -> f i <= sumn n f.
Proof.
  intros Hi H. induction n; [lia|]. rewrite sumn_S. destruct (Nat.eq_dec i n) as [->|Hne].
  - assert (0 <= sumn n f) by (apply sumn_nonneg; intros; apply H; lia). lra.
  - assert (f i <= sumn n f) by (apply IHn; [lia|intros; apply H; lia]). assert (0 <= f n) by (apply H; lia). lra.
Qed.

Section Implicit.
Variables (n : nat) (A : R -> nat -> nat -> R) (b x : R -> nat -> R) (dA : nat -> nat -> R) (db : nat -> R) (t0 : R).
Hypothesis Hns : nonsingular n (A t0).
Hypothesis Hsol : locally t0 (fun t => solution n (A t) (b t) (x t)).
Hypothesis HdA : forall i j, (i < n)%nat -> (j < n)%nat -> is_derive (fun t => A t i j) t0 (dA i j).
Hypothesis Hdb : forall i, (i < n)%nat -> is_derive (fun t => b t i) t0 (db i).

Let D t j k := A t j k - A t0 j k.
Lemma D_derive j k : (j < n)%nat -> (k < n)%nat -> is_derive (fun t => D t j k) t0 (dA j k).
Proof.
  intros Hj Hk. unfold D. eapply is_derive_eq.
  { apply (is_derive_minus (fun t => A t j k) (fun _ => A t0 j k)). apply HdA; auto. apply (is_derive_const (A t0 j k) t0). }
  unfold minus, plus, opp, zero; simpl. ring.
Qed.
Lemma D_zero j k : D t0 j k = 0.
Proof. unfold D. ring. Qed.
Lemma D_tends j k : (j < n)%nat -> (k < n)%nat -> tends (fun t => D t j k) t0 0.
Proof. intros Hj Hk. rewrite <- (D_zero j k). eapply (derive_tends (fun t => D t j k)). apply D_derive; auto. Qed.

Lemma x_formula : locally t0 (fun t => forall i, (i < n)%nat ->
  x t i = sumn n (fun j => inverse n (A t0) i j * (b t j - sumn n (fun k => D t j k * x t k)))).
Proof.
  generalize Hsol. apply filter_imp. intros t Ht i Hi. apply (inverse_unique n (A t0) _ (x t)); auto.
  intros j Hj. specialize (Ht j Hj). rewrite <- Ht. unfold mv, D. rewrite <- sumn_minus. apply sumn_ext. intros; ring.
Qed.

Let C := sumn n (fun i => sumn n (fun j => Rabs (inverse n (A t0) i j))).
Let S t := sumn n (fun k => Rabs (x t k)).
Let dl t := sumn n (fun j => sumn n (fun k => Rabs (D t j k))).
Let Bn t := sumn n (fun j => Rabs (b t j)).

Lemma C_nonneg : 0 <= C.
Proof. apply sumn_nonneg. intros. apply sumn_nonneg. intros. apply Rabs_pos. Qed.
Lemma S_bound : locally t0 (fun t => S t <= C * (Bn t + dl t * S t)).
Proof.
  generalize x_formula. apply filter_imp. intros t Ht. unfold S at 1, C.
  rewrite <- sumn_scal_r. apply sumn_le. intros i Hi. rewrite (Ht i Hi).
  eapply Rle_trans; [apply sumn_abs|]. rewrite <- sumn_scal_r. apply sumn_le. intros j Hj. rewrite Rabs_mult.
  apply Rmult_le_compat_l; [apply Rabs_pos|]. unfold Rminus.
  eapply Rle_trans; [apply Rabs_triang|]. rewrite Rabs_Ropp. apply Rplus_le_compat.
  - apply (sumn_term n (fun j => Rabs (b t j)) j Hj). intros; apply Rabs_pos.
  - eapply Rle_trans; [apply sumn_abs|]. unfold dl. rewrite <- sumn_scal_r.
    apply Rle_trans with (sumn n (fun k => Rabs (D t j k)) * S t).
    + unfold S. rewrite <- sumn_scal_r. apply sumn_le. intros k Hk. rewrite Rabs_mult.
      apply Rmult_le_compat_l; [apply Rabs_pos|]. apply (sumn_term n (fun k => Rabs (x t k)) k Hk). intros; apply Rabs_pos.
    + apply (sumn_term n (fun j => sumn n (fun k => Rabs (D t j k)) * S t) j Hj).
      intros i' Hi'. apply Rmult_le_pos; apply sumn_nonneg; intros; apply Rabs_pos.
Qed.
Lemma x_bounded : exists M, locally t0 (fun t => forall k, (k < n)%nat -> Rabs (x t k) <= M).
Proof.
  assert (T1 : tends dl t0 0).
  { replace 0 with (sumn n (fun j => sumn n (fun k => 0))).
    2:{ apply sumn_zero. intros. apply sumn_zero. auto. }
    apply (tends_sumn n (fun j t => sumn n (fun k => Rabs (D t j k)))). intros j Hj.
    apply (tends_sumn n (fun k t => Rabs (D t j k))). intros k Hk. rewrite <- Rabs_R0.
    apply (tends_abs (fun t => D t j k)). now apply D_tends. }
  assert (T2 : tends Bn t0 (Bn t0)).
  { apply (tends_sumn n (fun j t => Rabs (b t j))). intros j Hj. apply (tends_abs (fun t => b t j)).
    eapply (derive_tends (fun t => b t j)). apply Hdb; auto. }
  pose proof C_nonneg as HC.
  exists (2 * C * (Bn t0 + 1)).
  generalize (filter_and (F := locally t0) _ _ S_bound (filter_and (F := locally t0) _ _ (T1 (/ (2 * (C + 1))) ltac:(apply Rinv_0_lt_compat; lra)) (T2 1 Rlt_0_1))).
  apply filter_imp. intros t (H1 & H2 & H3) k Hk.
  assert (HS : 0 <= S t) by (apply sumn_nonneg; intros; apply Rabs_pos).
  apply Rle_trans with (S t). { apply (sumn_term n (fun k => Rabs (x t k)) k Hk). intros; apply Rabs_pos. }
  rewrite Rminus_0_r in H2. apply Rabs_def2 in H3. destruct (Rabs_def2 _ _ H2) as [H4 _].
  assert (E : C * dl t <= / 2).
  { apply Rle_trans with ((C + 1) * / (2 * (C + 1))); [|right; field; lra].
    assert (0 < / (2 * (C + 1))) by (apply Rinv_0_lt_compat; lra).
    apply Rle_trans with (C * / (2 * (C + 1))); [apply Rmult_le_compat_l; lra|]. nra. }
  assert (C * dl t * S t <= / 2 * S t) by nra. assert (C * Bn t <= C * (Bn t0 + 1)) by (apply Rmult_le_compat_l; lra). lra.
Qed.
Lemma x_tends i : (i < n)%nat -> tends (fun t => x t i) t0 (x t0 i).
Proof.
  intros Hi. destruct x_bounded as [M HM].
  pose proof (locally_singleton _ _ x_formula) as E0. cbn beta in E0.
  rewrite (E0 i Hi).
  apply (tends_ext_loc (fun t => sumn n (fun j => inverse n (A t0) i j * (b t j + - 1 * sumn n (fun k => D t j k * x t k))))).
  { generalize x_formula. apply filter_imp. intros t Ht. rewrite (Ht i Hi). apply sumn_ext. intros; ring. }
  apply (tends_sumn n (fun j t => inverse n (A t0) i j * (b t j + - 1 * sumn n (fun k => D t j k * x t k)))). intros j Hj.
  apply (tends_scal _ (fun t => b t j + - 1 * sumn n (fun k => D t j k * x t k))).
  replace (b t0 j - sumn n (fun k => D t0 j k * x t0 k)) with (b t0 j + - 1 * sumn n (fun _ => 0)).
  2:{ rewrite (sumn_zero n (fun _ => 0)) by auto. rewrite sumn_zero; [ring|]. intros. rewrite D_zero. ring. }
  apply tends_plus.
  - eapply (derive_tends (fun t => b t j)). apply Hdb; auto.
  - apply (tends_scal _ (fun t => sumn n (fun k => D t j k * x t k))).
    apply (tends_sumn n (fun k t => D t j k * x t k)). intros k Hk.
    apply (tends_bounded_mult (fun t => D t j k) (fun t => x t k) t0 M). { now apply D_tends. }
    generalize HM. apply filter_imp. auto.
Qed.
Theorem linear_implicit y : solution n (A t0) (fun i => db i - mv n dA (x t0) i) y ->
  forall i, (i < n)%nat -> is_derive (fun t => x t i) t0 (y i).
Proof.
  intros Hy i Hi. rewrite (inverse_unique n (A t0) _ y Hns Hy i Hi).
  apply (is_derive_ext_loc (fun t => sumn n (fun j => inverse n (A t0) i j * (b t j - sumn n (fun k => D t j k * x t k))))).
  { generalize x_formula. apply filter_imp. intros t Ht. now rewrite (Ht i Hi). }
  apply (is_derive_sumn n (fun j t => inverse n (A t0) i j * (b t j - sumn n (fun k => D t j k * x t k)))).
  intros j Hj. apply (is_derive_scal (fun t => b t j - sumn n (fun k => D t j k * x t k))).
  apply (is_derive_minus (fun t => b t j) (fun t => sumn n (fun k => D t j k * x t k))).
  - now apply Hdb.
  - unfold mv. apply (is_derive_sumn n (fun k t => D t j k * x t k)). intros k Hk.
    apply (derive_vanishing_mult (fun t => D t j k) (fun t => x t k)).
    + apply D_zero. + now apply D_derive. + now apply x_tends.
Qed.
End Implicit.

(** Regular systems stay regular. *)
Lemma nonsingular_near n (A : R -> nat -> nat -> R) t0 : nonsingular n (A t0) ->
  (forall i j, (i < n)%nat -> (j < n)%nat -> tends (fun t => A t i j) t0 (A t0 i j)) ->
  locally t0 (fun t => nonsingular n (A t)).
Proof.
  intros Hns HA.
  set (C := sumn n (fun i => sumn n (fun j => Rabs (inverse n (A t0) i j)))).
  set (dl := fun t => sumn n (fun j => sumn n (fun k => Rabs (A t j k - A t0 j k)))).
  assert (HC : 0 <= C) by (apply sumn_nonneg; intros; apply sumn_nonneg; intros; apply Rabs_pos).
  assert (T1 : tends dl t0 0).
  { replace 0 with (sumn n (fun j => sumn n (fun k => 0))).
    2:{ apply sumn_zero. intros. apply sumn_zero. auto. }
    apply (tends_sumn n (fun j t => sumn n (fun k => Rabs (A t j k - A t0 j k)))). intros j Hj.
    apply (tends_sumn n (fun k t => Rabs (A t j k - A t0 j k))). intros k Hk. rewrite <- Rabs_R0.
    apply (tends_abs (fun t => A t j k - A t0 j k)).
    replace 0 with (A t0 j k + - A t0 j k) by ring. apply (tends_plus (fun t => A t j k) (fun _ => - A t0 j k)).
    now apply HA. apply tends_const. }
  generalize (T1 (/ (2 * (C + 1))) ltac:(apply Rinv_0_lt_compat; lra)). apply filter_imp.
  intros t Ht x Hx. rewrite Rminus_0_r in Ht. destruct (Rabs_def2 _ _ Ht) as [H4 _].
  set (S := sumn n (fun k => Rabs (x k))).
  assert (HS : 0 <= S) by (apply sumn_nonneg; intros; apply Rabs_pos).
  assert (B : S <= C * (dl t * S)).
  { unfold S at 1, C. rewrite <- sumn_scal_r. apply sumn_le. intros i Hi.
    assert (Hx' : solution n (A t0) (fun j => - sumn n (fun k => (A t j k - A t0 j k) * x k)) x).
    { intros j Hj. specialize (Hx j Hj). cbn beta in Hx. unfold mv in *.
      assert (E : sumn n (fun k => (A t j k - A t0 j k) * x k) = sumn n (fun k => A t j k * x k) - sumn n (fun k => A t0 j k * x k)).
      { rewrite <- sumn_minus. apply sumn_ext. intros; ring. } rewrite E, Hx. ring. }
    rewrite (inverse_unique n (A t0) _ x Hns Hx' i Hi).
    eapply Rle_trans; [apply sumn_abs|]. rewrite <- sumn_scal_r. apply sumn_le. intros j Hj. rewrite Rabs_mult, Rabs_Ropp.
    apply Rmult_le_compat_l; [apply Rabs_pos|].
    eapply Rle_trans; [apply sumn_abs|]. unfold dl. rewrite <- sumn_scal_r.
    apply Rle_trans with (sumn n (fun k => Rabs (A t j k - A t0 j k)) * S).
    + unfold S. rewrite <- sumn_scal_r. apply sumn_le. intros k Hk. rewrite Rabs_mult.
      apply Rmult_le_compat_l; [apply Rabs_pos|]. apply (sumn_term n (fun k => Rabs (x k)) k Hk). intros; apply Rabs_pos.
    + apply (sumn_term n (fun j => sumn n (fun k => Rabs (A t j k - A t0 j k)) * S) j Hj).
      intros i' Hi'. apply Rmult_le_pos; [|auto]. apply sumn_nonneg; intros; apply Rabs_pos. }
  assert (E : C * dl t <= / 2).
  { apply Rle_trans with ((C + 1) * / (2 * (C + 1))); [|right; field; lra].
    assert (0 < / (2 * (C + 1))) by (apply Rinv_0_lt_compat; lra).
    apply Rle_trans with (C * / (2 * (C + 1))); [apply Rmult_le_compat_l; lra|]. nra. }
  assert (S0 : S = 0) by nra.
  intros i Hi. assert (Hle : Rabs (x i) <= S) by (apply (sumn_term n (fun k => Rabs (x k)) i Hi); intros; apply Rabs_pos).
  rewrite S0 in Hle. pose proof (Rabs_pos (x i)). destruct (Req_EM_T (x i) 0) as [|Hne]; auto.
  pose proof (Rabs_pos_lt _ Hne). lra.
Qed.
