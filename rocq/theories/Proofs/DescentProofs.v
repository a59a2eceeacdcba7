(** Gradient descent and Adam. *)
From Coq Require Import Reals Lra Lia Arith.
From Coquelicot Require Import Coquelicot.
From Coq Require Import List.
From Verif Require Import Base.SumR Base.Loop Model.Updaters Spec.UpdaterSpec.
Import ListNotations.
Open Scope R_scope.

Definition same_fields (g g' : descent) : Prop :=
  g_type g' = g_type g /\ g_n g' = g_n g /\ g_eta0 g' = g_eta0 g /\ g_beta1 g' = g_beta1 g /\ g_beta2 g' = g_beta2 g /\
  g_eps g' = g_eps g /\ g_beta1t g' = g_beta1t g /\ g_beta2t g' = g_beta2t g.

Lemma fixed_loop n error gradient g : let g' := for_up n (fixed_step error gradient) g in
  same_fields g g' /\ g_eta g' = g_eta g /\
  (forall i, (i < n)%nat -> g_w g' i = g_w g i - g_eta g * error * - gradient i) /\ (forall i, (n <= i)%nat -> g_w g' i = g_w g i).
Proof.
  induction n. { cbn. unfold same_fields. intuition lia. }
  cbn [for_up]. cbv zeta in IHn. set (g1 := for_up n (fixed_step error gradient) g) in *.
  destruct IHn as (S1 & E1 & L1 & H1). cbv zeta. split; [exact S1|]. split; [exact E1|].
  unfold fixed_step. cbn [g_w]. split; intros i Hi.
  - destruct (Nat.eq_dec i n) as [E|E]. { subst i. rewrite upd_same, H1, E1 by lia. auto. }
    rewrite upd_other by auto. apply L1. lia.
  - rewrite upd_other by lia. apply H1. lia.
Qed.
Lemma adam_loop n error gradient g : let g' := for_up n (adam_step error gradient) g in
  same_fields g g' /\
  (forall i, (i < n)%nat ->
     let gi := error * - gradient i in
     g_m g' i = g_beta1 g * g_m g i + (1 - g_beta1 g) * gi /\
     g_v g' i = g_beta2 g * g_v g i + (1 - g_beta2 g) * gi * gi /\
     g_w g' i = g_w g i - g_eta0 g * sqrt (1 - g_beta2t g) / (1 - g_beta1t g) * g_m g' i / (sqrt (g_v g' i) + g_eps g)) /\
  (forall i, (n <= i)%nat -> g_m g' i = g_m g i /\ g_v g' i = g_v g i /\ g_w g' i = g_w g i).
Proof.
  induction n. { cbn. unfold same_fields. intuition lia. }
  cbn [for_up]. cbv zeta in IHn. set (g1 := for_up n (adam_step error gradient) g) in *.
  destruct IHn as (S1 & L1 & H1). cbv zeta. split; [exact S1|].
  destruct S1 as (_ & _ & A0 & A1 & A2 & A3 & A4 & A5).
  unfold adam_step. cbn [g_w g_m g_v]. rewrite A0, A1, A2, A3, A4, A5. split; intros i Hi.
  - destruct (Nat.eq_dec i n) as [E|E].
    + subst i. rewrite !upd_same. destruct (H1 n ltac:(lia)) as (-> & -> & ->). auto.
    + rewrite !upd_other by auto. apply L1. lia.
  - rewrite !upd_other by lia. apply H1. lia.
Qed.

Lemma half_square target (h : R -> R) (x d : R) : is_derive h x d -> is_derive (fun t => (target - h t) ^ 2 / 2) x ((target - h x) * - d).
Proof.
  intros H. auto_derive. { exists d. exact H. }
  replace (Derive (fun x => h x) x) with d by (symmetry; now apply is_derive_unique). field.
Qed.
Lemma fixed_direction g error gradient f target : g_type g = DT_FIXED ->
  error = target - f (g_w g) ->
  (forall i, (i < g_n g)%nat -> is_derive (fun t => f (upd (g_w g) i t)) (g_w g i) (gradient i)) ->
  forall i, (i < g_n g)%nat -> exists D : R,
    is_derive (fun t => (target - f (upd (g_w g) i t)) ^ 2 / 2) (g_w g i) D /\
    g_w (descent_update (error, gradient) g) i = g_w g i - g_eta g * D.
Proof.
  intros Ht He Hd i Hi. exists (error * - gradient i). split.
  - specialize (Hd i Hi).
    assert (Eu : f (upd (g_w g) i (g_w g i)) = f (g_w g)).
    { f_equal. apply Coq.Logic.FunctionalExtensionality.functional_extensionality. intros j.
      destruct (Nat.eq_dec j i) as [E|E]. { subst j. apply upd_same. } now apply upd_other. }
    rewrite He, <- Eu. exact (half_square target (fun t => f (upd (g_w g) i t)) (g_w g i) (gradient i) Hd).
  - unfold descent_update. rewrite Ht. cbn [fst snd].
    destruct (fixed_loop (g_n g) error gradient g) as (_ & _ & L & _). rewrite L by auto. ring.
Qed.

Lemma descent_run_snoc os o g : descent_run (os ++ [o]) g = descent_update o (descent_run os g).
Proof. unfold descent_run. now rewrite fold_left_app. Qed.

Lemma fixed_run os n w g0 eta : new_descent n DT_FIXED w = Some g0 -> let g := descent_run os (setParametersFixed eta g0) in
  g_type g = DT_FIXED /\ g_n g = n /\ g_eta g = eta /\ forall i, (i < n)%nat -> g_w g i = w i + eta * rsum (map (fun o => fst o * snd o i) os).
Proof.
  intros Hn. unfold new_descent in Hn. destruct (Nat.ltb n 1); [discriminate|]. injection Hn as <-. cbv zeta.
  induction os as [|o os IH] using rev_ind. { cbn. repeat split; auto. intros. ring. }
  rewrite descent_run_snoc. destruct IH as (I1 & I2 & I3 & I4).
  set (g := descent_run os _) in *. unfold descent_update. rewrite I1.
  destruct (fixed_loop (g_n g) (fst o) (snd o) g) as ((S1 & S2 & _) & E & L & _).
  rewrite S1, S2, E, I1, I2, I3. repeat split; auto. intros i Hi. rewrite I2 in L. rewrite (L i Hi).
  rewrite I3, I4, map_app, rsum_app by auto. unfold vector in *. cbn [map rsum]. ring.
Qed.

Definition grads (os : list (R * vector)) : list vector := map (fun o i => fst o * - snd o i) os.

Lemma adam_run os n w g0 alpha beta1 beta2 eps : new_descent n DT_ADAM w = Some g0 -> 0 <= beta1 < 1 -> 0 <= beta2 < 1 -> 0 < eps ->
  let g := descent_run os (setParametersAdam alpha beta1 beta2 eps g0) in
  let '(t, m, v, theta) := adam_reference alpha beta1 beta2 (fun t => eps / sqrt (1 - beta2 ^ t)) w (grads os) in
  g_type g = DT_ADAM /\ g_n g = n /\ g_eta0 g = alpha /\ g_beta1 g = beta1 /\ g_beta2 g = beta2 /\ g_eps g = eps /\
  t = length os /\ g_beta1t g = beta1 ^ S t /\ g_beta2t g = beta2 ^ S t /\
  forall i, (i < n)%nat -> g_m g i = m i /\ g_v g i = v i /\ g_w g i = theta i.
Proof.
  intros Hn Hb1 Hb2 He. unfold new_descent in Hn. destruct (Nat.ltb n 1); [discriminate|]. injection Hn as <-. cbv zeta.
  induction os as [|o os IH] using rev_ind. { cbn. repeat split; auto; ring. }
  rewrite descent_run_snoc. unfold grads, adam_reference in *. rewrite map_app, fold_left_app. cbn [map fold_left].
  set (g := descent_run os _) in *.
  match type of IH with context [fold_left ?f ?l ?a] => remember (fold_left f l a) as RS end.
  match goal with |- context [fold_left ?f ?l ?a] => replace (fold_left f l a) with RS by (subst RS; reflexivity) end.
  clear HeqRS. destruct RS as [[[t m] v] theta].
  destruct IH as (I1 & I2 & I3 & I4 & I5 & I6 & I7 & I8 & I9 & IH). unfold adam_algorithm.
  unfold descent_update. rewrite I1. cbv zeta.
  destruct (adam_loop (g_n g) (fst o) (snd o) g) as ((S1 & S2 & S3 & S4 & S5 & S6 & S7 & S8) & L & _).
  set (g' := for_up (g_n g) (adam_step (fst o) (snd o)) g) in *.
  cbn [g_type g_n g_eta0 g_beta1 g_beta2 g_eps g_beta1t g_beta2t g_m g_v g_w].
  rewrite S1, S2, S3, S4, S5, S6, S7, S8, I1, I2, I3, I4, I5, I6, I8, I9.
  split; [auto|]. split; [auto|]. split; [auto|]. split; [auto|]. split; [auto|]. split; [auto|].
  split. { rewrite app_length. cbn. lia. }
  split. { cbn [pow]. ring. } split. { cbn [pow]. ring. }
  intros i Hi. rewrite I2 in L. specialize (L i Hi). cbv zeta in L. destruct L as (Lm & Lv & Lw).
  destruct (IH i Hi) as (Im & Iv & Iw).
  assert (Em : g_m g' i = beta1 * m i + (1 - beta1) * (fst o * - snd o i)) by (rewrite Lm, I4, Im; auto).
  assert (Ev : g_v g' i = beta2 * v i + (1 - beta2) * (fst o * - snd o i) ^ 2) by (rewrite Lv, I5, Iv; ring).
  split; [exact Em|]. split; [exact Ev|]. rewrite Lw, I3, I6, I8, I9, Iw, Em, Ev. f_equal.
  assert (P1 : 0 < 1 - beta1 ^ S t). { assert (beta1 ^ S t < 1); [|lra]. destruct (Req_dec beta1 0) as [->|]. { cbn. lra. } apply pow_lt_1_compat; [lra|lia]. }
  assert (P2 : 0 < 1 - beta2 ^ S t). { assert (beta2 ^ S t < 1); [|lra]. destruct (Req_dec beta2 0) as [->|]. { cbn. lra. } apply pow_lt_1_compat; [lra|lia]. }
  clear Lm Lv Lw. clear - P1 P2 He. destruct o as [err gra]. cbn [fst snd].
  rewrite (sqrt_div_alt _ _ P2). assert (P3 := sqrt_lt_R0 _ P2).
  set (V := sqrt (beta2 * v i + (1 - beta2) * (err * - gra i) ^ 2)). assert (0 <= V) by apply sqrt_pos.
  replace (V / sqrt (1 - beta2 ^ S t) + eps / sqrt (1 - beta2 ^ S t)) with ((V + eps) / sqrt (1 - beta2 ^ S t)) by (field; lra).
  field. repeat split; lra.
Qed.

Lemma weighted_past_snoc beta xs x : weighted_past beta (xs ++ [x]) = beta * weighted_past beta xs + (1 - beta) * x.
Proof.
  unfold weighted_past. rewrite app_length. cbn [length]. rewrite Nat.add_1_r, sumn_S.
  rewrite app_nth2, Nat.sub_diag by lia. cbn [nth]. replace (S (length xs) - 1 - length xs)%nat with 0%nat by lia.
  rewrite (sumn_ext (length xs) _ (fun k => beta * (beta ^ (length xs - 1 - k) * nth k xs 0))).
  2:{ intros k Hk. rewrite app_nth1 by auto. replace (S (length xs) - 1 - k)%nat with (S (length xs - 1 - k)) by lia. cbn [pow]. ring. }
  rewrite sumn_scal. cbn [pow]. ring.
Qed.
Lemma reference_moments alpha beta1 beta2 eps w gs :
  let '(t, m, v, theta) := adam_reference alpha beta1 beta2 eps w gs in
  forall i, m i = weighted_past beta1 (map (fun g => g i) gs) /\ v i = weighted_past beta2 (map (fun g => g i ^ 2) gs).
Proof.
  unfold adam_reference. induction gs as [|g gs IH] using rev_ind.
  { cbn. intros i. unfold weighted_past. cbn. split; ring. }
  rewrite fold_left_app. cbn [fold_left].
  destruct (fold_left _ gs _) as [[[t m] v] theta]. unfold adam_algorithm. intros i. destruct (IH i) as [I1 I2].
  rewrite !map_app. cbn [map]. rewrite !weighted_past_snoc, I1, I2. split; ring.
Qed.
Lemma adam_moments os n w g0 alpha beta1 beta2 eps : new_descent n DT_ADAM w = Some g0 -> 0 <= beta1 < 1 -> 0 <= beta2 < 1 -> 0 < eps ->
  let g := descent_run os (setParametersAdam alpha beta1 beta2 eps g0) in forall i, (i < n)%nat ->
  g_m g i = weighted_past beta1 (map (fun g => g i) (grads os)) /\ g_v g i = weighted_past beta2 (map (fun g => g i ^ 2) (grads os)).
Proof.
  intros Hn Hb1 Hb2 He g i Hi. pose proof (adam_run os n w g0 alpha beta1 beta2 eps Hn Hb1 Hb2 He) as A. cbv zeta in A. fold g in A.
  pose proof (reference_moments alpha beta1 beta2 (fun t => eps / sqrt (1 - beta2 ^ t)) w (grads os)) as B.
  destruct (adam_reference _ _ _ _ _ _) as [[[t m] v] theta]. destruct A as (_ & _ & _ & _ & _ & _ & _ & _ & _ & A).
  destruct (A i Hi) as (-> & -> & _). apply B.
Qed.
