(** Invariance of the symmetry functions (C28). *)
From Coq Require Import Reals ZArith Lra Lia Bool Arith Permutation.
From Coquelicot Require Import Coquelicot.
From Coq Require Import List.
From Verif Require Import Base.RealBase Base.Vec3 Base.SumR Base.Loop Model.CoreFunction Model.CutoffFunction
  Model.CompactScreening Model.Strings Model.Scaling Model.NeighborList Model.SymFunctions
  Spec.CompactSpec Spec.SymSpec Proofs.SymEval Proofs.SymTerms Proofs.SymKinds Proofs.SymKindsAng
  Proofs.SymGrad Proofs.CacheProofs Proofs.SymAll.
Import ListNotations.
Local Open Scope R_scope.

(** ** Permutations *)
Lemma rsum_permut l l' : Permutation l l' -> rsum l = rsum l'.
Proof. intros H. induction H; simpl; lra. Qed.
Lemma pair_sum_permut {A} (f : A -> A -> R) l l' : (forall x y, f x y = f y x) -> Permutation l l' ->
  pair_sum f l = pair_sum f l'.
Proof.
  intros S H. induction H; cbn [pair_sum].
  - reflexivity.
  - rewrite IHPermutation. f_equal. apply rsum_permut. now apply Permutation_map.
  - cbn [map rsum]. rewrite (S y x). lra.
  - congruence.
Qed.
Lemma cos_angle_sym x y : cos_angle x y = cos_angle y x.
Proof. unfold cos_angle. now rewrite dot_comm, Rmult_comm. Qed.
Lemma norm_vsub_sym x y : norm (vsub x y) = norm (vsub y x).
Proof. rewrite <- norm_opp. f_equal. vring. Qed.
Lemma only_pair_sym e1 e2 v x y : (forall a b, v a b = v b a) -> only_pair e1 e2 v x y = only_pair e1 e2 v y x.
Proof.
  intros S. unfold only_pair. rewrite S.
  destruct (Nat.eqb (fst x) e1), (Nat.eqb (fst y) e2), (Nat.eqb (fst x) e2), (Nat.eqb (fst y) e1); reflexivity.
Qed.
Lemma weighted_pair_sym Z v x y : (forall a b, v a b = v b a) -> weighted_pair Z v x y = weighted_pair Z v y x.
Proof. intros S. unfold weighted_pair. rewrite S. ring. Qed.
Lemma gauss_wide_sym p x y : angular_gauss_wide p x y = angular_gauss_wide p y x.
Proof. unfold angular_gauss_wide. rewrite (cos_angle_sym x y). f_equal; [f_equal; f_equal; ring|ring]. Qed.
Lemma gauss_narrow_sym p x y : angular_gauss_narrow p x y = angular_gauss_narrow p y x.
Proof.
  unfold angular_gauss_narrow. rewrite (cos_angle_sym x y), (norm_vsub_sym x y). cbv zeta.
  f_equal; [f_equal; f_equal; ring|ring].
Qed.
Lemma ang_compact_sym p x y : ang_compact p x y = ang_compact p y x.
Proof. unfold ang_compact. now rewrite (cos_angle_sym x y). Qed.
Lemma compact_wide_sym p x y : angular_compact_wide p x y = angular_compact_wide p y x.
Proof. unfold angular_compact_wide. rewrite (ang_compact_sym p x y). ring. Qed.
Lemma compact_narrow_sym p x y : angular_compact_narrow p x y = angular_compact_narrow p y x.
Proof. unfold angular_compact_narrow. rewrite (ang_compact_sym p x y), (norm_vsub_sym x y). ring. Qed.

Theorem sf_value_permut Z k e e' : Permutation e e' -> sf_value Z k e = sf_value Z k e'.
Proof.
  intros H. destruct k; cbn [sf_value]; unfold radial_sum;
    try (apply rsum_permut; apply Permutation_map; exact H);
    try apply Rmult_eq_compat_l; apply pair_sum_permut; auto; intros x y;
    (apply only_pair_sym || apply weighted_pair_sym);
    (apply gauss_wide_sym || apply gauss_narrow_sym || apply compact_wide_sym || apply compact_narrow_sym).
Qed.
Lemma on_pairs_permut (P : vec -> vec -> Prop) (e e' : env) : (forall x y, P x y -> P y x) -> Permutation e e' -> on_pairs P e -> on_pairs P e'.
Proof.
  intros S H. induction H; intros Q.
  - exact Q.
  - assert (Q' : on_pairs P l). { intros j k n m Hj Hn Hm. apply (Q (Datatypes.S j) (Datatypes.S k)); auto. lia. }
    specialize (IHPermutation Q'). intros [|j] [|k] n m Hj Hn Hm; try lia; cbn [nth_error] in *.
    + injection Hn as <-. apply nth_error_In in Hm. apply Permutation_sym in H.
      apply (Permutation_in _ H) in Hm. apply In_nth_error in Hm. destruct Hm as (i & Hi).
      apply (Q 0%nat (Datatypes.S i)); auto; lia.
    + apply (IHPermutation j k); auto. lia.
  - intros [|[|j]] [|[|k]] n m Hj Hn Hm; try lia; cbn [nth_error] in *.
    + apply S. apply (Q 0%nat 1%nat); auto.
    + apply (Q 1%nat (Datatypes.S (Datatypes.S k))); auto; lia.
    + apply (Q 0%nat (Datatypes.S (Datatypes.S k))); auto; lia.
    + apply (Q (Datatypes.S (Datatypes.S j)) (Datatypes.S (Datatypes.S k))); auto; lia.
  - auto.
Qed.
Lemma evaluable_permut k e e' : Permutation e e' -> evaluable k e -> evaluable k e'.
Proof.
  intros H [E1 E2]. split.
  - intros n Hn. apply E1. eapply Permutation_in; [apply Permutation_sym|]; eauto.
  - assert (OB : forall p x y, off_boundary p x y -> off_boundary p y x).
    { intros p x y. unfold off_boundary. now rewrite (cos_angle_sym y x). }
    destruct k; auto; revert E2; apply on_pairs_permut; auto; intros x y.
    + intros (A & B & C). rewrite (cos_angle_sym y x). auto.
    + intros (B & C). rewrite (cos_angle_sym y x). auto.
    + intros (A & B & C). rewrite (cos_angle_sym y x). auto.
    + intros (B & C). rewrite (cos_angle_sym y x). auto.
Qed.

(** ** Dependence on distances only *)
(** Same elements, same distances to the central atom, same distances among the
    neighbours. *)
Definition congruent (e e' : env) : Prop :=
  map fst e = map fst e' /\
  (forall j n n', nth_error e j = Some n -> nth_error e' j = Some n' -> norm (snd n) = norm (snd n')) /\
  (forall j k n n' m m', nth_error e j = Some n -> nth_error e' j = Some n' ->
     nth_error e k = Some m -> nth_error e' k = Some m' -> norm (vsub (snd n) (snd m)) = norm (vsub (snd n') (snd m'))).
Lemma dot_polar x y : dot x y = (norm x * norm x + norm y * norm y - norm (vsub x y) * norm (vsub x y)) / 2.
Proof. rewrite !norm_sq. unfold norm2, dot, vsub; simpl. field. Qed.
Lemma congruent_pair_cos x y x' y' : norm x = norm x' -> norm y = norm y' -> norm (vsub x y) = norm (vsub x' y') ->
  cos_angle x y = cos_angle x' y'.
Proof. intros A B C. unfold cos_angle. now rewrite !dot_polar, A, B, C. Qed.

Lemma rsum_rel {A} (f : A -> R) (P : A -> A -> Prop) l : forall l', length l = length l' ->
  (forall j x x', nth_error l j = Some x -> nth_error l' j = Some x' -> P x x') ->
  (forall x x', P x x' -> f x = f x') -> rsum (map f l) = rsum (map f l').
Proof.
  induction l as [|a l IH]; intros [|b l'] HL HP Hf; try discriminate; auto. cbn [map rsum].
  rewrite (Hf a b). 2:{ apply (HP 0%nat); auto. }
  rewrite (IH l'); auto. intros j x x' H H'. apply (HP (S j)); auto.
Qed.
Lemma pair_sum_rel {A} (f : A -> A -> R) (P : A -> A -> A -> A -> Prop) l : forall l', length l = length l' ->
  (forall j k x x' y y', nth_error l j = Some x -> nth_error l' j = Some x' ->
     nth_error l k = Some y -> nth_error l' k = Some y' -> P x x' y y') ->
  (forall x x' y y', P x x' y y' -> f x y = f x' y') -> pair_sum f l = pair_sum f l'.
Proof.
  induction l as [|a l IH]; intros [|b l'] HL HP Hf; try discriminate; auto. cbn [pair_sum].
  f_equal.
  - assert (HL' : length l = length l') by (injection HL; auto).
    assert (HP' : forall j x x', nth_error l j = Some x -> nth_error l' j = Some x' -> P a b x x').
    { intros j x x' H H'. apply (HP 0%nat (S j)); auto. }
    clear - HL' HP' Hf. revert l' HL' HP'. induction l as [|c l IH]; intros [|d l'] HL HP; try discriminate; auto.
    cbn [map rsum]. rewrite (Hf a b c d). 2:{ apply (HP 0%nat); auto. }
    rewrite (IH l'); auto. intros j x x' H H'. apply (HP (S j)); auto.
  - apply IH; auto. intros j k x x' y y' A1 A2 A3 A4. apply (HP (S j) (S k)); auto.
Qed.
Lemma congruent_length e e' : congruent e e' -> length e = length e'.
Proof. intros (H & _). rewrite <- (map_length fst e), H. apply map_length. Qed.
Lemma congruent_fst e e' j n n' : congruent e e' -> nth_error e j = Some n -> nth_error e' j = Some n' -> fst n = fst n'.
Proof.
  intros (H & _) Hn Hn'. assert (X : nth_error (map fst e) j = nth_error (map fst e') j) by now rewrite H.
  rewrite !nth_error_map, Hn, Hn' in X. injection X; auto.
Qed.

Theorem sf_value_congruent Z k e e' : congruent e e' -> sf_value Z k e = sf_value Z k e'.
Proof.
  intros C. assert (L := congruent_length _ _ C).
  assert (F := fun j n n' => congruent_fst e e' j n n' C).
  destruct C as (_ & C1 & C2).
  assert (RS : forall t : nat * vec -> R, (forall x x', fst x = fst x' -> norm (snd x) = norm (snd x') -> t x = t x') ->
     radial_sum t e = radial_sum t e').
  { intros t Ht. unfold radial_sum.
    apply (rsum_rel t (fun x x' => fst x = fst x' /\ norm (snd x) = norm (snd x'))); auto.
    - intros j x x' H H'. split; [eapply F|eapply C1]; eauto.
    - intros x x' []; auto. }
  assert (PS : forall t : nat * vec -> nat * vec -> R,
     (forall x x' y y', fst x = fst x' -> fst y = fst y' -> norm (snd x) = norm (snd x') -> norm (snd y) = norm (snd y') ->
        norm (vsub (snd x) (snd y)) = norm (vsub (snd x') (snd y')) -> t x y = t x' y') ->
     pair_sum t e = pair_sum t e').
  { intros t Ht.
    apply (pair_sum_rel t (fun x x' y y' => fst x = fst x' /\ fst y = fst y' /\ norm (snd x) = norm (snd x') /\
       norm (snd y) = norm (snd y') /\ norm (vsub (snd x) (snd y)) = norm (vsub (snd x') (snd y')))); auto.
    - intros j l x x' y y' A1 A2 A3 A4. repeat split; eauto.
    - intros x x' y y' (A1 & A2 & A3 & A4 & A5); auto. }
  destruct k; cbn [sf_value];
    try (apply RS; intros x x' A B; unfold only, weighted; rewrite A, B; reflexivity);
    try apply Rmult_eq_compat_l; apply PS; intros x x' y y' A1 A2 A3 A4 A5;
    unfold only_pair, weighted_pair, angular_gauss_narrow, angular_gauss_wide, angular_compact_narrow,
      angular_compact_wide, ang_compact;
    rewrite ?A5, (congruent_pair_cos (snd x) (snd y) (snd x') (snd y')), A1, A2, A3, A4 by auto; reflexivity.
Qed.
Lemma evaluable_congruent k e e' : congruent e e' -> evaluable k e -> evaluable k e'.
Proof.
  intros C [E1 E2]. assert (L := congruent_length _ _ C). destruct C as (_ & C1 & C2).
  assert (X : forall j n', nth_error e' j = Some n' -> exists n, nth_error e j = Some n).
  { intros j n' H. destruct (nth_error e j) eqn:Q; eauto. apply nth_error_None in Q.
    assert (j < length e')%nat by (apply nth_error_Some; congruence). lia. }
  split.
  - intros n' Hn'. apply In_nth_error in Hn'. destruct Hn' as (j & Hj). destruct (X j n' Hj) as (n & Hn).
    intros Z0. apply (E1 n (nth_error_In _ _ Hn)). apply norm_zero_iff. rewrite (C1 j n n') by auto.
    apply norm_zero_iff. auto.
  - assert (T : forall (P : vec -> vec -> Prop), (forall x y x' y', norm x = norm x' -> norm y = norm y' ->
        norm (vsub x y) = norm (vsub x' y') -> P x y -> P x' y') -> on_pairs P e -> on_pairs P e').
    { intros P HP HQ j l n' m' Hl Hn' Hm'. destruct (X j n' Hn') as (n & Hn). destruct (X l m' Hm') as (m & Hm).
      apply (HP (snd n) (snd m)); eauto. }
    destruct k; auto; revert E2; apply T; intros x y x' y' A B D; unfold off_boundary;
      rewrite (congruent_pair_cos x y x' y') by auto; auto; intros (N & W); split; auto;
      intros ->; apply N; rewrite vsub_self in D; rewrite (proj2 (norm_zero_iff vzero) eq_refl) in D;
      apply norm_zero_iff in D; clear - D; unfold vsub, vzero in D; injection D; intros;
      destruct x, y; simpl in *; f_equal; lra.
Qed.

(** Environment of an atom at [c] with neighbours at the given positions. *)
Lemma isometry_congruent g c ps : isometry g -> congruent (env_at c ps) (env_at (g c) (moved g ps)).
Proof.
  intros I. unfold env_at, moved. rewrite map_map. split; [|split].
  - rewrite !map_map. reflexivity.
  - intros j n n'. rewrite !nth_error_map. destruct (nth_error ps j); [|discriminate]. cbn [option_map].
    intros [= <-] [= <-]. cbn [snd fst]. symmetry. apply I.
  - intros j k n n' m m'. rewrite !nth_error_map. destruct (nth_error ps j) as [p|]; [|discriminate].
    destruct (nth_error ps k) as [q|]; [|discriminate]. cbn [option_map].
    intros [= <-] [= <-] [= <-] [= <-]. cbn [snd fst].
    replace (vsub (vsub c (snd p)) (vsub c (snd q))) with (vsub (snd q) (snd p)) by vring.
    replace (vsub (vsub (g c) (g (snd p))) (vsub (g c) (g (snd q)))) with (vsub (g (snd q)) (g (snd p))) by vring.
    symmetry. apply I.
Qed.

(** ** Consequences for calculateSymmetryFunctions *)
Lemma same_values Z fs a a' : good_list a -> good_list a' -> (forall f, In f fs -> no_slots f) ->
  (forall f, In f fs -> admissible (sf_kind f) /\ evaluable (sf_kind f) (env_of (a_nbs a)) /\
     evaluable (sf_kind f) (env_of (a_nbs a')) /\
     sf_value Z (sf_kind f) (env_of (a_nbs a)) = sf_value Z (sf_kind f) (env_of (a_nbs a'))) ->
  forall d d' s s', (forall i, st_G s i = st_G s' i) -> exists s1 s2,
    calculateAll Z fs a d s = Some s1 /\ calculateAll Z fs a' d' s' = Some s2 /\
    forall i, st_G s1 i = st_G s2 i.
Proof.
  intros Hg Hg' Hn Hf d d' s s' HG.
  assert (C0 : forall nbs s, coherent no_assignment nbs s) by (intros nbs t j n c0 c1 F _ []).
  destruct (calculateAll_effect Z no_assignment a fs no_assignment_consistent Hg) with (deriv := d) (s := s)
    as (s1 & E1 & _ & G1 & _); auto.
  { intros f Hi. destruct (Hf f Hi) as (A & B & _). split; [|auto]. apply no_slots_ok; auto. }
  destruct (calculateAll_effect Z no_assignment a' fs no_assignment_consistent Hg') with (deriv := d') (s := s')
    as (s2 & E2 & _ & G2 & _); auto.
  { intros f Hi. destruct (Hf f Hi) as (A & _ & B & _). split; [|auto]. apply no_slots_ok; auto. }
  exists s1, s2. split; auto. split; auto. intros i. rewrite G1, G2. unfold put_values. rewrite HG.
  clear - Hf. generalize (st_G s' i) as v. induction fs as [|f fs IH]; intros v; auto. cbn [fold_left].
  destruct (Hf f (or_introl eq_refl)) as (_ & _ & _ & ->). apply IH. intros; apply Hf; simpl; auto.
Qed.

(** ** Derivatives sum to zero *)
Lemma directional_const c nbs D u : directional c nbs D u (fun _ => u) = dot (derivative_sum c nbs D) u.
Proof.
  unfold directional, derivative_sum. rewrite dot_vadd_l. f_equal.
  induction (List.combine (seq 0 (length nbs)) nbs) as [|x l IH]; cbn [map rsum fold_right].
  - unfold dot; simpl; ring.
  - rewrite dot_vadd_l, IH. reflexivity.
Qed.
Lemma dot_zero_all x : (forall u, dot x u = 0) -> x = vzero.
Proof. intros H. apply norm2_zero. rewrite norm2_dot. apply H. Qed.

Theorem contributions_sum_zero Z f a : derivative_sum (sf_c f) (a_nbs a) (fun l => ev_at l (contributions Z f a)) = vzero.
Proof.
  apply dot_zero_all. intros u. rewrite <- directional_const. unfold contributions.
  destruct (body_of Z _ (sf_kind f)) as [b|b]; rewrite Pg_flat; apply rsum_zero; intros j _; unfold at_nb;
    destruct (nth_error (a_nbs a) j) as [nj|] eqn:Ej; try apply Pg_nil.
  - rewrite Pg_radial by auto. rewrite vsub_self. unfold dot; simpl; ring.
  - unfold aevrow. rewrite Pg_flat. apply rsum_zero. intros l _. unfold at_nb.
    destruct (nth_error (a_nbs a) l) as [nl|] eqn:El; try apply Pg_nil.
    rewrite Pg_angular by auto. rewrite vsub_self. unfold apar.
    destruct (apair b nj nl) as [[? [[? ?] ?]]|]; auto. unfold dot, vsub, vzero; simpl; ring.
Qed.
