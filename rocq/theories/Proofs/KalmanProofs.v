(** Kalman filter: covariance, gain, annealing. *)
From Coq Require Import Reals List Arith Lra Lia.
From Verif Require Import Base.SumR Base.Linear Model.Updaters Spec.UpdaterSpec.
Import ListNotations.
Open Scope R_scope.

(** * Linear algebra on finite index ranges *)
Definition dotn (n : nat) (x y : nat -> R) : R := sumn n (fun i => x i * y i).
Definition mtv (n : nat) (H : nat -> nat -> R) (x : nat -> R) (k : nat) : R := sumn n (fun i => H i k * x i).

Lemma dotn_ext n x y x' y' : (forall i, (i < n)%nat -> x i = x' i) -> (forall i, (i < n)%nat -> y i = y' i) -> dotn n x y = dotn n x' y'.
Proof. intros H1 H2. apply sumn_ext. intros i Hi. now rewrite H1, H2. Qed.
Lemma dotn_comm n x y : dotn n x y = dotn n y x.
Proof. apply sumn_ext. intros; ring. Qed.
Lemma dotn_minus_l n x y z : dotn n (fun i => x i - y i) z = dotn n x z - dotn n y z.
Proof. unfold dotn. rewrite <- sumn_minus. apply sumn_ext. intros; ring. Qed.
Lemma dotn_plus_l n x y z : dotn n (fun i => x i + y i) z = dotn n x z + dotn n y z.
Proof. unfold dotn. rewrite <- sumn_plus. apply sumn_ext. intros; ring. Qed.
Lemma dotn_scal_l n k x z : dotn n (fun i => k * x i) z = k * dotn n x z.
Proof. unfold dotn. rewrite <- sumn_scal. apply sumn_ext. intros; ring. Qed.
Lemma dotn_minus_r n x y z : dotn n z (fun i => x i - y i) = dotn n z x - dotn n z y.
Proof. now rewrite dotn_comm, dotn_minus_l, (dotn_comm n x), (dotn_comm n y). Qed.
Lemma dotn_scal_r n k x z : dotn n z (fun i => k * x i) = k * dotn n z x.
Proof. now rewrite dotn_comm, dotn_scal_l, dotn_comm. Qed.
Lemma dotn_nonneg n x : 0 <= dotn n x x.
Proof. induction n. - unfold dotn. rewrite sumn_0. lra. - unfold dotn in *. rewrite sumn_S. nra. Qed.
Lemma dotn_pos n x : nonzero n x -> 0 < dotn n x x.
Proof.
  intros (i & Hi & Hx). unfold dotn.
  revert Hi. induction n; intros Hi; [lia|]. rewrite sumn_S. destruct (Nat.eq_dec i n) as [E|E].
  - subst n. pose proof (dotn_nonneg i x). unfold dotn in *. nra.
  - assert (0 < sumn n (fun i => x i * x i)) by (apply IHn; lia). nra.
Qed.
Lemma adjoint n m H x u : dotn n x (mv m H u) = dotn m (mtv n H x) u.
Proof.
  unfold dotn, mv, mtv.
  transitivity (sumn n (fun i => sumn m (fun k => H i k * x i * u k))).
  { apply sumn_ext. intros. rewrite <- sumn_scal. apply sumn_ext. intros; ring. }
  rewrite sumn_swap. apply sumn_ext. intros. now rewrite <- sumn_scal_r.
Qed.
Lemma quadratic_dot n P x : quadratic n P x = dotn n x (mv n P x).
Proof. unfold quadratic, dotn, mv. apply sumn_ext. intros. rewrite <- sumn_scal. apply sumn_ext. intros; ring. Qed.
Lemma mtv_sym n P x : symmetric n P -> forall i, (i < n)%nat -> mtv n P x i = mv n P x i.
Proof. intros HP i Hi. apply sumn_ext. intros j Hj. rewrite (HP j i); auto. Qed.
Lemma dotn_sym n P x y : symmetric n P -> dotn n x (mv n P y) = dotn n y (mv n P x).
Proof. intros HP. rewrite adjoint, dotn_comm. apply dotn_ext; auto. intros. now apply mtv_sym. Qed.
Lemma mtv_minus n H x y k : mtv n H (fun i => x i - y i) k = mtv n H x k - mtv n H y k.
Proof. unfold mtv. rewrite <- sumn_minus. apply sumn_ext. intros; ring. Qed.
Lemma mtv_ext n H x x' k : (forall i, (i < n)%nat -> x i = x' i) -> mtv n H x k = mtv n H x' k.
Proof. intros E. apply sumn_ext. intros. now rewrite E. Qed.
Lemma mv_ext_r n A x x' i : (forall j, (j < n)%nat -> x j = x' j) -> mv n A x i = mv n A x' i.
Proof. intros E. apply mv_ext. auto. Qed.
Lemma mv_delta n x i : (i < n)%nat -> mv n delta x i = x i.
Proof.
  intros Hi. unfold mv. rewrite (sumn_single n _ i Hi).
  - unfold delta. destruct (Nat.eq_dec i i); [ring|lia].
  - intros j Hj Hne. unfold delta. destruct (Nat.eq_dec i j); [lia|ring].
Qed.
Lemma mv_product n k A B x i : mv n (fun i j => sumn k (fun l => A i l * B l j)) x i = mv k A (mv n B x) i.
Proof.
  unfold mv. transitivity (sumn n (fun j => sumn k (fun l => A i l * B l j * x j))).
  { apply sumn_ext. intros. now rewrite <- sumn_scal_r. }
  rewrite sumn_swap. apply sumn_ext. intros. rewrite <- sumn_scal. apply sumn_ext. intros; ring.
Qed.
Lemma quadratic_ext n P x x' : (forall i, (i < n)%nat -> x i = x' i) -> quadratic n P x = quadratic n P x'.
Proof. intros E. unfold quadratic. apply sumn_ext. intros. apply sumn_ext. intros. now rewrite !E. Qed.
Lemma quadratic_matext n P P' x : (forall i j, (i < n)%nat -> (j < n)%nat -> P i j = P' i j) -> quadratic n P x = quadratic n P' x.
Proof. intros E. unfold quadratic. apply sumn_ext. intros. apply sumn_ext. intros. now rewrite !E. Qed.
Lemma spd_ext n P P' : (forall i j, (i < n)%nat -> (j < n)%nat -> P i j = P' i j) -> spd n P -> spd n P'.
Proof.
  intros E [S D]. split. { intros i j Hi Hj. rewrite <- !E; auto. }
  intros x Hx. rewrite <- (quadratic_matext n P P' x E). now apply D.
Qed.

Lemma nonzero_dec n x : nonzero n x \/ forall i, (i < n)%nat -> x i = 0.
Proof. destruct (find_nonzero x n) as [[p H]|H]; [left; exists p; auto|right; auto]. Qed.
Lemma pd_nonneg n P x : positive_definite n P -> 0 <= quadratic n P x.
Proof.
  intros HP. destruct (nonzero_dec n x) as [Hx|Hx]. { left. auto. }
  right. symmetry. unfold quadratic. apply sumn_zero. intros i Hi. apply sumn_zero. intros j Hj. rewrite (Hx i Hi). ring.
Qed.
Lemma pd_nonsingular n P : positive_definite n P -> nonsingular n P.
Proof.
  intros HP x Hx. destruct (nonzero_dec n x) as [Hn|Hn]; auto. exfalso.
  specialize (HP x Hn). rewrite quadratic_dot in HP. unfold dotn in HP. rewrite sumn_zero in HP; [lra|].
  intros i Hi. rewrite Hx; auto. ring.
Qed.

(** * Inverses *)
Lemma right_inverse n A B : nonsingular n A -> (forall i j, (i < n)%nat -> (j < n)%nat -> product n A B i j = delta i j) -> inverse_of n A B.
Proof.
  intros HA HB i j Hi Hj. split; auto.
  assert (E : product n B A i j - delta i j = 0); [|lra].
  apply (HA (fun i => product n B A i j - delta i j)); auto. intros k Hk.
  rewrite mv_minus.
  assert (E1 : mv n A (fun i => product n B A i j) k = A k j).
  { change (mv n A (fun i => product n B A i j) k) with (mv n A (mv n B (fun l => A l j)) k).
    rewrite <- mv_product. rewrite (mv_ext n _ delta _ (fun l => A l j)). { exact (mv_delta n (fun l => A l j) k Hk). }
    intros l Hl. split; auto. apply (HB k l); auto. }
  rewrite E1. assert (E2 : mv n A (fun i => delta i j) k = A k j).
  { unfold mv. rewrite (sumn_single n _ j Hj).
    - unfold delta. destruct (Nat.eq_dec j j); [ring|lia].
    - intros l Hl Hne. unfold delta. destruct (Nat.eq_dec l j); [lia|ring]. }
  rewrite E2. ring.
Qed.
Lemma nonsingular_invertible n A : nonsingular n A -> invertible n A.
Proof.
  intros HA. exists (fun i j => gauss_solve n A (fun k => delta k j) i). apply right_inverse; auto.
  intros i j Hi Hj. exact (gauss_solve_exact n A (fun k => delta k j) HA i Hi).
Qed.
Lemma inverse_apply n A B x : inverse_of n A B -> forall i, (i < n)%nat -> mv n A (mv n B x) i = x i.
Proof.
  intros HB i Hi. rewrite <- mv_product. rewrite (mv_ext n _ delta _ x). { now apply mv_delta. }
  intros l Hl. split; auto. apply (HB i l); auto.
Qed.
Lemma inverse_swap n A B : inverse_of n A B -> inverse_of n B A.
Proof. intros H i j Hi Hj. destruct (H i j Hi Hj). auto. Qed.
Lemma product_assoc n A B C i j : product n A (product n B C) i j = product n (product n A B) C i j.
Proof.
  unfold product. transitivity (sumn n (fun k => sumn n (fun l => A i k * B k l * C l j))).
  { apply sumn_ext. intros. rewrite <- sumn_scal. apply sumn_ext. intros; ring. }
  rewrite sumn_swap. apply sumn_ext. intros. now rewrite <- sumn_scal_r.
Qed.
Lemma product_ext n A A' B B' i j : (forall k, (k < n)%nat -> A i k = A' i k /\ B k j = B' k j) -> product n A B i j = product n A' B' i j.
Proof. intros H. apply sumn_ext. intros k Hk. destruct (H k Hk) as [-> ->]. auto. Qed.
Lemma product_delta_r n A i j : (j < n)%nat -> product n A delta i j = A i j.
Proof.
  intros Hj. unfold product. rewrite (sumn_single n _ j Hj).
  - unfold delta. destruct (Nat.eq_dec j j); [ring|lia].
  - intros l Hl Hne. unfold delta. destruct (Nat.eq_dec l j); [lia|ring].
Qed.
Lemma product_delta_l n A i j : (i < n)%nat -> product n delta A i j = A i j.
Proof. intros Hi. apply (mv_delta n (fun k => A k j) i Hi). Qed.
Lemma inverse_sym n A B : symmetric n A -> inverse_of n A B -> symmetric n B.
Proof.
  intros HA HB i j Hi Hj.
  assert (T : forall i j, (i < n)%nat -> (j < n)%nat -> product n (fun i j => B j i) A i j = delta i j).
  { intros a b Ha Hb. transitivity (product n A B b a).
    - unfold product. apply sumn_ext. intros k Hk. rewrite (HA k b); auto. ring.
    - destruct (HB b a Hb Ha) as [-> _]. unfold delta. destruct (Nat.eq_dec b a), (Nat.eq_dec a b); auto; lia. }
  transitivity (product n (fun i j => B j i) delta j i).
  { now rewrite product_delta_r. }
  transitivity (product n (fun i j => B j i) (product n A B) j i).
  { apply product_ext. intros k Hk. split; auto. destruct (HB k i Hk Hi); auto. }
  rewrite product_assoc. transitivity (product n delta B j i).
  { apply product_ext. intros k Hk. auto. }
  now apply product_delta_l.
Qed.
Lemma inverse_unique n A B C : inverse_of n A B -> inverse_of n A C -> forall i j, (i < n)%nat -> (j < n)%nat -> B i j = C i j.
Proof.
  intros HB HC i j Hi Hj.
  transitivity (product n B (product n A C) i j).
  { transitivity (product n B delta i j). { now rewrite product_delta_r. }
    apply product_ext. intros k Hk. split; auto. destruct (HC k j Hk Hj); auto. }
  rewrite product_assoc. transitivity (product n delta C i j).
  { apply product_ext. intros k Hk. split; auto. destruct (HB i k Hi Hk); auto. }
  now apply product_delta_l.
Qed.
Lemma inverse_pd n P M : spd n P -> inverse_of n P M -> spd n M.
Proof.
  intros [HS HD] HM. assert (SM := inverse_sym n P M HS HM). split; auto.
  intros x Hx. rewrite quadratic_dot.
  assert (E : dotn n x (mv n M x) = quadratic n P (mv n M x)).
  { rewrite quadratic_dot, dotn_comm. apply dotn_ext; auto. intros i Hi. symmetry. apply (inverse_apply n P M); auto. }
  rewrite E. apply HD. destruct (nonzero_dec n (mv n M x)) as [H|H]; auto. exfalso.
  destruct Hx as (i & Hi & Hne). apply Hne. rewrite <- (inverse_apply n P M x HM i Hi).
  unfold mv at 1. apply sumn_zero. intros j Hj. rewrite H; auto. ring.
Qed.

(** * One update of the covariance *)
Section Step.
Variables (n m : nat) (P H : nat -> nat -> R) (rho : R).
Hypothesis HP : spd n P.
Hypothesis Hrho : 0 < rho.
Let S : nat -> nat -> R := innovation n P H rho.

Lemma mulLower_eq i k : (i < n)%nat -> mulLower n P H i k = mv n P (fun j => H j k) i.
Proof.
  intros Hi. unfold mulLower, mv. apply sumn_ext. intros j Hj. destruct (Nat.ltb i j); auto.
  rewrite (proj1 HP j i); auto.
Qed.
Lemma innovation_apply u k : (k < m)%nat -> mv m S u k = mtv n H (mv n P (mv m H u)) k + rho * u k.
Proof.
  intros Hk. unfold S, innovation. unfold mv at 1.
  transitivity (sumn m (fun j => sumn n (fun k0 => sumn n (fun l => H k0 k * P k0 l * H l j)) * u j) + rho * mv m delta u k).
  { unfold mv. rewrite <- sumn_scal, <- sumn_plus. apply sumn_ext. intros; ring. }
  rewrite mv_delta by auto. f_equal. unfold mtv, mv.
  transitivity (sumn m (fun j => sumn n (fun k0 => H k0 k * sumn n (fun l => P k0 l * H l j * u j)))).
  { apply sumn_ext. intros. rewrite <- sumn_scal_r. apply sumn_ext. intros. rewrite <- sumn_scal, <- sumn_scal_r. apply sumn_ext. intros; ring. }
  rewrite sumn_swap. apply sumn_ext. intros k0 Hk0. rewrite sumn_scal. f_equal. rewrite sumn_swap.
  apply sumn_ext. intros. rewrite <- sumn_scal. apply sumn_ext. intros; ring.
Qed.
Lemma innovation_spd : spd m S.
Proof.
  split.
  - intros i j Hi Hj. unfold S, innovation. f_equal.
    + rewrite sumn_swap. apply sumn_ext. intros l Hl. apply sumn_ext. intros k Hk. rewrite (proj1 HP k l); auto. ring.
    + unfold delta. destruct (Nat.eq_dec i j), (Nat.eq_dec j i); auto; lia.
  - intros u Hu. rewrite quadratic_dot.
    rewrite (dotn_ext m u _ u (fun k => mtv n H (mv n P (mv m H u)) k - (- rho) * u k)).
    2:{ auto. } 2:{ intros. rewrite innovation_apply; auto. ring. }
    rewrite dotn_minus_r, dotn_scal_r, (dotn_comm m u (fun k => _)). 
    change (dotn m (fun k => mtv n H (mv n P (mv m H u)) k) u) with (dotn m (mtv n H (mv n P (mv m H u))) u).
    rewrite <- adjoint, dotn_comm, <- quadratic_dot.
    pose proof (pd_nonneg n P (mv m H u) (proj2 HP)). pose proof (dotn_pos m u Hu). nra.
Qed.

Variable B : nat -> nat -> R.
Hypothesis HB : inverse_of m S B.
Definition gain : nat -> nat -> R := fun i j => sumn m (fun l => mulLower n P H i l * B l j).
Definition reduced : nat -> nat -> R := fun i j => P i j - sumn m (fun l => gain i l * mulLower n P H j l).

Lemma mulLower_apply u i : (i < n)%nat -> mv m (mulLower n P H) u i = mv n P (mv m H u) i.
Proof.
  intros Hi. transitivity (mv m (fun i k => sumn n (fun j => P i j * H j k)) u i).
  - apply mv_ext. intros k Hk. split; auto. now rewrite mulLower_eq.
  - apply mv_product.
Qed.
Lemma gain_apply u i : (i < n)%nat -> mv m gain u i = mv n P (mv m H (mv m B u)) i.
Proof. intros Hi. unfold gain. rewrite mv_product. now apply mulLower_apply. Qed.
Lemma mtv_mulLower x k : (k < m)%nat -> mtv n (mulLower n P H) x k = mtv n H (mv n P x) k.
Proof.
  intros Hk. unfold mtv. transitivity (sumn n (fun i => mv n P (fun j => H j k) i * x i)).
  { apply sumn_ext. intros. now rewrite mulLower_eq. }
  change (dotn n (mv n P (fun j => H j k)) x = dotn n (fun j => H j k) (mv n P x)).
  rewrite dotn_comm. apply dotn_sym. apply HP.
Qed.
Definition inner (x : nat -> R) : nat -> R := mv m B (mtv n H (mv n P x)).
Lemma reduced_apply x i : (i < n)%nat -> mv n reduced x i = mv n P (fun j => x j - mv m H (inner x) j) i.
Proof.
  intros Hi. unfold reduced. rewrite mv_matminus, mv_minus. f_equal.
  transitivity (mv m gain (mtv n (mulLower n P H) x) i).
  { exact (mv_product n m gain (fun l j => mulLower n P H j l) x i). }
  rewrite gain_apply by auto. apply mv_ext_r. intros j Hj. apply mv_ext_r. intros l Hl.
  unfold inner. apply mv_ext_r. intros. now apply mtv_mulLower.
Qed.
Lemma inner_eq x k : (k < m)%nat -> mtv n H (mv n P (fun j => x j - mv m H (inner x) j)) k = rho * inner x k.
Proof.
  intros Hk. rewrite (mtv_ext n H _ (fun i => mv n P x i - mv n P (mv m H (inner x)) i)).
  2:{ intros. now rewrite mv_minus. }
  rewrite mtv_minus. pose proof (innovation_apply (inner x) k Hk) as E.
  unfold inner at 1 in E. rewrite (inverse_apply m S B) in E; auto. rewrite E. ring.
Qed.
Lemma reduced_quadratic x : quadratic n reduced x = quadratic n P (fun j => x j - mv m H (inner x) j) + rho * dotn m (inner x) (inner x).
Proof.
  set (y := fun j => x j - mv m H (inner x) j).
  rewrite !quadratic_dot. rewrite (dotn_ext n x (mv n reduced x) (fun j => y j - (-1) * mv m H (inner x) j) (mv n P y)).
  2:{ intros. unfold y. ring. } 2:{ intros. now apply reduced_apply. }
  rewrite dotn_minus_l, dotn_scal_l. replace (dotn n (mv m H (inner x)) (mv n P y)) with (rho * dotn m (inner x) (inner x)); [ring|].
  rewrite (dotn_comm n (mv m H (inner x))), adjoint. rewrite <- dotn_scal_l. apply dotn_ext; auto. intros. symmetry. now apply inner_eq.
Qed.
Lemma reduced_spd : spd n reduced.
Proof.
  split.
  - intros i j Hi Hj. unfold reduced. rewrite (proj1 HP i j) by auto. f_equal.
    assert (SB : symmetric m B) by (eapply inverse_sym; [exact (proj1 innovation_spd)|exact HB]).
    unfold gain. set (X := mulLower n P H).
    transitivity (sumn m (fun l => sumn m (fun k => X i k * B k l * X j l))).
    { apply sumn_ext. intros. now rewrite <- sumn_scal_r. }
    rewrite sumn_swap. apply sumn_ext. intros k Hk. rewrite <- sumn_scal_r. apply sumn_ext. intros l Hl.
    rewrite (SB k l) by auto. ring.
  - intros x Hx. rewrite reduced_quadratic.
    destruct (nonzero_dec n (fun j => x j - mv m H (inner x) j)) as [Hy|Hy].
    + pose proof (proj2 HP _ Hy). pose proof (dotn_nonneg m (inner x)). nra.
    + destruct (nonzero_dec m (inner x)) as [Hu|Hu].
      * pose proof (dotn_pos m _ Hu). pose proof (pd_nonneg n P (fun j => x j - mv m H (inner x) j) (proj2 HP)). nra.
      * exfalso. destruct Hx as (i & Hi & Hne). apply Hne. specialize (Hy i Hi). cbv beta in Hy.
        replace (mv m H (inner x) i) with 0 in Hy; [lra|]. symmetry. unfold mv. apply sumn_zero. intros k Hk. rewrite Hu; auto. ring.
Qed.

(** The inverse covariance gains H H^T / rho. *)
Lemma outer_apply y i : mv n (outer m H) y i = mv m H (mtv n H y) i.
Proof. exact (mv_product n m H (fun l j => H j l) y i). Qed.
Lemma information M : inverse_of n P M -> inverse_of n reduced (fun i j => M i j + / rho * outer m H i j).
Proof.
  intros HM. apply inverse_swap. apply right_inverse.
  - apply pd_nonsingular. intros x Hx.
    assert (Epos : 0 < quadratic n M x) by (apply (proj2 (inverse_pd n P M HP HM)); auto).
    rewrite quadratic_dot in *.
    rewrite (dotn_ext n x _ x (fun i => mv n M x i - (- / rho) * mv m H (mtv n H x) i)).
    2:{ auto. } 2:{ intros. rewrite <- outer_apply. unfold mv. rewrite <- sumn_scal, <- sumn_minus. apply sumn_ext. intros; ring. }
    rewrite dotn_minus_r, dotn_scal_r. change (dotn n x (fun i => mv n M x i)) with (dotn n x (mv n M x)).
    change (dotn n x (fun i => mv m H (mtv n H x) i)) with (dotn n x (mv m H (mtv n H x))). rewrite (adjoint n m H).
    pose proof (dotn_nonneg m (mtv n H x)). assert (0 < / rho) by (apply Rinv_0_lt_compat; auto). nra.
  - intros i j Hi Hj. set (x := fun k => delta k j).
    transitivity (mv n (fun i j => M i j + / rho * outer m H i j) (mv n reduced x) i).
    { unfold product. apply sumn_ext. intros k Hk. f_equal. unfold mv, x. symmetry. apply (product_delta_r n reduced k j Hj). }
    set (y := fun j => x j - mv m H (inner x) j).
    transitivity (mv n M (mv n P y) i + / rho * mv n (outer m H) (mv n P y) i).
    { rewrite (mv_ext_r n _ _ (mv n P y)). 2:{ intros. now apply reduced_apply. }
      unfold mv at 1 3 5. rewrite <- sumn_scal, <- sumn_plus. apply sumn_ext. intros; ring. }
    rewrite (inverse_apply n M P); auto using inverse_swap. rewrite outer_apply.
    rewrite (mv_ext_r m H _ (fun k => rho * inner x k)). 2:{ intros. now apply inner_eq. }
    rewrite mv_scal. unfold y, x. field. lra.
Qed.

(** The new state is the unique minimum of the weighted least squares problem. *)
Lemma gain_normal xi M : inverse_of n P M -> forall i, (i < n)%nat ->
  mv n M (mv m gain xi) i = / rho * mv m H (fun k => xi k - mtv n H (mv m gain xi) k) i.
Proof.
  intros HM i Hi. set (u := mv m B xi).
  transitivity (mv m H u i).
  { rewrite (mv_ext_r n M _ (mv n P (mv m H u))). 2:{ intros. now apply gain_apply. }
    apply (inverse_apply n M P); auto using inverse_swap. }
  rewrite (mv_ext_r m H (fun k => xi k - mtv n H (mv m gain xi) k) (fun k => rho * u k)). { rewrite mv_scal. field. lra. }
  intros k Hk. rewrite (mtv_ext n H _ (mv n P (mv m H u))). 2:{ intros. now apply gain_apply. }
  pose proof (innovation_apply u k Hk) as E. unfold u at 1 in E. rewrite (inverse_apply m S B) in E; auto. rewrite E. ring.
Qed.
Lemma update_minimises xi w M v : inverse_of n P M ->
  let w' := fun i => w i + mv m gain xi i in
  update_cost n m M H xi w (/ rho) v = update_cost n m M H xi w (/ rho) w' + quadratic n M (fun i => v i - w' i) + / rho * sumn m (fun k => (mtv n H (fun i => v i - w' i) k) ^ 2).
Proof.
  intros HM w'. unfold update_cost.
  set (d := fun i => v i - w' i). set (p := mv m gain xi).
  assert (SM : symmetric n M) by (eapply inverse_sym; [exact (proj1 HP)|exact HM]).
  assert (E1 : forall i, v i - w i = p i - (-1) * d i) by (intros; unfold d, w', p; ring).
  assert (E2 : forall i, w' i - w i = p i) by (intros; unfold w', p; ring).
  rewrite (quadratic_ext n M (fun i => v i - w i) (fun i => p i - (-1) * d i)) by auto.
  rewrite (quadratic_ext n M (fun i => w' i - w i) p) by auto.
  set (r := fun k => xi k - mtv n H p k).
  rewrite (sumn_ext m (fun k => (xi k - sumn n (fun i => H i k * (v i - w i))) ^ 2) (fun k => (r k - mtv n H d k) ^ 2)).
  2:{ intros k Hk. f_equal. unfold r, mtv. rewrite <- Ropp_minus_distr'. 
      replace (xi k - sumn n (fun i => H i k * p i) - sumn n (fun i => H i k * d i)) with (xi k - (sumn n (fun i => H i k * p i) + sumn n (fun i => H i k * d i))) by ring.
      rewrite Ropp_minus_distr'. f_equal. rewrite <- sumn_plus. apply sumn_ext. intros. rewrite E1. ring. }
  rewrite (sumn_ext m (fun k => (xi k - sumn n (fun i => H i k * (w' i - w i))) ^ 2) (fun k => (r k) ^ 2)).
  2:{ intros k Hk. f_equal. unfold r, mtv. f_equal. apply sumn_ext. intros. now rewrite E2. }
  assert (Q : quadratic n M (fun i => p i - -1 * d i) = quadratic n M p + 2 * dotn n d (mv n M p) + quadratic n M d).
  { rewrite !quadratic_dot.
    rewrite (dotn_ext n _ (mv n M (fun i => p i - -1 * d i)) (fun i => p i - -1 * d i) (fun i => mv n M p i - -1 * mv n M d i)); auto.
    2:{ intros. rewrite mv_minus, mv_scal. auto. }
    rewrite dotn_minus_l, dotn_scal_l, !dotn_minus_r, !dotn_scal_r.
    change (dotn n p (fun i => mv n M d i)) with (dotn n p (mv n M d)).
    rewrite (dotn_sym n M p d SM).
    change (dotn n p (fun i => mv n M p i)) with (dotn n p (mv n M p)).
    change (dotn n d (fun i => mv n M p i)) with (dotn n d (mv n M p)).
    change (dotn n d (fun i => mv n M d i)) with (dotn n d (mv n M d)). ring. }
  rewrite Q.
  assert (L : sumn m (fun k => (r k - mtv n H d k) ^ 2) = sumn m (fun k => r k ^ 2) - 2 * dotn m (mtv n H d) r + sumn m (fun k => mtv n H d k ^ 2)).
  { unfold dotn. rewrite <- sumn_scal, <- sumn_minus, <- sumn_plus. apply sumn_ext. intros; ring. }
  rewrite L.
  assert (N : dotn n d (mv n M p) = / rho * dotn m (mtv n H d) r).
  { rewrite (dotn_ext n d (mv n M p) d (fun i => / rho * mv m H r i)); auto.
    2:{ intros. now apply gain_normal. }
    rewrite dotn_scal_r. f_equal. change (dotn n d (fun i => mv m H r i)) with (dotn n d (mv m H r)). apply adjoint. }
  rewrite N. ring.
Qed.
End Step.

(** * The update function *)
Lemma inverse_of_ext n A A' B : (forall i j, (i < n)%nat -> (j < n)%nat -> A i j = A' i j) -> inverse_of n A B -> inverse_of n A' B.
Proof.
  intros E H i j Hi Hj. destruct (H i j Hi Hj) as [H1 H2]. split.
  - rewrite <- H1. apply product_ext. intros. split; auto. symmetry. auto.
  - rewrite <- H2. apply product_ext. intros. split; auto. symmetry. auto.
Qed.
Lemma invertible_ext n A A' : (forall i j, (i < n)%nat -> (j < n)%nat -> A i j = A' i j) -> invertible n A -> invertible n A'.
Proof. intros E [B H]. exists B. eapply inverse_of_ext; eauto. Qed.
Lemma innovation_invertible n m P H rho : spd n P -> 0 < rho -> invertible m (innovation n P H rho).
Proof. intros HP Hr. apply nonsingular_invertible, pd_nonsingular. apply (innovation_spd n m P H rho); auto. Qed.

Definition gauss_inverse (n : nat) (A : nat -> nat -> R) : nat -> nat -> R := fun i j => gauss_solve n A (fun k => delta k j) i.
Lemma invertible_nonsingular n A : invertible n A -> nonsingular n A.
Proof.
  intros [B HB] x Hx i Hi. rewrite <- (inverse_apply n B A x (inverse_swap _ _ _ HB) i Hi).
  unfold mv at 1. apply sumn_zero. intros j Hj. rewrite Hx; auto. ring.
Qed.
Lemma gauss_inverse_exact : exact_inverse gauss_inverse.
Proof.
  intros n A HA. apply invertible_nonsingular in HA. apply right_inverse; auto.
  intros i j Hi Hj. exact (gauss_solve_exact n A (fun k => delta k j) HA i Hi).
Qed.

(** Measurement noise of an update. *)
Definition noise_of (o : observation) (inv : nat -> matrix -> matrix) (k : kalman) : R :=
  match k_type k with KT_STANDARD => 1 / k_eta (kalman_update inv o k) | KT_FADINGMEMORY => k_lambda k end.

Definition forget (k : kalman) : R := match k_type k with KT_STANDARD => 1 | KT_FADINGMEMORY => 1 / k_lambda k end.

Section Update.
Variable inv : nat -> matrix -> matrix.
Hypothesis Hinv : exact_inverse inv.
Variable o : observation.
Variable k : kalman.
Let n := k_n k.
Hypothesis HP : spd n (k_P k).
Hypothesis Hnoise : 0 < noise_of o inv k.
Let rho := noise_of o inv k.

Lemma update_structure : exists B, inverse_of (o_m o) (innovation n (k_P k) (o_H o) rho) B /\
  (forall i j, k_P (kalman_update inv o k) i j = reduced n (o_m o) (k_P k) (o_H o) B i j * forget k + k_q k * delta i j) /\
  (forall i, k_w (kalman_update inv o k) i = k_w k i + mv (o_m o) (gain n (o_m o) (k_P k) (o_H o) B) (o_xi o) i).
Proof.
  set (A := fun i j => if Nat.eqb i j then sumn n (fun l => o_H o l i * mulLower n (k_P k) (o_H o) l j) + rho else sumn n (fun l => o_H o l i * mulLower n (k_P k) (o_H o) l j)).
  assert (EA : forall i j, (i < o_m o)%nat -> (j < o_m o)%nat -> A i j = innovation n (k_P k) (o_H o) rho i j).
  { intros i j Hi Hj.
    assert (E : sumn n (fun l => o_H o l i * mulLower n (k_P k) (o_H o) l j) = sumn n (fun a => sumn n (fun l => o_H o a i * k_P k a l * o_H o l j))).
    { apply sumn_ext. intros a Ha. rewrite mulLower_eq by auto. unfold mv. rewrite <- sumn_scal. apply sumn_ext. intros; ring. }
    unfold A, innovation. rewrite E. unfold delta. destruct (Nat.eqb_spec i j), (Nat.eq_dec i j); try lia; ring. }
  assert (HA : inverse_of (o_m o) A (inv (o_m o) A)).
  { apply Hinv. eapply invertible_ext; [|exact (innovation_invertible n (o_m o) (k_P k) (o_H o) rho HP Hnoise)]. intros. symmetry. auto. }
  exists (inv (o_m o) A). split. { eapply inverse_of_ext; eauto. }
  unfold A, rho, noise_of, forget, n, reduced, gain, mv. unfold kalman_update. cbn [k_P k_w k_type k_eta].
  split; [|destruct (k_type k); auto].
  intros i j. unfold delta. destruct (Nat.eqb_spec i j), (Nat.eq_dec i j); try lia; destruct (k_type k); ring.
Qed.

Lemma update_spd : 0 <= k_q k -> 0 < forget k -> spd n (k_P (kalman_update inv o k)).
Proof.
  intros Hq Hf. destruct update_structure as (B & HB & EP & _).
  destruct (reduced_spd n (o_m o) (k_P k) (o_H o) rho HP Hnoise B HB) as [HS HD]. split.
  - intros i j Hi Hj. rewrite !EP, (HS i j) by auto. unfold delta. destruct (Nat.eq_dec i j), (Nat.eq_dec j i); try lia; ring.
  - intros x Hx. specialize (HD x Hx).
    rewrite (quadratic_matext n _ _ x (fun i j _ _ => EP i j)). rewrite quadratic_dot in *.
    rewrite (dotn_ext n x _ x (fun i => forget k * mv n (reduced n (o_m o) (k_P k) (o_H o) B) x i - (- k_q k) * x i)).
    2:{ auto. }
    2:{ intros i Hi. rewrite <- (mv_delta n x i Hi). unfold mv. rewrite <- !sumn_scal, <- sumn_minus. apply sumn_ext. intros; ring. }
    rewrite dotn_minus_r, !dotn_scal_r. pose proof (dotn_nonneg n x).
    change (dotn n x (fun i => mv n (reduced n (o_m o) (k_P k) (o_H o) B) x i)) with (dotn n x (mv n (reduced n (o_m o) (k_P k) (o_H o) B) x)).
    change (dotn n x (fun i => x i)) with (dotn n x x). nra.
Qed.

(** Before the process noise is added, the inverse covariance is (P^-1 + H H^T / rho) / forget. *)
Lemma update_information M : 0 < forget k -> inverse_of n (k_P k) M ->
  exists D, inverse_of n D (fun i j => (M i j + / rho * outer (o_m o) (o_H o) i j) / forget k) /\
  forall i j, (i < n)%nat -> (j < n)%nat -> k_P (kalman_update inv o k) i j = D i j + k_q k * delta i j.
Proof.
  intros Hf HM. destruct update_structure as (B & HB & EP & _).
  pose proof (information n (o_m o) (k_P k) (o_H o) rho HP Hnoise B HB M HM) as HI.
  exists (fun i j => reduced n (o_m o) (k_P k) (o_H o) B i j * forget k). split.
  - assert (Hf0 : forget k <> 0) by lra. assert (Hr0 : rho <> 0) by (unfold rho; lra).
    intros i j Hi Hj. destruct (HI i j Hi Hj) as [E1 E2]. split.
    + rewrite <- E1. unfold product. apply sumn_ext. intros. field. auto.
    + rewrite <- E2. unfold product. apply sumn_ext. intros. field. auto.
  - intros. apply EP.
Qed.

Lemma update_optimal M v : inverse_of n (k_P k) M ->
  let w' := k_w (kalman_update inv o k) in
  update_cost n (o_m o) M (o_H o) (o_xi o) (k_w k) (/ rho) w' <= update_cost n (o_m o) M (o_H o) (o_xi o) (k_w k) (/ rho) v /\
  (update_cost n (o_m o) M (o_H o) (o_xi o) (k_w k) (/ rho) v <= update_cost n (o_m o) M (o_H o) (o_xi o) (k_w k) (/ rho) w' -> forall i, (i < n)%nat -> v i = w' i).
Proof.
  intros HM w'. destruct update_structure as (B & HB & _ & EW).
  set (w1 := fun i => k_w k i + mv (o_m o) (gain n (o_m o) (k_P k) (o_H o) B) (o_xi o) i).
  assert (E1 : update_cost n (o_m o) M (o_H o) (o_xi o) (k_w k) (/ rho) w' = update_cost n (o_m o) M (o_H o) (o_xi o) (k_w k) (/ rho) w1).
  { unfold update_cost. f_equal.
    - apply quadratic_ext. intros. unfold w', w1. now rewrite EW.
    - f_equal. apply sumn_ext. intros. do 2 f_equal. apply sumn_ext. intros. unfold w', w1. now rewrite EW. }
  rewrite E1. pose proof (update_minimises n (o_m o) (k_P k) (o_H o) rho HP Hnoise B HB (o_xi o) (k_w k) M v HM) as E.
  cbv zeta in E. fold w1 in E. rewrite E.
  assert (SM := inverse_pd n (k_P k) M HP HM).
  assert (G : 0 <= / rho * sumn (o_m o) (fun k0 => mtv n (o_H o) (fun i => v i - w1 i) k0 ^ 2)).
  { apply Rmult_le_pos. { left. apply Rinv_0_lt_compat. exact Hnoise. }
    rewrite (sumn_ext _ _ (fun k0 => mtv n (o_H o) (fun i => v i - w1 i) k0 * mtv n (o_H o) (fun i => v i - w1 i) k0)). 2:{ intros; ring. }
    exact (dotn_nonneg (o_m o) (mtv n (o_H o) (fun i => v i - w1 i))). }
  pose proof (pd_nonneg n M (fun i => v i - w1 i) (proj2 SM)). split; [lra|].
  intros Hle i Hi. destruct (nonzero_dec n (fun i => v i - w1 i)) as [Hn|Hn].
  - pose proof (proj2 SM _ Hn). lra.
  - specialize (Hn i Hi). cbv beta in Hn. unfold w'. rewrite EW. fold (w1 i). lra.
Qed.
End Update.

(** * Histories *)
Lemma run_snoc inv os o k : kalman_run inv (os ++ [o]) k = kalman_update inv o (kalman_run inv os k).
Proof. unfold kalman_run. now rewrite fold_left_app. Qed.

Definition std_ok (k : kalman) : Prop := k_type k = KT_STANDARD /\ spd (k_n k) (k_P k) /\ 0 < k_eta k /\ 0 <= k_q k.
Definition fade_ok (k : kalman) : Prop := k_type k = KT_FADINGMEMORY /\ spd (k_n k) (k_P k) /\ (0 < k_lambda k <= 1) /\ (0 <= k_nu k <= 1) /\ 0 < k_gamma k /\ 0 <= k_q k.

Lemma q_next inv o k : k_q (kalman_update inv o k) = if Rlt_dec (k_qmin k) (k_q k) then k_q k * exp (- k_qtau k) else k_q k.
Proof. reflexivity. Qed.
Lemma q_nonneg inv o k : 0 <= k_q k -> 0 <= k_q (kalman_update inv o k).
Proof. intros. rewrite q_next. destruct (Rlt_dec _ _); auto. apply Rmult_le_pos; auto. left. apply exp_pos. Qed.
Lemma eta_pos inv o k : 0 < k_eta k -> 0 < k_eta (kalman_update inv o k).
Proof.
  intros. unfold kalman_update. cbn. destruct (k_type k); auto. destruct (Rlt_dec _ _); auto.
  apply Rmult_lt_0_compat; auto. apply exp_pos.
Qed.
Lemma std_noise inv o k : std_ok k -> 0 < noise_of o inv k.
Proof.
  intros (Ht & _ & He & _). unfold noise_of. rewrite Ht. apply Rdiv_lt_0_compat; [lra|]. now apply eta_pos.
Qed.
Lemma fade_noise inv o k : fade_ok k -> 0 < noise_of o inv k.
Proof. intros (Ht & _ & He & _). unfold noise_of. rewrite Ht. lra. Qed.
Lemma std_forget k : std_ok k -> forget k = 1.
Proof. intros (Ht & _). unfold forget. now rewrite Ht. Qed.
Lemma fade_forget k : fade_ok k -> forget k = 1 / k_lambda k /\ 0 < forget k.
Proof. intros (Ht & _ & He & _). unfold forget. rewrite Ht. split; auto. apply Rdiv_lt_0_compat; lra. Qed.
Lemma lambda_next inv o k : k_type k = KT_FADINGMEMORY -> k_lambda (kalman_update inv o k) = k_nu k * k_lambda k + 1 - k_nu k.
Proof. intros Ht. unfold kalman_update. cbn. now rewrite Ht. Qed.
Lemma std_step inv o k : exact_inverse inv -> std_ok k -> std_ok (kalman_update inv o k).
Proof.
  intros Hi Hk. pose proof Hk as (Ht & HP & He & Hq). repeat split; auto.
  - exact (proj1 (update_spd inv Hi o k HP (std_noise inv o k Hk) Hq ltac:(rewrite (std_forget k Hk); lra))).
  - exact (proj2 (update_spd inv Hi o k HP (std_noise inv o k Hk) Hq ltac:(rewrite (std_forget k Hk); lra))).
  - now apply eta_pos.
  - now apply q_nonneg.
Qed.
Lemma fade_step inv o k : exact_inverse inv -> fade_ok k -> fade_ok (kalman_update inv o k).
Proof.
  intros Hi Hk. pose proof Hk as (Ht & HP & Hl & Hn & Hg & Hq).
  pose proof (update_spd inv Hi o k HP (fade_noise inv o k Hk) Hq (proj2 (fade_forget k Hk))) as U.
  assert (L : 0 < k_nu k * k_lambda k + 1 - k_nu k <= 1) by (split; nra).
  assert (G : 0 < 1 / (1 + (k_nu k * k_lambda k + 1 - k_nu k) / k_gamma k)).
  { assert (0 < (k_nu k * k_lambda k + 1 - k_nu k) / k_gamma k) by (apply Rdiv_lt_0_compat; lra).
    apply Rdiv_lt_0_compat; lra. }
  unfold fade_ok. rewrite (lambda_next inv o k Ht). split; [auto|]. split; [exact U|]. split; [exact L|].
  split; [exact Hn|]. split; [|now apply q_nonneg].
  unfold kalman_update. cbn [k_gamma]. rewrite Ht. exact G.
Qed.
Lemma run_ind (Q : kalman -> Prop) inv : (forall o k, Q k -> Q (kalman_update inv o k)) -> forall os k, Q k -> Q (kalman_run inv os k).
Proof. intros H os. induction os; intros k Hk; cbn; auto. apply IHos. auto. Qed.
Lemma run_constant {T} (f : kalman -> T) inv : (forall o k, f (kalman_update inv o k) = f k) -> forall os k, f (kalman_run inv os k) = f k.
Proof. intros H os. induction os as [|o os IH]; intros k; auto. change (f (kalman_run inv os (kalman_update inv o k)) = f k). rewrite IH. auto. Qed.
Lemma run_n inv os k : k_n (kalman_run inv os k) = k_n k.
Proof. now apply run_constant. Qed.

Lemma spd_identity n eps : 0 < eps -> spd n (fun i j => identity i j / eps).
Proof.
  intros He. apply (spd_ext n (fun i j => / eps * delta i j)).
  { intros. unfold identity, delta. destruct (Nat.eqb_spec i j), (Nat.eq_dec i j); try lia; field; lra. }
  split.
  - intros i j _ _. unfold delta. destruct (Nat.eq_dec i j), (Nat.eq_dec j i); auto; lia.
  - intros x Hx. rewrite quadratic_dot. rewrite (dotn_ext n x _ x (fun i => / eps * x i)); auto.
    2:{ intros i Hi. rewrite <- (mv_delta n x i Hi). unfold mv. rewrite <- sumn_scal. apply sumn_ext. intros; ring. }
    rewrite dotn_scal_r. apply Rmult_lt_0_compat. { now apply Rinv_0_lt_compat. } apply (dotn_pos n x Hx).
Qed.
Lemma start_std n w k0 eps q0 qtau qmin eta0 etatau etamax : new_kalman n KT_STANDARD w = Some k0 ->
  0 < eps -> 0 <= q0 -> 0 < eta0 -> std_ok (setParametersStandard eps q0 qtau qmin eta0 etatau etamax k0) /\ k_n k0 = n.
Proof.
  unfold new_kalman. destruct (Nat.ltb n 1); [discriminate|]. intros E ? ? ?. injection E as <-. cbn.
  split; auto. unfold std_ok. cbn [k_type k_n k_P k_eta k_q setParametersStandard]. split; [auto|]. split; [now apply spd_identity|]. auto.
Qed.
Lemma start_fade n w k0 eps q0 qtau qmin lambda nu : new_kalman n KT_FADINGMEMORY w = Some k0 ->
  0 < eps -> 0 <= q0 -> 0 < lambda <= 1 -> 0 <= nu <= 1 -> fade_ok (setParametersFadingMemory eps q0 qtau qmin lambda nu k0) /\ k_n k0 = n.
Proof.
  unfold new_kalman. destruct (Nat.ltb n 1); [discriminate|]. intros E ? ? ? ?. injection E as <-. cbn.
  split; auto. unfold fade_ok. cbn [k_type k_n k_P k_eta k_q k_lambda k_nu k_gamma setParametersFadingMemory]. split; [auto|]. split; [now apply spd_identity|]. intuition lra.
Qed.
