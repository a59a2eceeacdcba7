(** The error function. *)
From Coq Require Import Reals Lra.
From Coquelicot Require Import Coquelicot.
From Verif Require Import Base.SumR.
Local Open Scope R_scope.

Definition gauss (t : R) : R := exp (- (t * t)).
(** std::erf and std::erfc. *)
Definition erf (x : R) : R := 2 / sqrt PI * RInt gauss 0 x.
Definition erfc (x : R) : R := 1 - erf x.

Lemma sqrt_PI_pos : 0 < sqrt PI.
Proof. apply sqrt_lt_R0, PI_RGT_0. Qed.
Lemma gauss_derive x : is_derive gauss x (- (2 * x) * gauss x).
Proof. unfold gauss. auto_derive; auto. ring. Qed.
Lemma gauss_continuous x : continuous gauss x.
Proof. apply (ex_derive_continuous (K:=R_AbsRing) (V:=R_NormedModule) gauss x). eexists. apply gauss_derive. Qed.
Lemma gauss_int_derive x : is_derive (fun u => RInt gauss 0 u) x (gauss x).
Proof.
  apply (is_derive_RInt gauss (fun u => RInt gauss 0 u) 0 x).
  - exists (mkposreal 1 Rlt_0_1). intros y _. apply (@RInt_correct R_CompleteNormedModule).
    apply (@ex_RInt_continuous R_CompleteNormedModule). intros; apply gauss_continuous.
  - apply gauss_continuous.
Qed.
Lemma erf_derive x : is_derive erf x (2 / sqrt PI * exp (- (x * x))).
Proof.
  unfold erf. apply (is_derive_scal (fun u => RInt gauss 0 u)). apply gauss_int_derive.
Qed.
Lemma erf_0 : erf 0 = 0.
Proof. unfold erf. rewrite (RInt_point 0 gauss). unfold zero; simpl. ring. Qed.

Lemma exp_le x y : x <= y -> exp x <= exp y.
Proof. intros [H| ->]; [left; now apply exp_increasing|right; auto]. Qed.
(** Comparison by derivatives. *)
Lemma derive_le (f g f' g' : R -> R) x : 0 <= x -> (forall u, is_derive f u (f' u)) -> (forall u, is_derive g u (g' u)) ->
  (forall u, 0 <= u -> f' u <= g' u) -> f 0 <= g 0 -> f x <= g x.
Proof.
  intros Hx Hf Hg Hle H0.
  destruct (Rle_lt_or_eq_dec 0 x Hx) as [Hlt|<-]; [|auto].
  assert (M : exists c, (g x - f x) - (g 0 - f 0) = (g' c - f' c) * (x - 0) /\ 0 <= c <= x).
  { destruct (MVT_gen (fun u => g u - f u) 0 x (fun u => g' u - f' u)) as (c & C1 & C2).
    - intros u _. apply (is_derive_minus g f); auto.
    - intros u _. apply continuity_pt_filterlim. apply (ex_derive_continuous (K:=R_AbsRing) (V:=R_NormedModule) (fun u => g u - f u) u).
      eexists. apply (is_derive_minus g f); auto.
    - exists c. rewrite Rmin_left, Rmax_right in C1 by lra. split; auto. }
  destruct M as (c & E & Hc1 & Hc2). pose proof (Hle c Hc1).
  assert (0 <= (g' c - f' c) * (x - 0)) by (apply Rmult_le_pos; lra). lra.
Qed.

Lemma erf_nonneg x : 0 <= x -> 0 <= erf x.
Proof.
  intros Hx. apply (derive_le (fun _ => 0) erf (fun _ => 0) (fun u => 2 / sqrt PI * exp (- (u * u)))); auto.
  - intros u. apply (is_derive_const 0 u).
  - apply erf_derive.
  - intros u _. pose proof (exp_pos (- (u * u))). pose proof sqrt_PI_pos.
    apply Rmult_le_pos; [|lra]. apply Rlt_le, Rdiv_lt_0_compat; lra.
  - rewrite erf_0. lra.
Qed.
Lemma erf_nonpos x : x <= 0 -> erf x <= 0.
Proof.
  intros Hx.
  assert (E : 0 <= - erf (- (- x))).
  { apply (derive_le (fun _ => 0) (fun u => - erf (- u)) (fun _ => 0) (fun u => 2 / sqrt PI * exp (- (u * u)))).
    - lra.
    - intros u. apply (is_derive_const 0 u).
    - intros u. eapply is_derive_eq.
      { apply (is_derive_opp (fun u => erf (- u)) u (-1 * (2 / sqrt PI * exp (- (- u * - u))))).
        apply (is_derive_comp erf (fun u => - u) u (2 / sqrt PI * exp (- (- u * - u))) (-1)).
        - apply erf_derive.
        - auto_derive; auto; ring. }
      replace (- u * - u) with (u * u) by ring. unfold opp; simpl. ring.
    - intros u _. pose proof (exp_pos (- (u * u))). pose proof sqrt_PI_pos.
      apply Rmult_le_pos; [|lra]. apply Rlt_le, Rdiv_lt_0_compat; lra.
    - rewrite Ropp_0, erf_0. lra. }
  rewrite Ropp_involutive in E. lra.
Qed.
Lemma erf_linear_bound x : 0 <= x -> erf x <= 2 / sqrt PI * x.
Proof.
  intros Hx. apply (derive_le erf (fun u => 2 / sqrt PI * u) (fun u => 2 / sqrt PI * exp (- (u * u))) (fun _ => 2 / sqrt PI)); auto.
  - apply erf_derive.
  - intros u. auto_derive; auto. ring.
  - intros u _. assert (exp (- (u * u)) <= 1). { rewrite <- exp_0. apply exp_le. nra. }
    assert (0 < 2 / sqrt PI) by (apply Rdiv_lt_0_compat; [lra|apply sqrt_PI_pos]). nra.
  - rewrite erf_0. lra.
Qed.
Lemma exp_quarter : exp (/ 4) < sqrt PI.
Proof.
  assert (Hp : 3 < PI). { pose proof PI2_3_2. unfold PI2 in *. lra. }
  assert (Hs := sqrt_PI_pos). assert (E : sqrt PI * sqrt PI = PI) by (apply sqrt_sqrt; lra).
  assert (He := exp_le_3). assert (P4 : exp (/ 4) * exp (/ 4) * (exp (/ 4) * exp (/ 4)) = exp 1).
  { rewrite <- !exp_plus. f_equal. field. }
  pose proof (exp_pos (/ 4)). set (a := exp (/ 4)) in *. set (s := sqrt PI) in *.
  destruct (Rlt_dec a s); auto. exfalso. assert (s <= a) by lra.
  assert (s * s <= a * a) by nra. assert (PI * PI <= a * a * (a * a)) by nra. nra.
Qed.
Lemma erf_lt_2 x : erf x < 2.
Proof.
  destruct (Rle_dec x 0). { pose proof (erf_nonpos x r). lra. }
  assert (Hx : 0 <= x) by lra.
  assert (B : erf x <= 2 / sqrt PI * (exp (/ 4) * (1 - exp (- x)))).
  { apply (derive_le erf (fun u => 2 / sqrt PI * (exp (/ 4) * (1 - exp (- u)))) (fun u => 2 / sqrt PI * exp (- (u * u)))
       (fun u => 2 / sqrt PI * (exp (/ 4) * exp (- u)))); auto.
    - apply erf_derive.
    - intros u. auto_derive; auto. ring.
    - intros u _. apply Rmult_le_compat_l. { apply Rlt_le, Rdiv_lt_0_compat; [lra|apply sqrt_PI_pos]. }
      rewrite <- exp_plus. apply exp_le. pose proof (Rle_0_sqr (u - / 2)) as Q. unfold Rsqr in Q. lra.
    - rewrite erf_0, Ropp_0, exp_0. apply Req_le. ring. }
  pose proof exp_quarter. pose proof sqrt_PI_pos. pose proof (exp_pos (- x)). pose proof (exp_pos (/ 4)).
  assert (2 / sqrt PI * (exp (/ 4) * (1 - exp (- x))) < 2 / sqrt PI * sqrt PI).
  { apply Rmult_lt_compat_l; [apply Rdiv_lt_0_compat; lra|]. nra. }
  replace (2 / sqrt PI * sqrt PI) with 2 in * by (field; lra). lra.
Qed.
Lemma erfc_gt x : -1 < erfc x.
Proof. unfold erfc. pose proof (erf_lt_2 x). lra. Qed.
Lemma erfc_derive x : is_derive erfc x (- (2 / sqrt PI * exp (- (x * x)))).
Proof.
  unfold erfc. eapply is_derive_eq. { apply (is_derive_minus (fun _ => 1) erf). apply (is_derive_const 1 x). apply erf_derive. }
  unfold minus, plus, opp, zero; simpl. ring.
Qed.
Lemma erf_lower x : 0 <= x -> 2 / sqrt PI * (x * exp (- (x * x))) <= erf x.
Proof.
  intros Hx. apply (derive_le (fun u => 2 / sqrt PI * (u * exp (- (u * u)))) erf (fun u => 2 / sqrt PI * ((1 - 2 * u * u) * exp (- (u * u)))) (fun u => 2 / sqrt PI * exp (- (u * u)))); auto.
  - intros u. auto_derive; auto. ring.
  - apply erf_derive.
  - intros u Hu. pose proof (exp_pos (- (u * u))). apply Rmult_le_compat_l. { apply Rlt_le, Rdiv_lt_0_compat; [lra|apply sqrt_PI_pos]. } nra.
  - rewrite erf_0. apply Req_le. ring.
Qed.
Lemma erf_pos x : 0 < x -> 0 < erf x.
Proof.
  intros Hx. pose proof (erf_lower x (Rlt_le _ _ Hx)). pose proof (exp_pos (- (x * x))).
  assert (0 < 2 / sqrt PI) by (apply Rdiv_lt_0_compat; [lra|apply sqrt_PI_pos]). assert (0 < x * exp (- (x * x))) by nra. nra.
Qed.
