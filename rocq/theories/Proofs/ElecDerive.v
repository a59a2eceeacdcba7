(** Derivatives of pair interactions along a path of the atoms. *)
From Coq Require Import Reals ZArith List Bool Arith Lia Lra.
From Coquelicot Require Import Coquelicot.
From Coq Require Import List.
From Verif Require Import Base.Vec3 Base.Loop Base.SumR Base.Erf Model.CoreFunction Model.CompactScreening Model.Geometry Model.NeighborList
  Model.Kspace Model.Electrostatics Spec.CompactSpec Spec.ElecSpec Proofs.CompactProofs Proofs.SymTerms Proofs.ElecCore Proofs.ElecFill.
Import ListNotations.
Local Open Scope R_scope.

Lemma along x w (F : R -> R) F' : x <> vzero -> is_derive F (norm x) F' -> is_derive (fun t => F (norm (line x w t))) 0 (F' * (dot x w / norm x)).
Proof.
  intros Hx HF. eapply is_derive_eq.
  - apply (is_derive_comp F (fun t => norm (line x w t)) 0 F' (dot x w / norm x)).
    + rewrite line_0. exact HF.
    + now apply norm_line_derive.
  - unfold scal; simpl. unfold mult; simpl. ring.
Qed.
Lemma is_derive_div_const (f : R -> R) x l c : is_derive f x l -> is_derive (fun t => f t / c) x (l / c).
Proof.
  intros H. unfold Rdiv. eapply is_derive_eq. apply (is_derive_scal_l f x l (/ c) H). reflexivity.
Qed.
Lemma is_derive_prod (f g : R -> R) x f' g' : is_derive f x f' -> is_derive g x g' -> is_derive (fun t => f t * g t) x (f' * g x + f x * g').
Proof.
  intros Hf Hg. apply (is_derive_mult f g x f' g' Hf Hg). intros; apply Rmult_comm.
Qed.
Lemma erf_scaled g r : g <> 0 -> is_derive (fun r => erf (r / g)) r (2 / sqrt PI * exp (- ((r / g) * (r / g))) / g).
Proof.
  intros Hg. eapply is_derive_eq.
  - apply (is_derive_comp erf (fun r => r / g) r (2 / sqrt PI * exp (- ((r / g) * (r / g)))) (1 / g)).
    + apply erf_derive.
    + apply (is_derive_div_const (fun r => r) r 1 g). apply (is_derive_id r).
  - unfold scal; simpl. unfold mult; simpl. field. split; auto. pose proof sqrt_PI_pos. lra.
Qed.
Lemma erfc_scaled g r : g <> 0 -> is_derive (fun r => erfc (r / g)) r (- (2 / sqrt PI * exp (- ((r / g) * (r / g))) / g)).
Proof.
  intros Hg. unfold erfc. eapply is_derive_eq.
  - apply (is_derive_minus (fun _ => 1) (fun r => erf (r / g))). apply (is_derive_const 1 r). now apply erf_scaled.
  - unfold minus, plus, opp, zero; simpl. ring.
Qed.
Lemma over_r (f : R -> R) f' r eps : r <> 0 -> eps <> 0 -> is_derive f r f' -> is_derive (fun r => f r / (r * eps)) r ((f' - f r / r) / (r * eps)).
Proof.
  intros Hr He Hf. assert (Hre : r * eps <> 0) by (apply Rmult_integral_contrapositive; auto).
  eapply is_derive_eq.
  - apply (is_derive_div f (fun r => r * eps) r f' eps Hf); auto.
    eapply is_derive_eq. apply (is_derive_scal_l (fun r => r) r 1 eps (is_derive_id r)). unfold scal; simpl; unfold mult; simpl. ring.
  - field. auto.
Qed.
Lemma gaussian_derive s1 s2 eps r : 0 < s1 -> 0 < s2 -> 0 < eps -> 0 < r -> let g := sqrt (2 * (s1 * s1 + s2 * s2)) in
  is_derive (gaussian_coulomb s1 s2 eps) r ((2 / (sqrt PI * g) * exp (- ((r / g) * (r / g))) - erf (r / g) / r) / (r * eps)).
Proof.
  intros H1 H2 He Hr g. assert (Hg : 0 < g) by (apply sqrt_lt_R0; nra). pose proof sqrt_PI_pos.
  unfold gaussian_coulomb. fold g. eapply is_derive_eq.
  - apply (over_r (fun r => erf (r / g))); [lra|lra|]. apply erf_scaled. lra.
  - field. repeat split; lra.
Qed.
Lemma gaussian_screened_derive s1 s2 eps r k a b fs : screening_config k a b = Some fs -> 0 < s1 -> 0 < s2 -> 0 < eps -> 0 < r ->
  let g := sqrt (2 * (s1 * s1 + s2 * s2)) in
  is_derive (fun r => gaussian_coulomb s1 s2 eps r * (sc_f fs r - 1)) r
    ((2 / (sqrt PI * g) * exp (- ((r / g) * (r / g))) * (sc_f fs r - 1) + erf (r / g) * sc_df fs r - erf (r / g) * (sc_f fs r - 1) / r) / (r * eps)).
Proof.
  intros Hfs H1 H2 He Hr g. assert (Hg : 0 < g) by (apply sqrt_lt_R0; nra). pose proof sqrt_PI_pos.
  eapply is_derive_eq.
  - apply (is_derive_prod (gaussian_coulomb s1 s2 eps) (fun r => sc_f fs r - 1)); [now apply gaussian_derive|].
    apply (is_derive_minus (sc_f fs) (fun _ => 1)); [exact (screening_derive k a b fs Hfs r)|apply (is_derive_const 1 r)].
  - fold g. unfold gaussian_coulomb. fold g. unfold minus, plus, opp, zero; simpl. field. repeat split; lra.
Qed.
Lemma ewald_derive g h eps r : 0 < g -> 0 < h -> 0 < eps -> 0 < r ->
  is_derive (fun r => (erfc (r / h) - erfc (r / g)) / (r * eps)) r
    ((2 / sqrt PI * (- exp (- ((r / h) * (r / h))) / h + exp (- ((r / g) * (r / g))) / g) - 1 / r * (erfc (r / h) - erfc (r / g))) / (r * eps)).
Proof.
  intros Hg Hh He Hr. pose proof sqrt_PI_pos. eapply is_derive_eq.
  - apply (over_r (fun r => erfc (r / h) - erfc (r / g))); [lra|lra|].
    apply (is_derive_minus (fun r => erfc (r / h)) (fun r => erfc (r / g))); apply erfc_scaled; lra.
  - unfold minus, plus, opp; simpl. field. repeat split; lra.
Qed.
Lemma dot_vdiv a k c : dot (vdiv a k) c = dot a c / k.
Proof. unfold dot, vdiv; simpl. unfold Rdiv. ring. Qed.
(** Pair interactions. *)
Lemma gaussian_pair x w s1 s2 eps : x <> vzero -> 0 < s1 -> 0 < s2 -> 0 < eps -> let g := sqrt (2 * (s1 * s1 + s2 * s2)) in let r := norm x in
  is_derive (fun t => gaussian_coulomb s1 s2 eps (norm (line x w t))) 0
    (dot (vdiv (smul (2 / (sqrt PI * g) * exp (- ((r / g) * (r / g))) - erf (r / g) / r) (vdiv x (r * r))) eps) w).
Proof.
  intros Hx H1 H2 He g r. pose proof (norm_pos x Hx) as Hr. fold r in Hr.
  eapply is_derive_eq.
  - apply (along x w _ _ Hx (gaussian_derive s1 s2 eps (norm x) H1 H2 He Hr)).
  - fold g r. rewrite dot_vdiv, dot_smul_l, dot_vdiv. unfold Rdiv. rewrite !Rinv_mult. ring.
Qed.
Lemma screened_pair x w s1 s2 eps k a b fs q : screening_config k a b = Some fs -> x <> vzero -> 0 < s1 -> 0 < s2 -> 0 < eps ->
  let g := sqrt (2 * (s1 * s1 + s2 * s2)) in let r := norm x in
  exists c', is_derive (fun t => gaussian_coulomb s1 s2 eps (norm (line x w t)) * (sc_f fs (norm (line x w t)) - 1)) 0 c' /\
    q * c' = dot (vdiv (smul (2 / (sqrt PI * g) * exp (- ((r / g) * (r / g))) * (sc_f fs r - 1)
                       + erf (r / g) * sc_df fs r - erf (r / g) * (sc_f fs r - 1) / r)
                      (vdiv (smul q x) (r * r))) eps) w.
Proof.
  intros Hfs Hx H1 H2 He g r. pose proof (norm_pos x Hx) as Hr. fold r in Hr. exists
   ((2 / (sqrt PI * g) * exp (- ((r / g) * (r / g))) * (sc_f fs r - 1) + erf (r / g) * sc_df fs r - erf (r / g) * (sc_f fs r - 1) / r) / (r * eps) * (dot x w / r)).
  split.
  - apply (along x w _ _ Hx (gaussian_screened_derive s1 s2 eps (norm x) k a b fs Hfs H1 H2 He Hr)).
  - rewrite dot_vdiv, dot_smul_l, dot_vdiv, dot_smul_l. unfold Rdiv. rewrite !Rinv_mult. ring.
Qed.
Lemma ewald_pair x w g h eps : x <> vzero -> 0 < g -> 0 < h -> 0 < eps -> let r := norm x in
  is_derive (fun t => (erfc (norm (line x w t) / h) - erfc (norm (line x w t) / g)) / (norm (line x w t) * eps)) 0
    (dot (vdiv (smul (2 / sqrt PI * (- exp (- ((r / h) * (r / h))) / h + exp (- ((r / g) * (r / g))) / g)
                            - 1 / r * (erfc (r / h) - erfc (r / g))) (vdiv x (r * r))) eps) w).
Proof.
  intros Hx Hg Hh He r. pose proof (norm_pos x Hx) as Hr. fold r in Hr.
  eapply is_derive_eq.
  - apply (along x w _ _ Hx (ewald_derive g h eps (norm x) Hg Hh He Hr)).
  - fold r. rewrite dot_vdiv, dot_smul_l, dot_vdiv. unfold Rdiv. rewrite !Rinv_mult. ring.
Qed.
Lemma cos_pair x w k c : is_derive (fun t => c * cos (dot k (line x w t))) 0 (dot (smul (- (c * sin (dot k x))) k) w).
Proof.
  eapply is_derive_eq.
  - apply (is_derive_scal (fun t => cos (dot k (line x w t))) 0 c).
    apply (is_derive_comp cos (fun t => dot k (line x w t)) 0 (- sin (dot k x)) (dot k w)).
    + apply is_derive_Reals. replace (dot k (line x w 0)) with (dot k x) by (now rewrite line_0). apply derivable_pt_lim_cos.
    + apply (is_derive_ext (fun t => dot k x + t * dot k w)).
      { intros t. unfold line, dot, vadd, smul; simpl. ring. }
      eapply is_derive_eq. apply (is_derive_plus (fun _ => dot k x) (fun t => t * dot k w)). apply (is_derive_const (dot k x)). apply (is_derive_scal_l (fun t => t) 0 1 (dot k w) (is_derive_id 0)).
      unfold plus, zero, scal; simpl; unfold mult; simpl. ring.
  - rewrite dot_smul_l. unfold scal; simpl; unfold mult; simpl. ring.
Qed.
