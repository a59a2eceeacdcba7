(** Vectors in three dimensions: the class Vec3D (src/libnnp/Vec3D.h). *)
From Coq Require Import Reals Lra ZArith.
Local Open Scope R_scope.

Record vec := mkVec { vx : R; vy : R; vz : R }.
(** Vec3D.h:170-175 default constructor. *)
Definition vzero : vec := mkVec 0 0 0.
(** Vec3D.h:207-214 operator+=, 344-347 operator+. *)
Definition vadd (a b : vec) : vec := mkVec (vx a + vx b) (vy a + vy b) (vz a + vz b).
(** Vec3D.h:216-223 operator-=, operator-. *)
Definition vsub (a b : vec) : vec := mkVec (vx a - vx b) (vy a - vy b) (vz a - vz b).
(** Vec3D.h:225-232 operator*=(double), operator*(double, Vec3D). *)
Definition smul (s : R) (a : vec) : vec := mkVec (vx a * s) (vy a * s) (vz a * s).
(** unary minus: v *= -1.0. *)
Definition vopp (a : vec) : vec := smul (-1) a.
(** Vec3D.h:248-253 operator/=: *this *= 1.0 / a. *)
Definition vdiv (a : vec) (s : R) : vec := smul (1 / s) a.
(** Vec3D.h:255-258 scalar product. *)
Definition dot (a b : vec) : R := vx a * vx b + vy a * vy b + vz a * vz b.
(** Vec3D.h:302-305 norm2, 297-300 norm. *)
Definition norm2 (a : vec) : R := vx a * vx a + vy a * vy a + vz a * vz a.
Definition norm (a : vec) : R := sqrt (norm2 a).
(** Vec3D.h:307-310 l1norm. *)
Definition l1norm (a : vec) : R := Rabs (vx a) + Rabs (vy a) + Rabs (vz a).
(** Vec3D.h:312-320 normalize. *)
Definition normalize (a : vec) : vec := let n := norm a in mkVec (vx a / n) (vy a / n) (vz a / n).
(** Vec3D.h:322-331 cross. *)
Definition cross (a b : vec) : vec :=
  mkVec (vy a * vz b - vz a * vy b) (vz a * vx b - vx a * vz b) (vx a * vy b - vy a * vx b).
(** Vec3D.h:262-282 operator[]: [None] = exception. *)
Definition vget (a : vec) (i : nat) : option R :=
  match i with O => Some (vx a) | 1%nat => Some (vy a) | 2%nat => Some (vz a) | _ => None end.
(** Component for an index below three. *)
Definition comp (a : vec) (i : nat) : R :=
  match i with O => vx a | 1%nat => vy a | _ => vz a end.

(** An array of three vectors (box, invbox). *)
Record mat := mkMat { m0 : vec; m1 : vec; m2 : vec }.
(** Vec3D.h:234-246 operator*=(A[3]), operator*(A[3], v):
    w[i] = sum over j of A[j][i] * v[j]. *)
Definition matvec (A : mat) (v : vec) : vec :=
  mkVec (0 + vx (m0 A) * vx v + vx (m1 A) * vy v + vx (m2 A) * vz v)
        (0 + vy (m0 A) * vx v + vy (m1 A) * vy v + vy (m2 A) * vz v)
        (0 + vz (m0 A) * vx v + vz (m1 A) * vy v + vz (m2 A) * vz v).

Lemma vec_eq a b : vx a = vx b -> vy a = vy b -> vz a = vz b -> a = b.
Proof. destruct a, b; simpl; intros -> -> ->; reflexivity. Qed.
Ltac vring := unfold vzero, vadd, vsub, vopp, vdiv, smul, matvec, cross in *; apply vec_eq; simpl; ring.

Lemma vadd_comm a b : vadd a b = vadd b a. Proof. vring. Qed.
Lemma vadd_assoc a b c : vadd a (vadd b c) = vadd (vadd a b) c. Proof. vring. Qed.
Lemma vadd_0_l a : vadd vzero a = a. Proof. vring. Qed.
Lemma vadd_0_r a : vadd a vzero = a. Proof. vring. Qed.
Lemma vsub_self a : vsub a a = vzero. Proof. vring. Qed.
Lemma vopp_invol a : vopp (vopp a) = a. Proof. vring. Qed.
Lemma smul_0 a : smul 0 a = vzero. Proof. vring. Qed.
Lemma smul_1 a : smul 1 a = a. Proof. vring. Qed.
Lemma norm2_opp a : norm2 (vopp a) = norm2 a.
Proof. unfold norm2, vopp, smul; simpl; ring. Qed.
Lemma norm_opp a : norm (vopp a) = norm a.
Proof. unfold norm. now rewrite norm2_opp. Qed.
Lemma norm2_dot a : norm2 a = dot a a. Proof. reflexivity. Qed.
Lemma norm2_nonneg a : 0 <= norm2 a.
Proof. unfold norm2. nra. Qed.
Lemma norm_nonneg a : 0 <= norm a. Proof. apply sqrt_pos. Qed.
Lemma norm_sq a : norm a * norm a = norm2 a.
Proof. apply sqrt_sqrt. apply norm2_nonneg. Qed.
Lemma norm2_zero a : norm2 a = 0 -> a = vzero.
Proof. unfold norm2. intros H. apply vec_eq; simpl; nra. Qed.
Lemma norm_zero_iff a : norm a = 0 <-> a = vzero.
Proof.
  split; intros H.
  - apply norm2_zero. rewrite <- norm_sq, H. ring.
  - subst. unfold norm, norm2; simpl. replace (0 * 0 + 0 * 0 + 0 * 0) with 0 by ring. apply sqrt_0.
Qed.
Lemma norm_pos a : a <> vzero -> 0 < norm a.
Proof. intros H. destruct (norm_nonneg a) as [|E]; auto. exfalso. apply H. apply norm_zero_iff. auto. Qed.
Lemma norm_le_iff a c : 0 <= c -> (norm2 a <= c * c <-> norm a <= c).
Proof.
  intros Hc. pose proof (norm_nonneg a). rewrite <- norm_sq. split; intros; nra.
Qed.
Lemma lagrange_identity a b : norm2 a * norm2 b = dot a b * dot a b + norm2 (cross a b).
Proof. unfold norm2, dot, cross; simpl; ring. Qed.
Lemma cauchy_schwarz a b : Rabs (dot a b) <= norm a * norm b.
Proof.
  apply Rsqr_incr_0; [|apply Rabs_pos|apply Rmult_le_pos; apply norm_nonneg].
  rewrite <- Rsqr_abs. unfold Rsqr.
  replace (norm a * norm b * (norm a * norm b)) with (norm2 a * norm2 b).
  2:{ rewrite <- (norm_sq a), <- (norm_sq b). ring. }
  rewrite lagrange_identity. pose proof (norm2_nonneg (cross a b)). lra.
Qed.
Lemma dot_normalize a b : dot a (normalize b) = dot a b / norm b.
Proof. unfold normalize, dot; simpl. unfold Rdiv. ring. Qed.
Lemma dot_vadd_l a b c : dot (vadd a b) c = dot a c + dot b c.
Proof. unfold dot, vadd; simpl; ring. Qed.
Lemma dot_smul_l s a b : dot (smul s a) b = s * dot a b.
Proof. unfold dot, smul; simpl; ring. Qed.
Lemma dot_comm a b : dot a b = dot b a.
Proof. unfold dot; ring. Qed.
Lemma norm_smul s a : norm (smul s a) = Rabs s * norm a.
Proof.
  unfold norm. replace (norm2 (smul s a)) with (Rsqr s * norm2 a) by (unfold norm2, smul, Rsqr; simpl; ring).
  rewrite sqrt_mult by (try apply Rle_0_sqr; apply norm2_nonneg). now rewrite sqrt_Rsqr_abs.
Qed.
Lemma norm_triangle a b : norm (vadd a b) <= norm a + norm b.
Proof.
  apply Rsqr_incr_0; [|apply norm_nonneg|apply Rplus_le_le_0_compat; apply norm_nonneg].
  unfold Rsqr. rewrite norm_sq.
  replace (norm2 (vadd a b)) with (norm2 a + 2 * dot a b + norm2 b) by (unfold norm2, dot, vadd; simpl; ring).
  pose proof (cauchy_schwarz a b) as H. pose proof (Rle_abs (dot a b)).
  rewrite <- (norm_sq a), <- (norm_sq b). nra.
Qed.
