(** Finite sums of reals: the meaning of the accumulation loops. *)
From Coq Require Import Reals Lra List Permutation Arith Lia.
From Coquelicot Require Import Coquelicot.
Import ListNotations.
Local Open Scope R_scope.

Fixpoint rsum (l : list R) : R := match l with [] => 0 | x :: r => x + rsum r end.

Lemma rsum_app l1 l2 : rsum (l1 ++ l2) = rsum l1 + rsum l2.
Proof. induction l1; simpl; lra. Qed.
Lemma rsum_perm l1 l2 : Permutation l1 l2 -> rsum l1 = rsum l2.
Proof. induction 1; simpl; lra. Qed.
Lemma rsum_rev l : rsum (rev l) = rsum l.
Proof. apply rsum_perm. symmetry. apply Permutation_rev. Qed.
Lemma rsum_scal {A} (f : A -> R) k l : rsum (map (fun x => k * f x) l) = k * rsum (map f l).
Proof. induction l; simpl; [lra|]. rewrite IHl. lra. Qed.
Lemma rsum_scal_r {A} (f : A -> R) k l : rsum (map (fun x => f x * k) l) = rsum (map f l) * k.
Proof. induction l; simpl; [lra|]. rewrite IHl. lra. Qed.
Lemma rsum_plus {A} (f g : A -> R) l : rsum (map (fun x => f x + g x) l) = rsum (map f l) + rsum (map g l).
Proof. induction l; simpl; [lra|]. rewrite IHl. lra. Qed.
Lemma rsum_minus {A} (f g : A -> R) l : rsum (map (fun x => f x - g x) l) = rsum (map f l) - rsum (map g l).
Proof. induction l; simpl; [lra|]. rewrite IHl. lra. Qed.
Lemma rsum_opp {A} (f : A -> R) l : rsum (map (fun x => - f x) l) = - rsum (map f l).
Proof. induction l; simpl; [lra|]. rewrite IHl. lra. Qed.
Lemma rsum_const {A} k (l : list A) : rsum (map (fun _ => k) l) = INR (length l) * k.
Proof. induction l; [simpl; lra|]. cbn [map rsum length]. rewrite IHl, S_INR. lra. Qed.
Lemma rsum_zero {A} (f : A -> R) l : (forall x, In x l -> f x = 0) -> rsum (map f l) = 0.
Proof. intros H. induction l; simpl; auto. rewrite H by (left; auto). rewrite IHl; [lra|]. intros; apply H; right; auto. Qed.
Lemma rsum_ext {A} (f g : A -> R) l : (forall x, In x l -> f x = g x) -> rsum (map f l) = rsum (map g l).
Proof. intros H. f_equal. apply map_ext_in. auto. Qed.
Lemma rsum_swap {A B} (f : A -> B -> R) l m :
  rsum (map (fun x => rsum (map (fun y => f x y) m)) l) = rsum (map (fun y => rsum (map (fun x => f x y) l)) m).
Proof.
  induction l as [|a l IH]; simpl.
  - symmetry. apply rsum_zero. auto.
  - rewrite IH, <- rsum_plus. reflexivity.
Qed.
Lemma rsum_nonneg l : (forall x, In x l -> 0 <= x) -> 0 <= rsum l.
Proof. induction l; simpl; intros H; [lra|]. assert (0 <= a) by (apply H; auto). assert (0 <= rsum l) by auto. lra. Qed.
Lemma rsum_pos l : l <> [] -> (forall x, In x l -> 0 < x) -> 0 < rsum l.
Proof.
  destruct l as [|a l]; [congruence|]. intros _ H. simpl. assert (0 < a) by (apply H; left; auto).
  assert (0 <= rsum l) by (apply rsum_nonneg; intros; apply Rlt_le, H; right; auto). lra.
Qed.
Lemma rsum_concat ls : rsum (concat ls) = rsum (map rsum ls).
Proof. induction ls; simpl; auto. rewrite rsum_app, IHls. auto. Qed.
Lemma rsum_flat_map {A} (f : A -> list R) l : rsum (flat_map f l) = rsum (map (fun x => rsum (f x)) l).
Proof. induction l; simpl; auto. rewrite rsum_app, IHl. auto. Qed.

(** Accumulation loops. *)
Lemma fold_sum {A} (f : A -> R) l : forall a, fold_left (fun s x => s + f x) l a = a + rsum (map f l).
Proof. induction l; intros a0; simpl; [lra|]. rewrite IHl. lra. Qed.
Lemma fold_sum_cond {A} (p : A -> bool) (f : A -> R) l : forall a,
  fold_left (fun s x => if p x then s + f x else s) l a = a + rsum (map f (filter p l)).
Proof. induction l; intros a0; simpl; [lra|]. rewrite IHl. destruct (p a); simpl; lra. Qed.
Lemma rsum_filter {A} (p : A -> bool) (f : A -> R) l :
  rsum (map f (filter p l)) = rsum (map (fun x => if p x then f x else 0) l).
Proof. induction l; simpl; auto. destruct (p a); simpl; rewrite IHl; lra. Qed.

(** Indexed sums. *)
Definition sumn (n : nat) (f : nat -> R) : R := rsum (map f (seq 0 n)).
Lemma sumn_0 f : sumn 0 f = 0.
Proof. reflexivity. Qed.
Lemma sumn_S n f : sumn (S n) f = sumn n f + f n.
Proof. unfold sumn. rewrite seq_S, map_app, rsum_app. simpl. lra. Qed.
Lemma sumn_S_l n f : sumn (S n) f = f 0%nat + sumn n (fun i => f (S i)).
Proof. unfold sumn. simpl. rewrite <- seq_shift, map_map. reflexivity. Qed.
Lemma sumn_ext n f g : (forall i, (i < n)%nat -> f i = g i) -> sumn n f = sumn n g.
Proof. intros H. apply rsum_ext. intros x Hx. apply in_seq in Hx. apply H. lia. Qed.
Lemma sumn_plus n f g : sumn n (fun i => f i + g i) = sumn n f + sumn n g.
Proof. apply rsum_plus. Qed.
Lemma sumn_minus n f g : sumn n (fun i => f i - g i) = sumn n f - sumn n g.
Proof. apply rsum_minus. Qed.
Lemma sumn_scal n k f : sumn n (fun i => k * f i) = k * sumn n f.
Proof. apply rsum_scal. Qed.
Lemma sumn_scal_r n k f : sumn n (fun i => f i * k) = sumn n f * k.
Proof. apply rsum_scal_r. Qed.
Lemma sumn_zero n f : (forall i, (i < n)%nat -> f i = 0) -> sumn n f = 0.
Proof. intros H. apply rsum_zero. intros x Hx. apply in_seq in Hx. apply H. lia. Qed.
Lemma sumn_swap n m f : sumn n (fun i => sumn m (fun j => f i j)) = sumn m (fun j => sumn n (fun i => f i j)).
Proof. apply rsum_swap. Qed.
Lemma sumn_single n f k : (k < n)%nat -> (forall i, (i < n)%nat -> i <> k -> f i = 0) -> sumn n f = f k.
Proof.
  induction n; intros Hk H; [lia|]. rewrite sumn_S. destruct (Nat.eq_dec k n) as [->|Hne].
  - rewrite sumn_zero; [lra|]. intros; apply H; lia.
  - rewrite IHn by (try lia; intros; apply H; lia). rewrite (H n); [lra|lia|lia].
Qed.
Lemma rsum_nth {A} (d : A) (f : A -> R) l : rsum (map f l) = sumn (length l) (fun i => f (nth i l d)).
Proof.
  induction l; [reflexivity|]. cbn [length]. rewrite sumn_S_l. simpl. rewrite IHl. reflexivity.
Qed.

(** Derivatives of finite sums. *)
Lemma is_derive_rsum {A} (f : A -> R -> R) (df : A -> R) l t :
  (forall x, In x l -> is_derive (f x) t (df x)) ->
  is_derive (fun u => rsum (map (fun x => f x u) l)) t (rsum (map df l)).
Proof.
  induction l as [|a l IH]; intros H; simpl.
  - apply (is_derive_const 0 t).
  - apply (is_derive_plus (f a) (fun u => rsum (map (fun x => f x u) l))).
    + apply H; left; auto.
    + apply IH. intros; apply H; right; auto.
Qed.
Lemma is_derive_sumn n (f : nat -> R -> R) (df : nat -> R) t :
  (forall i, (i < n)%nat -> is_derive (f i) t (df i)) ->
  is_derive (fun u => sumn n (fun i => f i u)) t (sumn n df).
Proof. intros H. apply is_derive_rsum. intros x Hx. apply in_seq in Hx. apply H. lia. Qed.
Lemma is_derive_eq (f : R -> R) (x l l' : R) : is_derive f x l -> l = l' -> is_derive f x l'.
Proof. intros H <-. exact H. Qed.
