(** Counting loops over mutable state and arrays as functions on indices. *)
From Coq Require Import Arith Lia Bool.

(** [for (i = 0; i < n; i++) s = f i s;] *)
Fixpoint for_up {S : Type} (n : nat) (f : nat -> S -> S) (s : S) : S :=
  match n with O => s | Datatypes.S m => f m (for_up m f s) end.

(** [for (i = n-1; i >= 0; i--) s = f i s;] *)
Fixpoint for_down {S : Type} (n : nat) (f : nat -> S -> S) (s : S) : S :=
  match n with O => s | Datatypes.S m => for_down m f (f m s) end.

(** [for (i = a; i < b; i++)] *)
Definition for_range {S : Type} (a b : nat) (f : nat -> S -> S) (s : S) : S :=
  for_up (b - a) (fun i => f (a + i)) s.

Definition upd {A : Type} (a : nat -> A) (i : nat) (v : A) : nat -> A :=
  fun j => if Nat.eqb j i then v else a j.

Lemma upd_same {A} (a : nat -> A) i v : upd a i v i = v.
Proof. unfold upd. now rewrite Nat.eqb_refl. Qed.
Lemma upd_other {A} (a : nat -> A) i j v : j <> i -> upd a i v j = a j.
Proof. intros H. unfold upd. apply Nat.eqb_neq in H. now rewrite H. Qed.

Lemma for_up_inv {S} (P : nat -> S -> Prop) n f s :
  P 0 s -> (forall i s, i < n -> P i s -> P (Datatypes.S i) (f i s)) -> P n (for_up n f s).
Proof.
  intros H0 HS. induction n; simpl; auto. apply HS; auto.
Qed.
Lemma for_down_inv {S} (P : nat -> S -> Prop) f : forall n s,
  P n s -> (forall i s, i < n -> P (Datatypes.S i) s -> P i (f i s)) -> P 0 (for_down n f s).
Proof.
  induction n; intros s H0 HS; simpl; auto.
Qed.
Lemma for_range_inv {S} (P : nat -> S -> Prop) a b f s : a <= b ->
  P a s -> (forall i s, a <= i < b -> P i s -> P (Datatypes.S i) (f i s)) -> P b (for_range a b f s).
Proof.
  intros Hab H0 HS. unfold for_range.
  assert (H : forall n, n <= b - a -> P (a + n) (for_up n (fun i => f (a + i)) s)).
  { induction n; intros Hn; simpl. { rewrite Nat.add_0_r; auto. }
    rewrite Nat.add_succ_r. apply HS; [lia|]. apply IHn. lia. }
  replace b with (a + (b - a)) at 1 by lia. apply H. lia.
Qed.
Lemma for_up_ext {S} n (f g : nat -> S -> S) s : (forall i s, i < n -> f i s = g i s) -> for_up n f s = for_up n g s.
Proof. intros H. induction n; simpl; auto. rewrite IHn by (intros; apply H; lia). apply H; lia. Qed.
