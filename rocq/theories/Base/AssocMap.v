(** Finite maps as association lists without duplicate keys: the model of
    std::map used throughout (operator[] assignment = [mset], find = [mget],
    size = length). *)
From Coq Require Import List Bool Arith Lia.
Import ListNotations.

Section AssocMap.
Context {K V : Type} (eqb : K -> K -> bool).

Fixpoint mget (k : K) (m : list (K * V)) : option V :=
  match m with
  | [] => None
  | (k', v) :: m' => if eqb k k' then Some v else mget k m'
  end.

(** m[k] = v *)
Fixpoint mset (k : K) (v : V) (m : list (K * V)) : list (K * V) :=
  match m with
  | [] => [(k, v)]
  | (k', v') :: m' => if eqb k k' then (k, v) :: m' else (k', v') :: mset k v m'
  end.

Hypothesis eqb_spec : forall a b, eqb a b = true <-> a = b.

Lemma eqb_refl' a : eqb a a = true.
Proof. apply eqb_spec; auto. Qed.
Lemma eqb_neq a b : a <> b -> eqb a b = false.
Proof. intros H. destruct (eqb a b) eqn:E; auto. apply eqb_spec in E. congruence. Qed.

Lemma mget_mset_same k v m : mget k (mset k v m) = Some v.
Proof.
  induction m as [|[k' v'] m IH]; simpl.
  - now rewrite eqb_refl'.
  - destruct (eqb k k') eqn:E; simpl.
    + now rewrite eqb_refl'.
    + now rewrite E.
Qed.
Lemma mget_mset_other k k2 v m : k2 <> k -> mget k2 (mset k v m) = mget k2 m.
Proof.
  intros H. induction m as [|[k' v'] m IH]; simpl.
  - now rewrite eqb_neq.
  - destruct (eqb k k') eqn:E; simpl.
    + apply eqb_spec in E. subst k'. now rewrite eqb_neq.
    + destruct (eqb k2 k'); auto.
Qed.
Lemma mset_keys k v m : forall x, In x (map fst (mset k v m)) <-> x = k \/ In x (map fst m).
Proof.
  induction m as [|[k' v'] m IH]; intros x; simpl.
  - intuition.
  - destruct (eqb k k') eqn:E; simpl.
    + apply eqb_spec in E. subst. intuition.
    + rewrite IH. intuition.
Qed.
Lemma mset_nodup k v m : NoDup (map fst m) -> NoDup (map fst (mset k v m)).
Proof.
  induction m as [|[k' v'] m IH]; simpl; intros H.
  - repeat constructor; auto.
  - inversion H; subst. destruct (eqb k k') eqn:E; simpl.
    + apply eqb_spec in E. subst. constructor; auto.
    + constructor; auto. rewrite mset_keys. intros [-> | Hi]; auto.
      rewrite eqb_refl' in E. discriminate.
Qed.
Lemma mset_length_new k v m : ~ In k (map fst m) -> length (mset k v m) = S (length m).
Proof.
  induction m as [|[k' v'] m IH]; simpl; intros H; auto.
  destruct (eqb k k') eqn:E; simpl.
  - apply eqb_spec in E. subst. tauto.
  - rewrite IH; tauto.
Qed.
Lemma mget_none k m : mget k m = None <-> ~ In k (map fst m).
Proof.
  induction m as [|[k' v'] m IH]; simpl.
  - tauto.
  - destruct (eqb k k') eqn:E.
    + apply eqb_spec in E. subst. split; [discriminate | tauto].
    + rewrite IH. split; [|tauto]. intros H [Hk | Hk]; auto. subst. rewrite eqb_refl' in E. discriminate.
Qed.
Lemma mget_in k v m : mget k m = Some v -> In (k, v) m.
Proof.
  induction m as [|[k' v'] m IH]; simpl; [discriminate|].
  destruct (eqb k k') eqn:E; auto. intros H. injection H as <-. apply eqb_spec in E. subst. auto.
Qed.
Lemma in_mget k v m : NoDup (map fst m) -> In (k, v) m -> mget k m = Some v.
Proof.
  induction m as [|[k' v'] m IH]; simpl; [tauto|]. intros Hn [H | H].
  - injection H as -> ->. now rewrite eqb_refl'.
  - inversion Hn; subst. destruct (eqb k k') eqn:E; auto.
    apply eqb_spec in E. subst. exfalso. apply H2. change k' with (fst (k', v)). apply in_map; auto.
Qed.
End AssocMap.
