(** Loops over pairs of atoms. *)
From Coq Require Import Reals ZArith List Bool Arith Lia Lra.
From Coq Require Import List.
From Verif Require Import Base.Vec3 Base.Loop Base.SumR Base.Erf Model.CompactScreening Model.NeighborList Model.SymFunctions
  Model.Electrostatics Spec.ElecSpec Proofs.UnitsProofs Proofs.ElecFill.
Import ListNotations.
Local Open Scope R_scope.

Definition ind (b : bool) (x : R) : R := if b then x else 0.
Lemma ind_true x : ind true x = x. Proof. reflexivity. Qed.
Lemma sumn_switch n f g k c : (k < n)%nat -> f k = g k + c -> (forall i, (i < n)%nat -> i <> k -> f i = g i) -> sumn n f = sumn n g + c.
Proof.
  intros Hk E H. rewrite (sumn_ext n f (fun i => g i + ind (Nat.eqb i k) c)).
  - rewrite sumn_plus. f_equal. rewrite (sumn_single n _ k Hk). now rewrite Nat.eqb_refl.
    intros i Hi Hne. destruct (Nat.eqb_spec i k); [congruence|]. reflexivity.
  - intros i Hi. destruct (Nat.eqb_spec i k) as [->|Hne]; cbn [ind]; auto. rewrite H by auto. ring.
Qed.

Section Pairs.
Context {X : Type}.
Variables (N : nat) (Q : nat -> R) (c : nat -> nat -> R) (m : X -> nat -> R).
(** Contribution of the pairs of atom i with later atoms. *)
Definition row_gain (i b : nat) : R :=
  ind (Nat.eqb b i) (sumn N (fun j => ind (Nat.ltb i j) (c i j * Q j))) + ind (Nat.ltb i b) (c i b * Q i).
Lemma pair_inner (Inv : nat -> X -> Prop) i (f : nat -> X -> X) x : (i < N)%nat -> Inv (i + 1)%nat x ->
  (forall j y, (i < j < N)%nat -> Inv j y -> Inv (S j) (f j y) /\
     forall b, (b < N)%nat -> m (f j y) b = m y b + ind (Nat.eqb b i) (c i j * Q j) + ind (Nat.eqb b j) (c i j * Q i)) ->
  Inv N (for_range (i + 1) N f x) /\ forall b, (b < N)%nat -> m (for_range (i + 1) N f x) b = m x b + row_gain i b.
Proof.
  intros Hi H0 Hf.
  assert (H : Inv N (for_range (i + 1) N f x) /\ forall b, (b < N)%nat -> m (for_range (i + 1) N f x) b =
     m x b + ind (Nat.eqb b i) (sumn N (fun j => ind (Nat.ltb i j) (c i j * Q j))) + ind (Nat.ltb i b && Nat.ltb b N)%bool (c i b * Q i)).
  { pose proof (for_range_inv (fun j0 y => Inv j0 y /\ forall b, (b < N)%nat -> m y b =
       m x b + ind (Nat.eqb b i) (sumn j0 (fun j => ind (Nat.ltb i j) (c i j * Q j))) + ind (Nat.ltb i b && Nat.ltb b j0)%bool (c i b * Q i)) (i + 1) N f x) as L.
    apply L; clear L; [lia| |].
    - split; auto. intros b Hb. rewrite sumn_zero.
      2:{ intros j Hj. destruct (Nat.ltb_spec i j); [lia|]. reflexivity. }
      replace (Nat.ltb i b && Nat.ltb b (i + 1))%bool with false. 2:{ destruct (Nat.ltb_spec i b), (Nat.ltb_spec b (i + 1)); auto; lia. }
      unfold ind. destruct (Nat.eqb b i); ring.
    - intros j y Hj [HI Hm]. destruct (Hf j y) as [HI' Hm']; [lia|auto|]. split; auto. intros b Hb. rewrite Hm', Hm by auto. rewrite sumn_S.
      destruct (Nat.ltb_spec i j); [|lia].
      destruct (Nat.eqb_spec b i), (Nat.eqb_spec b j), (Nat.ltb_spec i b), (Nat.ltb_spec b j), (Nat.ltb_spec b (S j)); try lia; subst; unfold ind; cbn [andb]; ring. }
  destruct H as [H1 H2]. split; auto. intros b Hb. rewrite H2 by auto. unfold row_gain. destruct (Nat.ltb_spec b N); [|lia]. rewrite andb_true_r. ring.
Qed.
Lemma pair_outer (Inv : nat -> X -> Prop) (f : nat -> X -> X) (g : nat -> nat -> R) x : Inv 0%nat x ->
  (forall i y, (i < N)%nat -> Inv i y -> Inv (S i) (f i y) /\ forall b, (b < N)%nat -> m (f i y) b = m y b + g i b) ->
  Inv N (for_up N f x) /\ forall b, (b < N)%nat -> m (for_up N f x) b = m x b + sumn N (fun i => g i b).
Proof.
  intros H0 Hf.
  pose proof (for_up_inv (fun i0 y => Inv i0 y /\ forall b, (b < N)%nat -> m y b = m x b + sumn i0 (fun i => g i b)) N f x) as L.
  apply L; clear L.
  - split; auto. intros. rewrite sumn_0. ring.
  - intros i y Hi [HI Hm]. destruct (Hf i y Hi HI) as [HI' Hm']. split; auto. intros b Hb. rewrite Hm', Hm, sumn_S by auto. ring.
Qed.
Hypothesis Hc : forall i j, (i < N)%nat -> (j < N)%nat -> c i j = c j i.
Lemma row_gain_total b : (b < N)%nat -> sumn N (fun i => row_gain i b) = sumn N (fun k => ind (negb (Nat.eqb k b)) (c b k * Q k)).
Proof.
  intros Hb. unfold row_gain. rewrite sumn_plus.
  rewrite (sumn_single N (fun i => ind (Nat.eqb b i) _) b Hb).
  2:{ intros i Hi Hne. destruct (Nat.eqb_spec b i); [congruence|]. reflexivity. }
  rewrite Nat.eqb_refl. cbn [ind]. rewrite <- sumn_plus. apply sumn_ext. intros k Hk.
  destruct (Nat.ltb_spec b k), (Nat.ltb_spec k b), (Nat.eqb_spec k b); try lia; unfold ind; cbn [negb]; try ring.
  rewrite (Hc k b) by auto. ring.
Qed.
End Pairs.

(** ** dAdrQ *)
Lemma vset_same D i j v : vset D i j v i j = v.
Proof. unfold vset. now rewrite !Nat.eqb_refl. Qed.
Lemma vset_get D i j v a b : vset D i j v a b = if (Nat.eqb a i && Nat.eqb b j)%bool then v else D a b.
Proof. reflexivity. Qed.
Lemma dot_vsub_l a b c : dot (vsub a b) c = dot a c - dot b c.
Proof. unfold dot, vsub; simpl. ring. Qed.
Lemma dot_vsub_r a b c : dot a (vsub b c) = dot a b - dot a c.
Proof. unfold dot, vsub; simpl. ring. Qed.
Lemma dot_vzero_l c : dot vzero c = 0.
Proof. unfold dot, vzero; simpl. ring. Qed.
Section DAdrQ.
Variables (N : nat) (Q : nat -> R) (v : nat -> vec).
(** Rate of change of row b of A Q. *)
Definition rowrate (D : vmatrix) (b : nat) : R := sumn N (fun a => dot (D a b) (v a)).
Lemma add_pair_rate i j dA D b : (i < N)%nat -> (j < N)%nat -> i <> j ->
  rowrate (add_pair Q i j dA D) b = rowrate D b + ind (Nat.eqb b i) (dot dA (vsub (v i) (v j)) * Q j) + ind (Nat.eqb b j) (dot dA (vsub (v i) (v j)) * Q i).
Proof.
  intros Hi Hj Hne. unfold rowrate.
  rewrite (sumn_switch N (fun a => dot (add_pair Q i j dA D a b) (v a)) (fun a => if Nat.eqb a j then dot (D a b) (v a) else dot (add_pair Q i j dA D a b) (v a)) j
     (ind (Nat.eqb b i) (- (Q j * dot dA (v j))) + ind (Nat.eqb b j) (- (Q i * dot dA (v j)))) Hj).
  - rewrite (sumn_switch N (fun a => if Nat.eqb a j then dot (D a b) (v a) else dot (add_pair Q i j dA D a b) (v a)) (fun a => dot (D a b) (v a)) i
       (ind (Nat.eqb b i) (Q j * dot dA (v i)) + ind (Nat.eqb b j) (Q i * dot dA (v i))) Hi).
    + rewrite dot_vsub_r. destruct (Nat.eqb_spec b i), (Nat.eqb_spec b j); try lia; unfold ind; ring.
    + destruct (Nat.eqb_spec i j); [congruence|]. unfold add_pair. rewrite !vset_get, !Nat.eqb_refl.
      destruct (Nat.eqb_spec i j); [congruence|]. destruct (Nat.eqb_spec j i); [congruence|]. 
      destruct (Nat.eqb_spec b i) as [Ebi|Nbi], (Nat.eqb_spec b j) as [Ebj|Nbj]; try lia; unfold ind; cbn [andb]; try rewrite Ebi; try rewrite Ebj;
        rewrite ?dot_vadd_l, ?dot_smul_l; try ring.
    + intros a Ha Hai. destruct (Nat.eqb_spec a j); auto. unfold add_pair. rewrite !vset_get.
      destruct (Nat.eqb_spec a i); [congruence|]. destruct (Nat.eqb_spec a j); [congruence|]. reflexivity.
  - rewrite Nat.eqb_refl. unfold add_pair. rewrite !vset_get, !Nat.eqb_refl.
    destruct (Nat.eqb_spec i j); [congruence|]. destruct (Nat.eqb_spec j i); [congruence|].
    destruct (Nat.eqb_spec b i), (Nat.eqb_spec b j); try lia; unfold ind; subst; rewrite ?Nat.eqb_refl; cbn [andb]; rewrite ?dot_vsub_l, ?dot_smul_l; try ring.
  - intros a Ha Haj. destruct (Nat.eqb_spec a j); [congruence|]. reflexivity.
Qed.
End DAdrQ.

Section Isolated.
Variables (P : epar) (s : cstruct) (Q : nat -> R) (v : nat -> vec).
Let N := cnum s.
Definition iso_rate (i j : nat) : R := dot (dA_isolated P s i j) (vsub (v i) (v j)).
Hypothesis Hsym : forall i j, (i < N)%nat -> (j < N)%nat -> iso_rate i j = iso_rate j i.
Lemma dAdrQ_isolated_rate b : (b < N)%nat ->
  rowrate N v (calculateDAdrQ_isolated P s Q (fun _ _ => vzero)) b = sumn N (fun k => ind (negb (Nat.eqb k b)) (iso_rate b k * Q k)).
Proof.
  intros Hb. unfold calculateDAdrQ_isolated. fold N.
  match goal with |- rowrate N v (for_up N ?f ?z) b = _ =>
    destruct (pair_outer N (rowrate N v) (fun i0 (D : vmatrix) => forall x y, (x < N)%nat -> (y < N)%nat -> (i0 <= Nat.min x y)%nat -> x <> y -> D x y = vzero) f
      (row_gain N Q iso_rate) z) as [_ H] end.
  - auto.
  - intros i D Hi HD.
    match goal with |- context [for_range _ _ ?f D] =>
    destruct (pair_inner N Q iso_rate (rowrate N v) (fun j0 (D : vmatrix) => forall x y, (x < N)%nat -> (y < N)%nat -> x <> y ->
        (i < Nat.min x y)%nat \/ (Nat.min x y = i /\ (j0 <= Nat.max x y)%nat) -> D x y = vzero) i f D Hi) as [H1 H2] end.
    + intros x y Hx Hy Hne Hc. apply HD; auto. lia.
    + intros j D' Hj HD'.
      assert (E : (let dA := dA_isolated P s i j in let D := vset D' i i (vadd (D' i i) (smul (Q j) dA)) in
                   let D := vset D i j (smul (Q i) dA) in let D := vset D j i (smul (Q j) (vopp dA)) in vset D j j (vsub (D j j) (smul (Q i) dA)))
                  = add_pair Q i j (dA_isolated P s i j) D').
      { assert (Z1 : D' i j = vzero) by (apply HD'; lia). assert (Z2 : D' j i = vzero) by (apply HD'; lia).
        cbv zeta. unfold add_pair. set (dA := dA_isolated P s i j).
        assert (E1 : vset D' i i (vadd (D' i i) (smul (Q j) dA)) i j = vzero). { rewrite vset_get. destruct (Nat.eqb_spec j i); [lia|]. rewrite andb_false_r. auto. }
        assert (E2 : vset (vset D' i i (vadd (D' i i) (smul (Q j) dA))) i j (smul (Q i) dA) j i = vzero).
        { rewrite !vset_get. destruct (Nat.eqb_spec j i); [lia|]. cbn [andb]. auto. }
        rewrite E1. replace (vadd vzero (smul (Q i) dA)) with (smul (Q i) dA) by vring. rewrite E2.
        replace (vsub vzero (smul (Q j) dA)) with (smul (Q j) (vopp dA)) by vring. reflexivity. }
      cbv zeta in E |- *. rewrite E. split.
      * intros x y Hx Hy Hne Hc. unfold add_pair. rewrite !vset_get.
        destruct (Nat.eqb_spec x i), (Nat.eqb_spec y i), (Nat.eqb_spec x j), (Nat.eqb_spec y j); try lia; subst; cbn [andb]; apply HD'; auto; lia.
      * intros b' Hb'. rewrite add_pair_rate by lia. reflexivity.
    + split; [|exact H2]. intros x y Hx Hy Hm Hne. apply H1; auto; lia.
  - rewrite (H b Hb). rewrite (row_gain_total N Q iso_rate Hsym b Hb).
    assert (Z : rowrate N v (fun _ _ => vzero) b = 0) by (apply sumn_zero; intros; apply dot_vzero_l).
    rewrite Z. ring.
Qed.
End Isolated.
