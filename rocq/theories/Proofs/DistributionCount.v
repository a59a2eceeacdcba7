(** Pairs and triples of one structure and the contributions of its neighbor lists (C89, C90). *)
From Coq Require Import Reals Lra Lia ZArith Bool Arith Permutation.
From Coq Require Import List.
From Verif Require Import Base.Vec3 Base.SumR Model.Geometry Model.NeighborList Model.SymLines Model.Distribution Spec.GeometrySpec Spec.NeighborSpec
  Spec.DistributionSpec Proofs.NeighborMore Proofs.EnvironmentProofs Proofs.DistributionFill.
Import ListNotations.
Local Open Scope R_scope.

Lemma finite_choice {A} (d : A) (P : nat -> A -> Prop) n : (forall a, (a < n)%nat -> exists x, P a x) -> exists F, forall a, (a < n)%nat -> P a (F a).
Proof.
  induction n as [|n IH]; intros H; [exists (fun _ => d); lia|].
  destruct IH as (F & HF); [intros a A0; apply H; lia|]. destruct (H n) as (x & X); [lia|].
  exists (fun a => if Nat.eqb a n then x else F a). intros a A0. destruct (Nat.eqb_spec a n); [now subst | apply HF; lia].
Qed.
Lemma rsum_indexed {A} (f : A -> R) (g : nat -> R) l : forall k, (forall a x, nth_error l a = Some x -> f x = g (k + a)%nat) -> rsum (map f l) = rsum (map g (seq k (length l))).
Proof.
  induction l as [|x l IH]; intros k H; auto. cbn [length seq map]. change (rsum (?x :: ?l)) with (x + rsum l).
  rewrite (H 0%nat x eq_refl), Nat.add_0_r. f_equal. apply IH. intros a y E. rewrite (H (S a) y E). f_equal. lia.
Qed.
Lemma length_sum {A B C} (test : A -> B -> bool) (f : A -> B -> C) (F : A -> list B) l :
  rsum (map (fun a => rsum (map (fun p => ind (test a p)) (F a))) l) = INR (length (flat_map (fun a => map (f a) (filter (test a) (F a))) l)).
Proof.
  induction l as [|a l IH]; auto. cbn [map flat_map]. change (rsum (?x :: ?l)) with (x + rsum l). rewrite app_length, plus_INR, IH, map_length. f_equal.
  clear. induction (F a) as [|p r IH]; auto. cbn [map filter]. change (rsum (?x :: ?l)) with (x + rsum l). rewrite IH. unfold ind.
  destruct (test a p); cbn [length]; [rewrite S_INR|]; lra.
Qed.
Lemma nodup_app {A} (l m : list A) : NoDup l -> NoDup m -> (forall x, In x l -> ~ In x m) -> NoDup (l ++ m).
Proof.
  intros D DM DJ. induction D as [|x r NI D IH]; cbn; auto. constructor.
  - rewrite in_app_iff. intros [I|I]; [auto | apply (DJ x); auto; now left].
  - apply IH. intros y I. apply DJ. now right.
Qed.
Lemma NoDup_tagged {A B C} (test : A -> B -> bool) (f : A -> B -> C) (F : A -> list B) l :
  (forall a b a' b', f a b = f a' b' -> a = a' /\ b = b') -> NoDup l -> (forall a, In a l -> NoDup (F a)) ->
  NoDup (flat_map (fun a => map (f a) (filter (test a) (F a))) l).
Proof.
  intros INJ ND NF. induction ND as [|a l NI ND IH]; [constructor|]. cbn [flat_map].
  assert (D : NoDup (map (f a) (filter (test a) (F a)))).
  { apply FinFun.Injective_map_NoDup; [intros x y E; now destruct (INJ _ _ _ _ E) | apply NoDup_filter, NF; now left]. }
  assert (D2 : NoDup (flat_map (fun a => map (f a) (filter (test a) (F a))) l)) by (apply IH; intros x I; apply NF; now right).
  assert (DJ : forall x, In x (map (f a) (filter (test a) (F a))) -> ~ In x (flat_map (fun a => map (f a) (filter (test a) (F a))) l)).
  { intros x I1 I2. apply in_map_iff in I1. destruct I1 as (p & <- & _). apply in_flat_map in I2. destruct I2 as (b & IB & I2). apply in_map_iff in I2.
    destruct I2 as (q & E & _). destruct (INJ _ _ _ _ E) as (-> & _). auto. }
  now apply nodup_app.
Qed.

(** Pairs of a list without repetitions. *)
Lemma in_pairs_of {A} (l : list A) : forall x y, In (x, y) (pairs_of l) -> In x l /\ In y l.
Proof.
  induction l as [|z l IH]; intros x y I; [destruct I|]. cbn [pairs_of] in I. apply in_app_iff in I. destruct I as [I|I].
  - apply in_map_iff in I. destruct I as (w & E & I). injection E as -> ->. split; [now left | now right].
  - apply IH in I. split; right; tauto.
Qed.
Definition swap {A} (p : A * A) : A * A := (snd p, fst p).
Definition ordered {A} (l : list A) : list (A * A) := pairs_of l ++ map swap (pairs_of l).
Lemma ordered_spec {A} (l : list A) : NoDup l -> NoDup (ordered l) /\ forall x y, In (x, y) (ordered l) <-> In x l /\ In y l /\ x <> y.
Proof.
  intros ND.
  assert (X : NoDup (pairs_of l) /\ (forall x y, In (x, y) (pairs_of l) -> x <> y /\ ~ In (y, x) (pairs_of l)) /\
    (forall x y, In x l -> In y l -> x <> y -> In (x, y) (pairs_of l) \/ In (y, x) (pairs_of l))).
  { induction ND as [|z l NI ND (I1 & I2 & I3)]; [repeat split; try constructor; intros; cbn in *; tauto|]. cbn [pairs_of]. split; [|split].
    - assert (D : NoDup (map (pair z) l)) by (apply FinFun.Injective_map_NoDup; auto; intros x y E; now injection E).
      assert (DJ : forall p, In p (map (pair z) l) -> ~ In p (pairs_of l)).
      { intros (x, y) H1 H2. apply in_map_iff in H1. destruct H1 as (w & E & _). injection E as <- <-. apply in_pairs_of in H2. tauto. }
      now apply nodup_app.
    - intros x y I. apply in_app_iff in I. destruct I as [I|I].
      + apply in_map_iff in I. destruct I as (w & E & I). injection E as <- <-. split; [intros ->; auto|]. intros J. apply in_app_iff in J. destruct J as [J|J].
        * apply in_map_iff in J. destruct J as (w' & E & J). injection E as <- <-. auto.
        * apply in_pairs_of in J. tauto.
      + destruct (I2 x y I) as (N1 & N2). split; auto. intros J. apply in_app_iff in J. destruct J as [J|J]; auto.
        apply in_map_iff in J. destruct J as (w' & E & J). injection E as <- <-. apply in_pairs_of in I. tauto.
    - intros x y [<- | X] [<- | Y] N; [congruence | | |].
      + left. apply in_app_iff. left. now apply in_map.
      + right. apply in_app_iff. left. now apply in_map.
      + destruct (I3 x y X Y N); [left | right]; apply in_app_iff; auto. }
  destruct X as (I1 & I2 & I3). split.
  - unfold ordered. assert (D : NoDup (map swap (pairs_of l))) by (apply FinFun.Injective_map_NoDup; auto; intros (a, b) (c, d) E; now injection E as -> ->).
    assert (DJ : forall p, In p (pairs_of l) -> ~ In p (map swap (pairs_of l))).
    { intros (x, y) H1 H2. apply in_map_iff in H2. destruct H2 as ((a, b) & E & H2). injection E as -> ->. now apply (I2 x y H1). }
    now apply nodup_app.
  - intros x y. unfold ordered. rewrite in_app_iff. split.
    + intros [I|I].
      * pose proof (in_pairs_of _ _ _ I). destruct (I2 _ _ I). tauto.
      * apply in_map_iff in I. destruct I as ((a, b) & E & I). injection E as -> ->. pose proof (in_pairs_of _ _ _ I). destruct (I2 _ _ I) as (N & _). repeat split; try tauto. congruence.
    + intros (X & Y & N). destruct (I3 x y X Y N) as [I|I]; auto. right. apply in_map_iff. exists (y, x). auto.
Qed.
Lemma sum_ordered {A} (f : A * A -> R) l : rsum (map f (ordered l)) = rsum (map (fun p => f p + f (swap p)) (pairs_of l)).
Proof. unfold ordered. rewrite map_app, rsum_app, map_map, rsum_plus. reflexivity. Qed.
Lemma Forall2_pairs {A B} (P : A -> B -> Prop) l m : Forall2 P l m -> Forall2 (fun p q => P (fst p) (fst q) /\ P (snd p) (snd q)) (pairs_of l) (pairs_of m).
Proof.
  induction 1 as [|x y l m H F IH]; [constructor|]. cbn [pairs_of]. apply Forall2_app; auto. clear IH.
  induction F as [|x' y' l m H' F IH]; cbn; constructor; auto.
Qed.
Lemma rsum_Forall2 {A B} (f : A -> R) (g : B -> R) (P : A -> B -> Prop) l m : Forall2 P l m -> (forall x y, In x l -> In y m -> P x y -> f x = g y) -> rsum (map f l) = rsum (map g m).
Proof.
  induction 1 as [|x y l m H F IH]; intros E; auto. cbn [map]. change (rsum (?x :: ?l)) with (x + rsum l). f_equal; [apply E; auto; now left|].
  apply IH. intros a b A0 B0. apply E; now right.
Qed.

(** ** Labels of the neighbors *)
Section Structure.
Variables (s s' : structure) (rc : R).
Definition el (a : nat) : nat := match nth_error (s_atoms s) a with Some x => a_element x | None => 0%nat end.
Definition sep (a : nat) (p : nat * image) : vec :=
  match nth_error (s_atoms s) a, nth_error (s_atoms s) (fst p) with Some x, Some y => displacement s x y (snd p) | _, _ => vzero end.
Definition natoms : nat := length (s_atoms s).
Lemma of_kind_el a e : (a < natoms)%nat -> of_kind s a e <-> el a = e.
Proof.
  unfold natoms. intros L. unfold of_kind, el. destruct (nth_error (s_atoms s) a) as [x|] eqn:E; [|apply nth_error_None in E; lia].
  split; [intros (y & Y & <-); congruence | intros <-; now exists x].
Qed.
Lemma separation_sep a b m v : (a < natoms)%nat -> (b < natoms)%nat -> separation s a b m v <-> v = sep a (b, m).
Proof.
  unfold natoms. intros LA LB. unfold separation, sep. cbn [fst snd]. destruct (nth_error (s_atoms s) a) as [x|] eqn:E; [|apply nth_error_None in E; lia].
  destruct (nth_error (s_atoms s) b) as [y|] eqn:E'; [|apply nth_error_None in E'; lia].
  split; [intros (x' & y' & X & Y & ->); congruence | intros ->; now exists x, y].
Qed.
Lemma in_range_bound a b m : in_range s rc a b m -> (a < natoms)%nat /\ (b < natoms)%nat.
Proof. intros (x & y & X & Y & _). split; apply nth_error_Some; congruence. Qed.
Lemma in_range_norm a b m : in_range s rc a b m -> norm (sep a (b, m)) <= rc.
Proof. intros (x & y & X & Y & _ & _ & N). unfold sep. cbn [fst snd]. now rewrite X, Y. Qed.
Lemma displacement_neg x y m : displacement s y x (vnegi m) = vopp (displacement s x y m).
Proof.
  destruct m as ((m1, m2), m3). unfold displacement, position_of_image, lattice, vnegi, vopp, vsub, vadd, smul. cbn. rewrite !opp_IZR. f_equal; ring.
Qed.
Lemma norm_vopp v : norm (vopp v) = norm v.
Proof. unfold norm, norm2, vopp. cbn. f_equal. ring. Qed.
Lemma in_range_sym a b m : in_range s rc a b m -> in_range s rc b a (vnegi m).
Proof.
  intros (x & y & X & Y & P & N & D). exists y, x. split; auto. split; auto. split; [|split].
  - intros H. rewrite (P H). reflexivity.
  - intros E. apply N. injection E as -> E. f_equal. rewrite <- (vnegi_invol m), <- E. reflexivity.
  - now rewrite displacement_neg, norm_vopp.
Qed.
Lemma pairs_sym i j lo hi c : pairs_between s rc i j lo hi c -> pairs_between s rc j i lo hi c.
Proof.
  intros (L & ND & LEN & SP). exists (map (fun t : nat * nat * image => (snd (fst t), fst (fst t), vnegi (snd t))) L). split; [|split].
  - apply FinFun.Injective_map_NoDup; auto. intros ((a, b), m) ((a', b'), m') E. cbn in E. injection E as -> -> E. f_equal.
    rewrite <- (vnegi_invol m), <- (vnegi_invol m'). now rewrite E.
  - now rewrite map_length.
  - assert (S1 : forall i j a b m, (in_range s rc a b m /\ of_kind s a i /\ of_kind s b j /\ exists v, separation s a b m v /\ lo <= norm v < hi) ->
        in_range s rc b a (vnegi m) /\ of_kind s b j /\ of_kind s a i /\ exists v, separation s b a (vnegi m) v /\ lo <= norm v < hi).
    { clear. intros i j a b m (R0 & A0 & B0 & v & (x & y & X & Y & ->) & N). split; [now apply in_range_sym|]. split; auto. split; auto.
      exists (vopp (displacement s x y m)). rewrite norm_vopp. split; auto. exists y, x. rewrite displacement_neg. auto. }
    intros a b m. rewrite in_map_iff. split.
    + intros (((a', b'), m') & E & I). cbn in E. injection E as <- <- <-. apply SP in I. now apply S1.
    + intros H. exists (b, a, vnegi m). cbn. rewrite vnegi_invol. split; auto. apply SP. now apply S1.
Qed.
Lemma pairs_unique i j lo hi c c' : pairs_between s rc i j lo hi c -> pairs_between s rc i j lo hi c' -> c = c'.
Proof.
  intros (L & ND & <- & SP) (L' & ND' & <- & SP'). apply Permutation_length, NoDup_Permutation; auto. intros ((a, b), m). now rewrite SP, SP'.
Qed.
Lemma triples_unique i j k P c c' : triples_with s rc i j k P c -> triples_with s rc i j k P c' -> c = c'.
Proof.
  intros (L & ND & <- & SP) (L' & ND' & <- & SP'). apply Permutation_length, NoDup_Permutation; auto. intros ((a, (b, m)), (b', m')). now rewrite SP, SP'.
Qed.

Definition labels (F : nat -> list (nat * image)) : Prop :=
  forall a x', nth_error (s_atoms s') a = Some x' ->
    (a < natoms)%nat /\ a_element x' = el a /\
    Forall2 (fun p nb => nb_element nb = el (fst p) /\ nb_dr nb = sep a p /\ nb_d nb = norm (sep a p)) (F a) (a_nbs x') /\
    NoDup (F a) /\ forall j m, In (j, m) (F a) <-> in_range s rc a j m.
Lemma labels_exist nsort fuel b : is_sort nsort -> no_list s -> wrapped s -> 0 < rc -> s_maxrc s = 0 ->
  calculateNeighborList nsort fuel rc b s = Some s' -> length (s_atoms s') = natoms /\ exists F, labels F.
Proof.
  intros IS NL W RC M C. destruct (list_correct _ _ _ _ _ _ IS NL W (Rle_trans _ _ _ (Rlt_le _ _ RC) (Rmax_l _ _)) C) as (LEN & AT).
  rewrite M, (Rmax_left rc 0) in AT by lra. split; auto.
  destruct (finite_choice [] (fun a (l : list (nat * image)) => forall x', nth_error (s_atoms s') a = Some x' -> (a < natoms)%nat /\ a_element x' = el a /\
    Forall2 (fun p nb => nb_element nb = el (fst p) /\ nb_dr nb = sep a p /\ nb_d nb = norm (sep a p)) l (a_nbs x') /\
    NoDup l /\ forall j m, In (j, m) l <-> in_range s rc a j m) natoms) as (F & HF).
  - intros a LA. destruct (nth_error (s_atoms s) a) as [x|] eqn:E; [|apply nth_error_None in E; unfold natoms in LA; lia].
    destruct (AT a x E) as (x' & L & nbs & X' & _ & EL & PM & FF & ND & SP).
    destruct (perm_Forall2 _ _ _ (Permutation_sym PM) L FF) as (L' & PL & FL). exists L'. intros x'' E''. rewrite X' in E''. injection E'' as <-.
    split; auto. split; [unfold el; now rewrite E|]. split; [|split].
    + clear - FL E. induction FL as [|p nb l m H FL IH]; constructor; auto. destruct H as (y & Y & _ & _ & A1 & A2 & A3). unfold el, sep. now rewrite E, Y.
    + eapply Permutation_NoDup; eauto.
    + intros j m. rewrite <- SP. split; apply Permutation_in; auto. now symmetry.
  - exists F. intros a x' X'. apply HF; auto. unfold natoms. rewrite <- LEN. apply nth_error_Some. congruence.
Qed.

Section Labelled.
Variable F : nat -> list (nat * image).
Hypothesis LEN : length (s_atoms s') = natoms.
Hypothesis LAB : labels F.
Lemma labelled_at a : (a < natoms)%nat -> NoDup (F a) /\ forall j m, In (j, m) (F a) <-> in_range s rc a j m.
Proof.
  intros L. destruct (nth_error (s_atoms s') a) as [x|] eqn:E; [|apply nth_error_None in E; lia]. now destruct (LAB a x E) as (_ & _ & _ & H).
Qed.
Definition in_bin (lo hi x : R) : bool := if Rle_dec lo x then if Rlt_dec x hi then true else false else false.
Lemma in_bin_true lo hi x : in_bin lo hi x = true <-> lo <= x < hi.
Proof. unfold in_bin. destruct (Rle_dec lo x), (Rlt_dec x hi); split; intros; try discriminate; auto; lra. Qed.
(** Number of pairs as a sum over the labels. *)
Lemma pairs_count i j lo hi : exists c, pairs_between s rc i j lo hi c /\
  INR c = rsum (map (fun a => rsum (map (fun p => ind (Nat.eqb (el a) i && Nat.eqb (el (fst p)) j && in_bin lo hi (norm (sep a p)))) (F a))) (seq 0 natoms)).
Proof.
  eexists. split; [|symmetry; apply (length_sum (fun a (p : nat * image) => (Nat.eqb (el a) i && Nat.eqb (el (fst p)) j && in_bin lo hi (norm (sep a p)))%bool) (fun a p => (a, fst p, snd p)))].
  eexists. split; [|split; [reflexivity|]].
  - apply NoDup_tagged; [intros a (b, m) a' (b', m') E; cbn in E; now injection E as -> -> -> | apply seq_NoDup | intros a I; apply in_seq in I; apply labelled_at; lia].
  - intros a b m. rewrite in_flat_map. split.
    + intros (a' & IA & I). apply in_seq in IA. apply in_map_iff in I. destruct I as ((b', m') & E & I). cbn in E. injection E as -> -> ->.
      apply filter_In in I. destruct I as (I & T). cbn [fst] in T. rewrite !andb_true_iff, !Nat.eqb_eq, in_bin_true in T. destruct T as ((T1 & T2) & T3).
      apply (proj2 (labelled_at a ltac:(lia))) in I. destruct (in_range_bound _ _ _ I) as (B1 & B2). split; auto.
      split; [now apply of_kind_el|]. split; [now apply of_kind_el|]. exists (sep a (b, m)). split; auto. now apply separation_sep.
    + intros (R0 & A0 & B0 & v & V & N). destruct (in_range_bound _ _ _ R0) as (B1 & B2). exists a. split; [apply in_seq; lia|].
      apply in_map_iff. exists (b, m). split; auto. apply filter_In. split; [now apply labelled_at|]. cbn [fst].
      apply of_kind_el in A0; auto. apply of_kind_el in B0; auto. apply separation_sep in V; auto. subst v. rewrite !andb_true_iff, !Nat.eqb_eq, in_bin_true. auto.
Qed.
Lemma triples_count i j k (P : R -> Prop) (test : nat -> (nat * image) * (nat * image) -> bool) :
  (forall a p q, (a < natoms)%nat -> In p (F a) -> In q (F a) -> p <> q -> test a (p, q) = true <-> P (angle (sep a p) (sep a q))) ->
  exists c, triples_with s rc i j k P c /\
  INR c = rsum (map (fun a => rsum (map (fun pq => ind (Nat.eqb (el a) i && Nat.eqb (el (fst (fst pq))) j && Nat.eqb (el (fst (snd pq))) k && test a pq)) (ordered (F a)))) (seq 0 natoms)).
Proof.
  intros T. eexists. split; [|symmetry; apply (length_sum (fun a (pq : (nat * image) * (nat * image)) => (Nat.eqb (el a) i && Nat.eqb (el (fst (fst pq))) j && Nat.eqb (el (fst (snd pq))) k && test a pq)%bool) (fun a pq => (a, fst pq, snd pq)))].
  eexists. split; [|split; [reflexivity|]].
  - apply NoDup_tagged; [intros a (b, m) a' (b', m') E; cbn in E; now injection E as -> -> -> | apply seq_NoDup | intros a I; apply in_seq in I; apply ordered_spec, labelled_at; lia].
  - intros a b m b' m'. rewrite in_flat_map. split.
    + intros (a' & IA & I). apply in_seq in IA. apply in_map_iff in I. destruct I as ((p, q) & E & I). cbn in E. injection E as -> -> ->.
      apply filter_In in I. destruct I as (I & X). cbn [fst snd] in X. rewrite !andb_true_iff, !Nat.eqb_eq in X. destruct X as (((T1 & T2) & T3) & T4).
      destruct (labelled_at a ltac:(lia)) as (ND & SP). apply (proj2 (ordered_spec _ ND)) in I. destruct I as (I1 & I2 & NE). apply T in T4; auto; [|lia].
      apply SP in I1, I2. destruct (in_range_bound _ _ _ I1) as (B1 & B2). destruct (in_range_bound _ _ _ I2) as (_ & B3).
      repeat (split; [now auto|]). split; [now apply of_kind_el|]. split; [now apply of_kind_el|]. split; [now apply of_kind_el|].
      exists (sep a (b, m)), (sep a (b', m')). split; [now apply separation_sep|]. split; [now apply separation_sep|]. auto.
    + intros (R1 & R2 & NE & A0 & B0 & C0 & u & v & U & V & N). destruct (in_range_bound _ _ _ R1) as (B1 & B2). destruct (in_range_bound _ _ _ R2) as (_ & B3).
      exists a. split; [apply in_seq; lia|]. apply in_map_iff. exists ((b, m), (b', m')). split; auto.
      destruct (labelled_at a B1) as (ND & SP). apply filter_In. split; [apply (proj2 (ordered_spec _ ND)); rewrite !SP; auto|]. cbn [fst snd].
      apply of_kind_el in A0; auto. apply of_kind_el in B0; auto. apply of_kind_el in C0; auto. apply separation_sep in U; auto. apply separation_sep in V; auto. subst u v.
      rewrite !andb_true_iff, !Nat.eqb_eq, T; auto; now apply SP.
Qed.
End Labelled.
End Structure.
