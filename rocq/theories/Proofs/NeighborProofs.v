From Coq Require Import Reals Lra ZArith List Lia Bool Arith Permutation Sorted.
From Verif Require Import Base.Vec3 Model.Geometry Model.NeighborList Spec.GeometrySpec Spec.NeighborSpec
  Proofs.GeometryProofs.
Import ListNotations.
Local Open Scope R_scope.

(** ** Lists of images *)
Lemma in_zrange p z : In z (zrange p) <-> (- Z.of_nat p <= z <= Z.of_nat p)%Z.
Proof.
  unfold zrange. rewrite in_map_iff. split.
  - intros (k & <- & Hk). apply in_seq in Hk. lia.
  - intros H. exists (Z.to_nat (z + Z.of_nat p)). split; [lia|]. apply in_seq. lia.
Qed.
Lemma NoDup_map_inj {A B} (f : A -> B) l : (forall x y, In x l -> In y l -> f x = f y -> x = y) -> NoDup l -> NoDup (map f l).
Proof.
  induction l as [|a l IH]; intros Hi Hn; simpl; [constructor|]. inversion Hn; subst. constructor.
  - rewrite in_map_iff. intros (y & E & Hy). apply Hi in E; simpl; auto. subst. auto.
  - apply IH; auto. intros x y Hx Hy. apply Hi; simpl; auto.
Qed.
Lemma NoDup_zrange p : NoDup (zrange p).
Proof. apply NoDup_map_inj; [intros; lia|apply seq_NoDup]. Qed.
Definition images (pbc : nat * nat * nat) : list image :=
  let '(p0, p1, p2) := pbc in
  flat_map (fun b0 => flat_map (fun b1 => map (fun b2 => (b0, b1, b2)) (zrange p2)) (zrange p1)) (zrange p0).
Lemma in_images pbc m : In m (images pbc) <-> searched pbc m.
Proof.
  destruct pbc as [[p0 p1] p2], m as [[x y] z]. unfold images, searched.
  split.
  - intros H. apply in_flat_map in H as (b0 & H0 & H). apply in_flat_map in H as (b1 & H1 & H).
    apply in_map_iff in H as (b2 & E & H2). injection E as -> -> ->. apply in_zrange in H0, H1, H2. auto.
  - intros (H0 & H1 & H2). apply in_flat_map. exists x. split; [now apply in_zrange|].
    apply in_flat_map. exists y. split; [now apply in_zrange|]. apply in_map_iff. exists z. split; [auto|now apply in_zrange].
Qed.
Lemma NoDup_app' {A} (l l' : list A) : NoDup l -> NoDup l' -> (forall x, In x l -> ~ In x l') -> NoDup (l ++ l').
Proof.
  induction l as [|a l IH]; intros H1 H2 H; simpl; auto. inversion H1; subst. constructor.
  - intros HI. apply in_app_or in HI as [HI|HI]; auto. apply (H a); simpl; auto.
  - apply IH; auto. intros x Hx. apply H; simpl; auto.
Qed.
Lemma NoDup_flat_map {A B} (f : A -> list B) (key : B -> A) l :
  (forall a b, In b (f a) -> key b = a) -> (forall a, NoDup (f a)) -> NoDup l -> NoDup (flat_map f l).
Proof.
  intros Hk Hf. induction l as [|a l IH]; intros Hn; simpl; [constructor|]. inversion Hn; subst.
  apply NoDup_app'; auto.
  intros b Hb Hb'. apply in_flat_map in Hb' as (a' & Ha' & Hb'). apply Hk in Hb. apply Hk in Hb'. congruence.
Qed.
Lemma NoDup_images pbc : NoDup (images pbc).
Proof.
  destruct pbc as [[p0 p1] p2]. apply (NoDup_flat_map _ (fun m => fst (fst m))).
  - intros a b Hb. apply in_flat_map in Hb as (y & _ & Hb). apply in_map_iff in Hb as (z & <- & _). reflexivity.
  - intros a. apply (NoDup_flat_map _ (fun m => snd (fst m))).
    + intros y b Hb. apply in_map_iff in Hb as (z & <- & _). reflexivity.
    + intros y. apply NoDup_map_inj; [congruence|apply NoDup_zrange].
    + apply NoDup_zrange.
  - apply NoDup_zrange.
Qed.
Lemma candidates_images n pbc : candidates n pbc = flat_map (fun j => map (pair j) (images pbc)) (seq 0 n).
Proof.
  destruct pbc as [[p0 p1] p2]. unfold candidates, images. apply flat_map_ext. intros j.
  assert (Hm : forall {A B C} (g : B -> C) (f : A -> list B) l, map g (flat_map f l) = flat_map (fun x => map g (f x)) l).
  { intros A B C g f l. induction l; simpl; auto. rewrite map_app, IHl. reflexivity. }
  rewrite Hm. apply flat_map_ext. intros b0. rewrite Hm. apply flat_map_ext. intros b1. rewrite map_map. reflexivity.
Qed.
Lemma fold_left_flat_map {A B S} (f : S -> B -> S) (g : A -> list B) l s :
  fold_left f (flat_map g l) s = fold_left (fun s a => fold_left f (g a) s) l s.
Proof. revert s. induction l; intros s; simpl; auto. rewrite fold_left_app. apply IHl. Qed.
Lemma fold_left_map' {A B S} (f : S -> B -> S) (g : A -> B) l s :
  fold_left f (map g l) s = fold_left (fun s a => f s (g a)) l s.
Proof. revert s. induction l; intros s; simpl; auto. Qed.

(** ** Processing one pair of atoms *)
Lemma incr_at_spec l i l' : incr_at l i = Some l' ->
  length l' = length l /\ (forall k, nth k l' 0%nat = (nth k l 0 + if Nat.eqb k i then 1 else 0)%nat).
Proof.
  revert i l'. induction l as [|x r IH]; intros [|i] l' H; simpl in H; try discriminate.
  - injection H as <-. split; auto. intros [|k]; simpl; lia.
  - destruct (incr_at r i) as [r'|] eqn:E; [|discriminate]. injection H as <-. apply IH in E as [E1 E2].
    split; [simpl; lia|]. intros [|k]; simpl; [lia|apply E2].
Qed.
Lemma incr_at_ok l i : (i < length l)%nat -> exists l', incr_at l i = Some l'.
Proof.
  revert i. induction l as [|x r IH]; intros [|i] H; simpl in *; try lia; eauto.
  destruct (IH i) as [r' ->]; [lia|eauto].
Qed.

Definition ok (s : structure) (rc : R) (i j : nat) (ri rj : vec) (m : image) : bool :=
  negb (is_self i j m) && if Rle_dec (norm2 (pair_dr (s_box s) ri rj m)) (rc * rc) then true else false.
Definition mk (s : structure) (j ej : nat) (ri rj : vec) (m : image) : neighbor :=
  let dr := pair_dr (s_box s) ri rj m in mkNb j (Z.of_nat j) ej (norm dr) dr.
Definition nonempty {A} (l : list A) : bool := match l with [] => false | _ => true end.

(** The effect of all images of one atom [j]. *)
Definition block (s : structure) (rc : R) (i j : nat) (aj : atom) (hits : list image) (a a' : atom) : Prop :=
  a_r a' = a_r a /\ a_element a' = a_element a /\ a_sorted a' = a_sorted a /\ a_cutoffs a' = a_cutoffs a /\
  a_nbs a' = a_nbs a ++ map (mk s j (a_element aj) (a_r a) (a_r aj)) hits /\
  a_numN a' = (a_numN a + length hits)%nat /\
  length (a_perEl a') = length (a_perEl a) /\
  (forall e, nth e (a_perEl a') 0%nat = (nth e (a_perEl a) 0 + if Nat.eqb e (a_element aj) then length hits else 0)%nat) /\
  a_unique a' = a_unique a ++ (if (negb (Nat.eqb i j) && nonempty hits)%bool then [j] else []) /\
  a_numU a' = (a_numU a + (if (negb (Nat.eqb i j) && nonempty hits)%bool then 1 else 0))%nat.

Lemma push_neighbor_ok a j ej dr : (ej < length (a_perEl a))%nat -> exists pe,
  incr_at (a_perEl a) ej = Some pe /\
  push_neighbor a j ej dr = Some (mkAtom (a_element a) (a_r a) (a_hasNL a) (a_sorted a) (S (a_numN a)) (a_numU a) pe
                 (a_unique a) (a_nbs a ++ [mkNb j (Z.of_nat j) ej (norm dr) dr]) (a_cutoffs a)).
Proof. intros H. destruct (incr_at_ok _ _ H) as [pe E]. exists pe. unfold push_neighbor. rewrite E. auto. Qed.

Lemma periodic_block s rc i j aj imgs a : nth_error (s_atoms s) j = Some aj ->
  (a_element aj < length (a_perEl a))%nat -> (i <> j -> last (a_unique a) 0%nat <> j) ->
  exists a', fold_left (periodic_step (s_box s) (s_atoms s) (rc * rc) i) (map (pair j) imgs) (Some a) = Some a' /\
    block s rc i j aj (filter (ok s rc i j (a_r a) (a_r aj)) imgs) a a'.
Proof.
  intros Hj Hel Hlast.
  cut (exists a', fold_left (periodic_step (s_box s) (s_atoms s) (rc * rc) i) (map (pair j) imgs) (Some a) = Some a' /\
    block s rc i j aj (filter (ok s rc i j (a_r a) (a_r aj)) imgs) a a' /\
    (nonempty (filter (ok s rc i j (a_r a) (a_r aj)) imgs) = true -> i <> j -> last (a_unique a') 0%nat = j)).
  { intros (a' & A & B & _). eauto. }
  induction imgs as [|m imgs IH] using rev_ind.
  - exists a. simpl. split; auto. split; [|discriminate]. unfold block; simpl. rewrite !Nat.add_0_r, !andb_false_r, !app_nil_r.
    repeat split; auto. intros e. destruct (Nat.eqb e (a_element aj)); lia.
  - destruct IH as (a1 & E & B & L). destruct B as (B1 & B2 & B3 & B4 & B5 & B6 & B7 & B8 & B9 & B10).
    rewrite map_app, fold_left_app, E. cbn [map fold_left]. unfold periodic_step. rewrite Hj.
    rewrite filter_app. cbn [filter]. set (hits := filter (ok s rc i j (a_r a) (a_r aj)) imgs) in *.
    assert (Eok : ok s rc i j (a_r a) (a_r aj) m = negb (is_self i j m) &&
      if Rle_dec (norm2 (pair_dr (s_box s) (a_r a) (a_r aj) m)) (rc * rc) then true else false) by reflexivity.
    rewrite Eok, B1.
    destruct (is_self i j m) eqn:Es.
    { cbn [negb andb]. rewrite app_nil_r. exists a1. split; auto. split; auto. unfold block. auto 20. }
    cbn [negb andb].
    destruct (Rle_dec (norm2 (pair_dr (s_box s) (a_r a) (a_r aj) m)) (rc * rc)) as [Hle|Hle].
    2:{ rewrite app_nil_r. exists a1. split; auto. split; auto. unfold block. auto 20. }
    destruct (push_neighbor_ok a1 j (a_element aj) (pair_dr (s_box s) (a_r a) (a_r aj) m)) as (pe & Epe & ->); [lia|].
    apply incr_at_spec in Epe as [P1 P2]. cbn [a_unique].
    assert (Hne : nonempty (hits ++ [m]) = true) by (destruct hits; reflexivity).
    assert (Hcommon : forall u nu, let a2 := mkAtom (a_element a1) (a_r a1) (a_hasNL a1) (a_sorted a1) (S (a_numN a1)) nu pe u
         (a_nbs a1 ++ [mkNb j (Z.of_nat j) (a_element aj) (norm (pair_dr (s_box s) (a_r a) (a_r aj) m)) (pair_dr (s_box s) (a_r a) (a_r aj) m)]) (a_cutoffs a1) in
         u = a_unique a ++ (if (negb (Nat.eqb i j) && true)%bool then [j] else []) ->
         nu = (a_numU a + (if (negb (Nat.eqb i j) && true)%bool then 1 else 0))%nat ->
         block s rc i j aj (hits ++ [m]) a a2).
    { intros u nu a2 Hu Hnu. unfold block. rewrite Hne. unfold a2; cbn.
      repeat split; auto.
      - rewrite B5, <- app_assoc, map_app. reflexivity.
      - rewrite B6, app_length; simpl; lia.
      - lia.
      - intros e. rewrite P2, B8, app_length. simpl. destruct (Nat.eqb e (a_element aj)); lia. }
    rewrite andb_true_r in Hcommon.
    destruct (Nat.eq_dec i j) as [Hij|Hij].
    + (* image of the atom itself *)
      pose proof (proj2 (Nat.eqb_eq i j) Hij) as Eij. rewrite Eij in *. cbn [negb andb] in *. rewrite andb_false_r.
      eexists. split; [reflexivity|]. split; [|intros; congruence].
      apply Hcommon; [rewrite B9; now rewrite app_nil_r|rewrite B10; lia].
    + pose proof (proj2 (Nat.eqb_neq i j) Hij) as Eij. rewrite Eij in *. cbn [negb andb] in *. rewrite andb_true_r.
      destruct (nonempty hits) eqn:Hh.
      * (* already stored as unique neighbor *)
        rewrite (L eq_refl Hij), Nat.eqb_refl. cbn [negb].
        eexists. split; [reflexivity|]. split; [apply Hcommon; [rewrite B9|rewrite B10]; reflexivity|].
        intros _ _. cbn. apply L; auto.
      * assert (Hl : last (a_unique a1) 0%nat <> j). { rewrite B9, app_nil_r. auto. }
        apply Nat.eqb_neq in Hl. rewrite Hl. cbn [negb].
        eexists. split; [reflexivity|]. unfold push_unique; cbn. split.
        -- apply Hcommon; [rewrite B9, app_nil_r; reflexivity|rewrite B10; lia].
        -- intros _ _. cbn. apply last_last.
Qed.

Lemma pair_dr_zero box ri rj : pair_dr box ri rj (0, 0, 0)%Z = vsub ri rj.
Proof. unfold pair_dr. vring. Qed.
Lemma nonperiodic_block s rc i j aj a : nth_error (s_atoms s) j = Some aj ->
  (a_element aj < length (a_perEl a))%nat ->
  exists a', nonperiodic_step (s_atoms s) (rc * rc) i (Some a) j = Some a' /\
    block s rc i j aj (filter (ok s rc i j (a_r a) (a_r aj)) [(0, 0, 0)%Z]) a a'.
Proof.
  intros Hj Hel. unfold nonperiodic_step. rewrite Hj. cbn [filter]. unfold ok. rewrite pair_dr_zero.
  unfold is_self. simpl Z.eqb. rewrite !andb_true_r.
  destruct (Nat.eqb i j) eqn:Eij; cbn [negb andb].
  { exists a. split; auto. unfold block. simpl. rewrite !Nat.add_0_r, !andb_false_r, !app_nil_r.
    repeat split; auto. intros e. destruct (Nat.eqb e (a_element aj)); lia. }
  destruct (Rle_dec (norm2 (vsub (a_r a) (a_r aj))) (rc * rc)).
  - destruct (push_neighbor_ok a j (a_element aj) (vsub (a_r a) (a_r aj)) Hel) as (pe & Epe & ->).
    apply incr_at_spec in Epe as [P1 P2]. eexists. split; [reflexivity|].
    unfold block, push_unique; cbn. rewrite Eij. cbn. unfold mk. rewrite pair_dr_zero.
    repeat split; auto; lia.
  - exists a. split; auto. unfold block. simpl. rewrite !Nat.add_0_r, !andb_false_r, !app_nil_r.
    repeat split; auto. intros e. destruct (Nat.eqb e (a_element aj)); lia.
Qed.

(** ** All atoms *)
Definition imgs_of (s : structure) (pbc : nat * nat * nat) : list image :=
  if s_periodic s then images pbc else [(0, 0, 0)%Z].
Definition dflt : atom := mkAtom 0 vzero false false 0 0 [] [] [] [].
Definition at_ (s : structure) (j : nat) : atom := nth j (s_atoms s) dflt.
Definition hits_of (s : structure) (rc : R) pbc (i : nat) (ri : vec) (j : nat) : list image :=
  filter (ok s rc i j ri (a_r (at_ s j))) (imgs_of s pbc).
Definition uniq_of (s : structure) (rc : R) pbc (i : nat) (ri : vec) (n : nat) : list nat :=
  filter (fun j => (negb (Nat.eqb i j) && nonempty (hits_of s rc pbc i ri j))%bool) (seq 0 n).
Definition nbs_of (s : structure) (rc : R) pbc (i : nat) (ri : vec) (n : nat) : list neighbor :=
  flat_map (fun j => map (mk s j (a_element (at_ s j)) ri (a_r (at_ s j))) (hits_of s rc pbc i ri j)) (seq 0 n).
Definition count_el (e : nat) (l : list neighbor) : nat := length (filter (fun n => Nat.eqb e (nb_element n)) l).

Lemma count_el_app e l l' : count_el e (l ++ l') = (count_el e l + count_el e l')%nat.
Proof. unfold count_el. rewrite filter_app, app_length. reflexivity. Qed.
Lemma count_el_mk s e j ej ri rj l : count_el e (map (mk s j ej ri rj) l) = if Nat.eqb e ej then length l else 0%nat.
Proof.
  unfold count_el. induction l; simpl; [destruct (Nat.eqb e ej); auto|].
  destruct (Nat.eqb e ej); simpl; rewrite IHl; auto.
Qed.

Definition atom_result (s : structure) (rc : R) pbc (i n : nat) (a a' : atom) : Prop :=
  a_r a' = a_r a /\ a_element a' = a_element a /\ a_sorted a' = a_sorted a /\ a_cutoffs a' = a_cutoffs a /\
  a_nbs a' = a_nbs a ++ nbs_of s rc pbc i (a_r a) n /\
  a_numN a' = (a_numN a + length (nbs_of s rc pbc i (a_r a) n))%nat /\
  length (a_perEl a') = length (a_perEl a) /\
  (forall e, nth e (a_perEl a') 0%nat = (nth e (a_perEl a) 0 + count_el e (nbs_of s rc pbc i (a_r a) n))%nat) /\
  a_unique a' = a_unique a ++ uniq_of s rc pbc i (a_r a) n /\
  a_numU a' = (a_numU a + length (uniq_of s rc pbc i (a_r a) n))%nat.

Lemma block_extend s rc pbc i n aj a a1 a2 : nth_error (s_atoms s) n = Some aj ->
  atom_result s rc pbc i n a a1 -> block s rc i n aj (hits_of s rc pbc i (a_r a) n) a1 a2 ->
  atom_result s rc pbc i (S n) a a2.
Proof.
  intros Hj (A1 & A2 & A3 & A4 & A5 & A6 & A7 & A8 & A9 & A10) (B1 & B2 & B3 & B4 & B5 & B6 & B7 & B8 & B9 & B10).
  assert (Eat : at_ s n = aj) by (apply nth_error_nth; auto).
  assert (E : nbs_of s rc pbc i (a_r a) (S n) = nbs_of s rc pbc i (a_r a) n ++
     map (mk s n (a_element aj) (a_r a) (a_r aj)) (hits_of s rc pbc i (a_r a) n)).
  { unfold nbs_of. rewrite seq_S, flat_map_app. simpl. rewrite app_nil_r, Eat. reflexivity. }
  assert (U : uniq_of s rc pbc i (a_r a) (S n) = uniq_of s rc pbc i (a_r a) n ++
     (if (negb (Nat.eqb i n) && nonempty (hits_of s rc pbc i (a_r a) n))%bool then [n] else [])).
  { unfold uniq_of. rewrite seq_S, filter_app. simpl. reflexivity. }
  unfold atom_result. rewrite E, U. rewrite A1 in B5.
  split; [congruence|]. split; [congruence|]. split; [congruence|]. split; [congruence|]. split.
  { rewrite B5, A5, app_assoc. reflexivity. }
  split. { rewrite B6, A6, !app_length, map_length. lia. }
  split; [congruence|]. split.
  { intros e. rewrite B8, A8, count_el_app, count_el_mk. lia. }
  split. { rewrite B9, A9, app_assoc. reflexivity. }
  rewrite B10, A10, app_length. destruct (negb (Nat.eqb i n) && nonempty (hits_of s rc pbc i (a_r a) n))%bool; simpl; lia.
Qed.

Lemma uniq_bound s rc pbc i ri n j : In j (uniq_of s rc pbc i ri n) -> (j < n)%nat.
Proof. unfold uniq_of. rewrite filter_In, in_seq. lia. Qed.
Lemma last_in {A} (l : list A) d : l <> [] -> In (last l d) l.
Proof. intros H. destruct (exists_last H) as (l' & x & ->). rewrite last_last. apply in_or_app. right. simpl. auto. Qed.

Definition fold_atoms (s : structure) (rc : R) pbc i n (a : atom) : option atom :=
  if s_periodic s
  then fold_left (periodic_step (s_box s) (s_atoms s) (rc * rc) i) (candidates n pbc) (Some a)
  else fold_left (nonperiodic_step (s_atoms s) (rc * rc) i) (seq 0 n) (Some a).

Lemma fold_atoms_spec s rc pbc i a : a_unique a = [i] ->
  (forall aj, In aj (s_atoms s) -> (a_element aj < length (a_perEl a))%nat) ->
  forall n, (n <= length (s_atoms s))%nat ->
  exists a', fold_atoms s rc pbc i n a = Some a' /\ atom_result s rc pbc i n a a'.
Proof.
  intros Hu Hel. induction n; intros Hn.
  - exists a. split. { unfold fold_atoms. rewrite candidates_images. destruct (s_periodic s); reflexivity. }
    unfold atom_result, nbs_of, uniq_of, count_el; simpl. rewrite !app_nil_r, !Nat.add_0_r. auto 20.
  - destruct IHn as (a1 & E & HR); [lia|].
    destruct (nth_error (s_atoms s) n) as [aj|] eqn:Hj.
    2:{ exfalso. apply nth_error_None in Hj. lia. }
    pose proof HR as (A1 & _ & _ & _ & _ & _ & A7 & _ & A9 & _).
    assert (Helj : (a_element aj < length (a_perEl a1))%nat) by (rewrite A7; apply Hel; eapply nth_error_In; eauto).
    assert (Hlast : i <> n -> last (a_unique a1) 0%nat <> n).
    { intros Hin. rewrite A9, Hu. intros EL.
      assert (HI : In (last ([i] ++ uniq_of s rc pbc i (a_r a) n) 0%nat) ([i] ++ uniq_of s rc pbc i (a_r a) n)) by (apply last_in; discriminate).
      rewrite EL in HI. destruct HI as [HI|HI]; [congruence|]. apply uniq_bound in HI. lia. }
    assert (Eat : at_ s n = aj) by (apply nth_error_nth; auto).
    cut (exists a2, fold_atoms s rc pbc i (S n) a = Some a2 /\ block s rc i n aj (hits_of s rc pbc i (a_r a) n) a1 a2).
    { intros (a2 & E2 & HB). exists a2. split; auto. eapply block_extend; eauto. }
    unfold fold_atoms in *. unfold hits_of, imgs_of. rewrite Eat. rewrite <- A1. destruct (s_periodic s).
    + rewrite candidates_images in E. rewrite candidates_images, seq_S, flat_map_app, fold_left_app.
      rewrite E. cbn [flat_map Nat.add].
      rewrite app_nil_r. apply periodic_block; auto.
    + rewrite seq_S, fold_left_app, E. cbn [fold_left Nat.add]. apply nonperiodic_block; auto.
Qed.

Lemma calculate_atom_spec s rc pbc i a : a_unique a = [] ->
  (forall aj, In aj (s_atoms s) -> (a_element aj < length (a_perEl a))%nat) ->
  exists a', calculate_atom s rc pbc i a = Some a' /\ a_hasNL a' = true /\
    atom_result s rc pbc i (length (s_atoms s)) (push_unique i a) a'.
Proof.
  intros Hu Hel. destruct (fold_atoms_spec s rc pbc i (push_unique i a)) with (n := length (s_atoms s)) as (a' & E & HR); auto.
  { simpl. rewrite Hu. reflexivity. }
  exists (set_hasNL true a'). unfold calculate_atom. unfold fold_atoms in E. rewrite E. split; [reflexivity|]. split; [reflexivity|].
  exact HR.
Qed.

Lemma sequence_spec {A} (l : list (option A)) r : sequence l = Some r ->
  length r = length l /\ forall i x, nth_error l i = Some x -> x = nth_error r i.
Proof.
  revert r. induction l as [|x l IH]; intros r H; simpl in H.
  - injection H as <-. split; auto. intros [|i] y Hy; discriminate.
  - destruct x as [a|]; [|discriminate]. destruct (sequence l) as [t|]; [|discriminate]. injection H as <-.
    destruct (IH t eq_refl) as [E1 E2]. split; [simpl; lia|]. intros [|i] y Hy; simpl in *; [congruence|auto].
Qed.
Lemma sequence_some {A} (l : list (option A)) : (forall x, In x l -> x <> None) -> exists r, sequence l = Some r.
Proof.
  induction l as [|x l IH]; intros H; simpl; [eauto|]. destruct x as [a|]; [|exfalso; apply (H None); simpl; auto].
  destruct IH as [r ->]; [intros; apply H; simpl; auto|eauto].
Qed.
Lemma combine_seq_nth {A} (l : list A) : forall b i, nth_error (List.combine (seq b (length l)) l) i =
  match nth_error l i with Some a => Some ((b + i)%nat, a) | None => None end.
Proof.
  induction l as [|a l IH]; intros b [|i]; simpl; auto.
  - now rewrite Nat.add_0_r.
  - rewrite IH. destruct (nth_error l i); auto. now rewrite <- Nat.add_succ_comm.
Qed.
Lemma mapi_length {A B} (f : nat -> A -> B) l : length (mapi f l) = length l.
Proof. unfold mapi. rewrite map_length, combine_length, seq_length. lia. Qed.
Lemma nth_error_mapi {A B} (f : nat -> A -> B) l i :
  nth_error (mapi f l) i = match nth_error l i with Some a => Some (f i a) | None => None end.
Proof.
  unfold mapi. rewrite nth_error_map, combine_seq_nth. destruct (nth_error l i); reflexivity.
Qed.

(** ** The whole structure *)
Definition copies_for (fuel : nat) (s : structure) (rc : R) : option (nat * nat * nat) :=
  if s_periodic s then calculatePbcCopies fuel (s_box s) rc else Some (0, 0, 0)%nat.

Lemma no_list_at s : no_list s -> forall i a, nth_error (s_atoms s) i = Some a ->
  a_unique a = [] /\ (forall aj, In aj (s_atoms s) -> (a_element aj < length (a_perEl a))%nat).
Proof.
  intros H i a Ha. apply nth_error_In in Ha. destruct (H a Ha) as (_ & U & _ & _ & _ & L). split; auto.
  intros aj Haj. rewrite L. apply H. auto.
Qed.

Lemma calculate_unsorted nsort fuel rc s pbc : no_list s -> copies_for fuel s (Rmax rc (s_maxrc s)) = Some pbc ->
  exists s', calculateNeighborList nsort fuel rc false s = Some s' /\ s_hasNL s' = true /\
   s_periodic s' = s_periodic s /\ s_box s' = s_box s /\ s_numElements s' = s_numElements s /\ s_maxrc s' = s_maxrc s /\
   length (s_atoms s') = length (s_atoms s) /\
   forall i a, nth_error (s_atoms s) i = Some a -> exists a', nth_error (s_atoms s') i = Some a' /\ a_hasNL a' = true /\
     atom_result s (Rmax rc (s_maxrc s)) pbc i (length (s_atoms s)) (push_unique i a) a'.
Proof.
  intros Hn Hp. unfold calculateNeighborList. fold (copies_for fuel s (Rmax rc (s_maxrc s))). rewrite Hp.
  set (rc' := Rmax rc (s_maxrc s)).
  destruct (sequence_some (mapi (calculate_atom s rc' pbc) (s_atoms s))) as [l El].
  { intros x Hx. apply In_nth_error in Hx as [i Hi]. rewrite nth_error_mapi in Hi.
    destruct (nth_error (s_atoms s) i) as [a|] eqn:Ea; [|discriminate]. injection Hi as <-.
    destruct (no_list_at s Hn i a Ea) as [U E]. destruct (calculate_atom_spec s rc' pbc i a U E) as (a' & -> & _). discriminate. }
  rewrite El. apply sequence_spec in El as [E1 E2]. rewrite mapi_length in E1.
  eexists. split; [reflexivity|]. cbn. repeat (split; [reflexivity|]). split; [auto|].
  intros i a Ha. destruct (no_list_at s Hn i a Ha) as [U E]. destruct (calculate_atom_spec s rc' pbc i a U E) as (a' & Ea' & H1 & H2).
  exists a'. split; auto. symmetry. apply E2. rewrite nth_error_mapi, Ha. now rewrite Ea'.
Qed.

(** ** Soundness and completeness *)
Lemma pair_dr_displacement s ai aj m : pair_dr (s_box s) (a_r ai) (a_r aj) m = displacement s ai aj m.
Proof.
  destruct m as [[x y] z]. unfold pair_dr, displacement, position_of_image, lattice, combine.
  destruct (a_r ai), (a_r aj), (s_box s) as [[] [] []]. apply vec_eq; simpl; unfold vsub, vadd, smul; simpl; ring.
Qed.
Lemma is_self_spec i j m : is_self i j m = true <-> (i, (0, 0, 0)%Z) = (j, m).
Proof.
  destruct m as [[x y] z]. unfold is_self. rewrite !andb_true_iff, Nat.eqb_eq, !Z.eqb_eq. split.
  - intros (((-> & ->) & ->) & ->). reflexivity.
  - intros H. injection H as <- <- <- <-. auto.
Qed.
Lemma ok_spec s rc i j ai aj m : 0 <= rc -> ok s rc i j (a_r ai) (a_r aj) m = true <->
  (i, (0, 0, 0)%Z) <> (j, m) /\ norm (displacement s ai aj m) <= rc.
Proof.
  intros Hrc. unfold ok. rewrite andb_true_iff, negb_true_iff, pair_dr_displacement.
  rewrite <- (is_self_spec i j m). destruct (is_self i j m).
  - split; [intros [H _]; discriminate|intros [H _]; congruence].
  - destruct (Rle_dec (norm2 (displacement s ai aj m)) (rc * rc)) as [H|H]; rewrite norm_le_iff in H by auto;
      split; intros [A B]; auto; try discriminate; try (split; auto; congruence); contradiction.
Qed.

Lemma frac_difference f g : in_cell f -> in_cell g -> close_frac (vsub f g).
Proof. unfold in_cell, close_frac, vsub; simpl. lra. Qed.
Lemma combine_sub box f g : vsub (combine box f) (combine box g) = combine box (vsub f g).
Proof. unfold combine. vring. Qed.
Lemma displacement_sum s ai aj m : displacement s ai aj m = vadd (vsub (a_r ai) (a_r aj)) (lattice (s_box s) m).
Proof. unfold displacement, position_of_image. vring. Qed.

Lemma searched_complete fuel s rc pbc ai aj m : wrapped s -> In ai (s_atoms s) -> In aj (s_atoms s) ->
  copies_for fuel s rc = Some pbc -> (s_periodic s = false -> m = (0, 0, 0)%Z) ->
  norm (displacement s ai aj m) <= rc -> In m (imgs_of s pbc).
Proof.
  intros Hw Hi Hj Hp Hm Hn. unfold imgs_of, copies_for in *. unfold wrapped in Hw. destruct (s_periodic s).
  - destruct (Hw eq_refl) as [Hd Hc]. destruct (Hc ai Hi) as (f & Hf & Ef), (Hc aj Hj) as (g & Hg & Eg).
    apply in_images. rewrite displacement_sum, Ef, Eg, combine_sub in Hn.
    eapply copies_suffice; eauto. apply frac_difference; auto.
  - rewrite (Hm eq_refl). simpl. auto.
Qed.
Lemma imgs_nonperiodic s pbc m : In m (imgs_of s pbc) -> s_periodic s = false -> m = (0, 0, 0)%Z.
Proof. unfold imgs_of. intros H E. rewrite E in H. destruct H as [<-|[]]. reflexivity. Qed.
Lemma NoDup_imgs s pbc : NoDup (imgs_of s pbc).
Proof. unfold imgs_of. destruct (s_periodic s); [apply NoDup_images|]. constructor; [intros []|constructor]. Qed.

Definition pairs_of (s : structure) rc pbc i ri : list (nat * image) :=
  flat_map (fun j => map (pair j) (hits_of s rc pbc i ri j)) (seq 0 (length (s_atoms s))).
Lemma NoDup_pairs s rc pbc i ri : NoDup (pairs_of s rc pbc i ri).
Proof.
  apply (NoDup_flat_map _ fst).
  - intros j [j' m] H. apply in_map_iff in H as (m' & E & _). injection E as -> ->. reflexivity.
  - intros j. apply NoDup_map_inj; [congruence|]. apply NoDup_filter, NoDup_imgs.
  - apply seq_NoDup.
Qed.
Lemma at_nth s j aj : nth_error (s_atoms s) j = Some aj -> at_ s j = aj.
Proof. apply nth_error_nth. Qed.
Lemma nth_error_at s j : (j < length (s_atoms s))%nat -> nth_error (s_atoms s) j = Some (at_ s j).
Proof. intros H. apply nth_error_nth'. auto. Qed.

Lemma pairs_spec fuel s rc pbc i ai : wrapped s -> 0 <= rc -> copies_for fuel s rc = Some pbc ->
  nth_error (s_atoms s) i = Some ai ->
  forall j m, In (j, m) (pairs_of s rc pbc i (a_r ai)) <-> in_range s rc i j m.
Proof.
  intros Hw Hrc Hp Hi j m. unfold pairs_of. rewrite in_flat_map. split.
  - intros (j' & Hj & H). apply in_map_iff in H as (m' & E & H). injection E as -> ->.
    apply in_seq in Hj. unfold hits_of in H. apply filter_In in H as [H1 H2].
    apply (ok_spec s rc i j ai (at_ s j) m Hrc) in H2 as [H2 H3].
    exists ai, (at_ s j). split; auto. split; [apply nth_error_at; lia|]. split; [apply (imgs_nonperiodic s pbc); auto|]. auto.
  - intros (ai' & aj & Ei & Ej & Hm & Hs & Hn). rewrite Hi in Ei. injection Ei as <-.
    exists j. split. { apply in_seq. assert (j < length (s_atoms s))%nat by (apply nth_error_Some; congruence). lia. }
    apply in_map_iff. exists m. split; auto. unfold hits_of. apply filter_In. rewrite (at_nth s j aj Ej). split.
    + apply (searched_complete fuel s rc pbc ai aj m); auto; eapply nth_error_In; eauto.
    + apply ok_spec; auto.
Qed.
Lemma nbs_pairs s rc pbc i ri : nbs_of s rc pbc i ri (length (s_atoms s)) =
  map (fun p => mk s (fst p) (a_element (at_ s (fst p))) ri (a_r (at_ s (fst p))) (snd p)) (pairs_of s rc pbc i ri).
Proof.
  unfold nbs_of, pairs_of. induction (seq 0 (length (s_atoms s))) as [|j l IH]; simpl; auto.
  rewrite map_app, map_map, IH. reflexivity.
Qed.

Lemma Forall2_map_r {A B} (P : A -> B -> Prop) (f : A -> B) l : (forall x, In x l -> P x (f x)) -> Forall2 P l (map f l).
Proof. induction l; intros H; simpl; constructor; [apply H; simpl; auto|apply IHl; intros; apply H; simpl; auto]. Qed.

Lemma stored_list fuel s rc pbc i ai : wrapped s -> 0 <= rc -> copies_for fuel s rc = Some pbc ->
  nth_error (s_atoms s) i = Some ai ->
  exists L, NoDup L /\ (forall j m, In (j, m) L <-> in_range s rc i j m) /\
    Forall2 (stored s ai) L (nbs_of s rc pbc i (a_r ai) (length (s_atoms s))).
Proof.
  intros Hw Hrc Hp Hi. exists (pairs_of s rc pbc i (a_r ai)). split; [apply NoDup_pairs|]. split; [eapply pairs_spec; eauto|].
  rewrite nbs_pairs. apply Forall2_map_r. intros [j m] H. apply (pairs_spec fuel s rc pbc i ai Hw Hrc Hp Hi) in H as (ai' & aj & Ei & Ej & _).
  exists aj. cbn [fst snd]. rewrite (at_nth s j aj Ej). unfold mk; cbn. rewrite pair_dr_displacement. auto 10.
Qed.
