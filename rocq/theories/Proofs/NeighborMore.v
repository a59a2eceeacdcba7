(** Final forms of the neighbor list lemmas. *)
From Coq Require Import Reals Lra ZArith List Lia Bool Arith Permutation Sorted.
From Verif Require Import Base.Vec3 Model.Geometry Model.NeighborList Spec.GeometrySpec Spec.NeighborSpec
  Proofs.GeometryProofs Proofs.NeighborProofs.
Import ListNotations.
Local Open Scope R_scope.

Definition result (s : structure) (rc : R) pbc (i : nat) (a a' : atom) : Prop :=
  a_hasNL a' = true /\ a_r a' = a_r a /\ a_element a' = a_element a /\ a_cutoffs a' = a_cutoffs a /\
  Permutation (a_nbs a') (nbs_of s rc pbc i (a_r a) (length (s_atoms s))) /\
  a_numN a' = length (a_nbs a') /\
  length (a_perEl a') = length (a_perEl a) /\
  (forall e, nth e (a_perEl a') 0%nat = (nth e (a_perEl a) 0 + count_el e (a_nbs a'))%nat) /\
  a_unique a' = i :: uniq_of s rc pbc i (a_r a) (length (s_atoms s)) /\
  a_numU a' = length (a_unique a').

Lemma count_el_perm e l l' : Permutation l l' -> count_el e l = count_el e l'.
Proof.
  unfold count_el. intros H. induction H; simpl; auto; repeat destruct (Nat.eqb e _); simpl; auto; congruence.
Qed.

Lemma calculate_spec nsort fuel rc b s s' : is_sort nsort -> no_list s ->
  calculateNeighborList nsort fuel rc b s = Some s' ->
  exists pbc, copies_for fuel s (Rmax rc (s_maxrc s)) = Some pbc /\
   s_hasNL s' = true /\ s_periodic s' = s_periodic s /\ s_box s' = s_box s /\ s_numElements s' = s_numElements s /\ s_maxrc s' = s_maxrc s /\
   (b = true -> s_sorted s' = true) /\
   length (s_atoms s') = length (s_atoms s) /\
   forall i a, nth_error (s_atoms s) i = Some a -> exists a', nth_error (s_atoms s') i = Some a' /\
     result s (Rmax rc (s_maxrc s)) pbc i a a' /\ (b = true -> Sorted (fun x y => nb_d x <= nb_d y) (a_nbs a')).
Proof.
  intros Hs Hn H.
  destruct (copies_for fuel s (Rmax rc (s_maxrc s))) as [pbc|] eqn:Hp.
  2:{ unfold calculateNeighborList in H. fold (copies_for fuel s (Rmax rc (s_maxrc s))) in H. rewrite Hp in H. discriminate. }
  exists pbc. split; auto.
  destruct (calculate_unsorted nsort fuel rc s pbc Hn Hp) as (s0 & E0 & A1 & A2 & A3 & A4 & A5 & A6 & A7).
  assert (HR : forall i a, nth_error (s_atoms s) i = Some a -> forall a', a_hasNL a' = true ->
      atom_result s (Rmax rc (s_maxrc s)) pbc i (length (s_atoms s)) (push_unique i a) a' ->
      result s (Rmax rc (s_maxrc s)) pbc i a a').
  { intros i a Ha a' Hh (B1 & B2 & B3 & B4 & B5 & B6 & B7 & B8 & B9 & B10).
    destruct (Hn a (nth_error_In _ _ Ha)) as (N1 & N2 & N3 & N4 & _).
    unfold push_unique in *; cbn in *. rewrite N1 in B5. rewrite N2 in B9. rewrite N3 in B6. rewrite N4 in B10. cbn in *.
    unfold result. rewrite B5. repeat split; auto. rewrite B9. cbn. rewrite B10. reflexivity. }
  assert (ES : s' = if b then sortNeighborList nsort s0 else s0).
  { unfold calculateNeighborList in *. destruct (if s_periodic s then calculatePbcCopies fuel (s_box s) (Rmax rc (s_maxrc s)) else Some (0, 0, 0)%nat); [|discriminate].
    destruct (sequence _); [|discriminate]. injection E0 as <-. injection H as <-. reflexivity. }
  destruct b; subst s'.
  - cbn. do 6 (split; [auto; fail|]). split; [rewrite map_length; auto|].
    intros i a Ha. destruct (A7 i a Ha) as (a' & E & Hh & HA). exists (sort_atom nsort a'). split; [rewrite nth_error_map, E; reflexivity|].
    apply HR in HA; auto. destruct HA as (B1 & B2 & B3 & B4 & B5 & B6 & B7 & B8 & B9 & B10).
    destruct (Hs (a_nbs a')) as [P1 P2].
    split; [|intros _; exact P2]. unfold result, sort_atom; cbn. repeat split; auto.
    + rewrite P1. auto.
    + rewrite B6. symmetry. apply Permutation_length. auto.
    + intros e. rewrite B8. f_equal. apply count_el_perm. symmetry. auto.
  - do 5 (split; [auto; fail|]). split; [discriminate|]. split; [auto|]. intros i a Ha. destruct (A7 i a Ha) as (a' & E & Hh & HA). exists a'. split; auto.
    split; [apply HR; auto|discriminate].
Qed.

(** ** C21 *)
Lemma list_correct nsort fuel rc b s s' : is_sort nsort -> no_list s -> wrapped s -> 0 <= Rmax rc (s_maxrc s) ->
  calculateNeighborList nsort fuel rc b s = Some s' ->
  length (s_atoms s') = length (s_atoms s) /\
  forall i ai, nth_error (s_atoms s) i = Some ai ->
  exists ai' L nbs, nth_error (s_atoms s') i = Some ai' /\ a_r ai' = a_r ai /\ a_element ai' = a_element ai /\
    Permutation (a_nbs ai') nbs /\ Forall2 (stored s ai) L nbs /\ NoDup L /\
    (forall j m, In (j, m) L <-> in_range s (Rmax rc (s_maxrc s)) i j m).
Proof.
  intros Hs Hn Hw Hrc H. destruct (calculate_spec nsort fuel rc b s s' Hs Hn H) as (pbc & Hp & _ & _ & _ & _ & _ & _ & HL & HA).
  split; auto. intros i ai Hi. destruct (HA i ai Hi) as (ai' & E & (_ & B2 & B3 & _ & B5 & _) & _).
  destruct (stored_list fuel s (Rmax rc (s_maxrc s)) pbc i ai Hw Hrc Hp Hi) as (L & L1 & L2 & L3).
  exists ai', L, (nbs_of s (Rmax rc (s_maxrc s)) pbc i (a_r ai) (length (s_atoms s))). auto 10.
Qed.
Lemma list_terminates nsort rc b s : no_list s -> (s_periodic s = true -> det (s_box s) <> 0) ->
  exists fuel0, forall fuel, (fuel0 <= fuel)%nat -> exists s', calculateNeighborList nsort fuel rc b s = Some s'.
Proof.
  intros Hn Hd.
  assert (HC : exists fuel0, forall fuel, (fuel0 <= fuel)%nat -> exists pbc, copies_for fuel s (Rmax rc (s_maxrc s)) = Some pbc).
  { unfold copies_for. destruct (s_periodic s).
    - destruct (copies_terminate (s_box s) (Rmax rc (s_maxrc s)) (Hd eq_refl)) as (f0 & F). exists f0. intros f Hf. destruct (F f Hf) as (c & E & _). eauto.
    - exists 0%nat. eauto. }
  destruct HC as (f0 & F). exists f0. intros f Hf. destruct (F f Hf) as (pbc & Hp).
  destruct (calculate_unsorted nsort f rc s pbc Hn Hp) as (s0 & E0 & _).
  unfold calculateNeighborList in *. destruct (if s_periodic s then _ else _); [|discriminate]. destruct (sequence _); [|discriminate]. eauto.
Qed.

(** ** C22 *)
Definition vnegi (m : image) : image := let '(x, y, z) := m in (- x, - y, - z)%Z.
Lemma vnegi_invol m : vnegi (vnegi m) = m.
Proof. destruct m as [[x y] z]. simpl. now rewrite !Z.opp_involutive. Qed.
Lemma imgs_neg s pbc : Permutation (map vnegi (imgs_of s pbc)) (imgs_of s pbc).
Proof.
  apply NoDup_Permutation.
  - apply NoDup_map_inj; [|apply NoDup_imgs]. intros x y _ _ E. rewrite <- (vnegi_invol x), <- (vnegi_invol y). now rewrite E.
  - apply NoDup_imgs.
  - assert (H : forall m, In m (imgs_of s pbc) -> In (vnegi m) (imgs_of s pbc)).
    { unfold imgs_of. destruct (s_periodic s).
      - intros m. rewrite !in_images. destruct pbc as [[p0 p1] p2], m as [[x y] z]. unfold searched; simpl. lia.
      - intros m [<-|[]]. simpl. auto. }
    intros m. rewrite in_map_iff. split.
    + intros (m' & <- & Hm). auto.
    + intros Hm. exists (vnegi m). rewrite vnegi_invol. auto.
Qed.
Lemma pair_dr_neg box ri rj m : pair_dr box rj ri (vnegi m) = vopp (pair_dr box ri rj m).
Proof.
  destruct m as [[x y] z]. unfold pair_dr, vnegi. rewrite !opp_IZR.
  destruct ri, rj, box as [[] [] []]. apply vec_eq; unfold vopp, vsub, vadd, smul; simpl; ring.
Qed.
Lemma ok_neg s rc i j ri rj m : ok s rc j i rj ri (vnegi m) = ok s rc i j ri rj m.
Proof.
  unfold ok. rewrite pair_dr_neg, norm2_opp. f_equal. f_equal. destruct m as [[x y] z]. unfold is_self, vnegi.
  rewrite (Nat.eqb_sym j i). f_equal; [f_equal; [f_equal|]|]; apply eq_true_iff_eq; rewrite !Z.eqb_eq; lia.
Qed.
Lemma filter_perm {A} (f : A -> bool) l l' : Permutation l l' -> Permutation (filter f l) (filter f l').
Proof.
  intros H. induction H; simpl; auto.
  - destruct (f x); auto.
  - destruct (f x), (f y); auto. apply perm_swap.
  - eapply perm_trans; eauto.
Qed.
Lemma filter_map {A B} (f : B -> bool) (g : A -> B) l : filter f (map g l) = map g (filter (fun x => f (g x)) l).
Proof. induction l; simpl; auto. destruct (f (g a)); simpl; rewrite IHl; auto. Qed.
Lemma hits_neg s rc pbc i j : Permutation (map vnegi (hits_of s rc pbc i (a_r (at_ s i)) j)) (hits_of s rc pbc j (a_r (at_ s j)) i).
Proof.
  unfold hits_of.
  transitivity (filter (ok s rc j i (a_r (at_ s j)) (a_r (at_ s i))) (map vnegi (imgs_of s pbc))).
  - rewrite filter_map. erewrite filter_ext; [reflexivity|]. intros m. symmetry. apply ok_neg.
  - apply filter_perm, imgs_neg.
Qed.
Lemma flat_map_select {A} (f : nat -> list A) (key : A -> nat) n j : (forall k x, In x (f k) -> key x = k) -> (j < n)%nat ->
  filter (fun x => Nat.eqb (key x) j) (flat_map f (seq 0 n)) = f j.
Proof.
  intros Hk Hj.
  assert (H : forall b n, (b <= j < b + n)%nat -> filter (fun x => Nat.eqb (key x) j) (flat_map f (seq b n)) = f j).
  { clear n Hj. intros b n. revert b. 
    assert (Hnil : forall k, k <> j -> filter (fun x => Nat.eqb (key x) j) (f k) = []).
    { intros k Hkj. assert (Hk' : forall x, In x (f k) -> key x = k) by auto. revert Hk'. generalize (f k).
      induction l; intros Hl; simpl; auto. rewrite (Hl a) by (simpl; auto). apply Nat.eqb_neq in Hkj. rewrite Hkj. apply IHl. intros; apply Hl; simpl; auto. }
    assert (Hall : filter (fun x => Nat.eqb (key x) j) (f j) = f j).
    { assert (Hk' : forall x, In x (f j) -> key x = j) by auto. revert Hk'. generalize (f j).
      induction l; intros Hl; simpl; auto. rewrite (Hl a) by (simpl; auto). rewrite Nat.eqb_refl. f_equal. apply IHl. intros; apply Hl; simpl; auto. }
    assert (Hnone : forall n b, (j < b)%nat -> filter (fun x => Nat.eqb (key x) j) (flat_map f (seq b n)) = []).
    { intros k; induction k; intros b Hb; [reflexivity|]. cbn [seq flat_map]. rewrite filter_app, Hnil, IHk by lia. reflexivity. }
    induction n; intros b Hb; [lia|]. cbn [seq flat_map]. rewrite filter_app. destruct (Nat.eq_dec b j) as [->|Hne].
    - rewrite Hall, Hnone by lia. apply app_nil_r.
    - rewrite Hnil by auto. apply IHn. lia. }
  apply H. lia.
Qed.
Lemma nbs_select s rc pbc i ri j : (j < length (s_atoms s))%nat ->
  filter (fun n => Nat.eqb (nb_index n) j) (nbs_of s rc pbc i ri (length (s_atoms s))) =
  map (mk s j (a_element (at_ s j)) ri (a_r (at_ s j))) (hits_of s rc pbc i ri j).
Proof.
  intros Hj. unfold nbs_of.
  apply (flat_map_select (fun j => map (mk s j (a_element (at_ s j)) ri (a_r (at_ s j))) (hits_of s rc pbc i ri j)) nb_index); auto.
  intros k x H. apply in_map_iff in H as (m & <- & _). reflexivity.
Qed.
Lemma list_symmetric nsort fuel rc b s s' i j ai aj : is_sort nsort -> no_list s ->
  calculateNeighborList nsort fuel rc b s = Some s' ->
  nth_error (s_atoms s') i = Some ai -> nth_error (s_atoms s') j = Some aj ->
  Permutation (map nb_dr (filter (fun n => Nat.eqb (nb_index n) j) (a_nbs ai)))
              (map (fun n => vopp (nb_dr n)) (filter (fun n => Nat.eqb (nb_index n) i) (a_nbs aj))).
Proof.
  intros Hs Hn H Hi Hj. destruct (calculate_spec nsort fuel rc b s s' Hs Hn H) as (pbc & Hp & _ & _ & _ & _ & _ & _ & HL & HA).
  set (rc' := Rmax rc (s_maxrc s)) in *.
  assert (Hil : (i < length (s_atoms s))%nat) by (rewrite <- HL; apply nth_error_Some; congruence).
  assert (Hjl : (j < length (s_atoms s))%nat) by (rewrite <- HL; apply nth_error_Some; congruence).
  destruct (HA i _ (nth_error_at s i Hil)) as (ai' & Ei & (_ & _ & _ & _ & Pi & _) & _).
  destruct (HA j _ (nth_error_at s j Hjl)) as (aj' & Ej & (_ & _ & _ & _ & Pj & _) & _).
  assert (ai' = ai) by congruence. assert (aj' = aj) by congruence. subst ai' aj'.
  apply (filter_perm (fun n => Nat.eqb (nb_index n) j)) in Pi. apply (filter_perm (fun n => Nat.eqb (nb_index n) i)) in Pj.
  rewrite nbs_select in Pi, Pj by auto.
  rewrite Pi, Pj. rewrite !map_map. cbn [mk nb_dr].
  rewrite <- (hits_neg s rc' pbc i j). rewrite map_map.
  erewrite map_ext; [reflexivity|].
  intros m. cbn. rewrite pair_dr_neg, vopp_invol. reflexivity.
Qed.

(** ** C23 *)
Lemma uniq_spec s rc pbc i ri j : (forall k, (k < length (s_atoms s))%nat -> True) ->
  (In j (uniq_of s rc pbc i ri (length (s_atoms s))) <->
   j <> i /\ exists n, In n (nbs_of s rc pbc i ri (length (s_atoms s))) /\ nb_index n = j).
Proof.
  intros _. unfold uniq_of. rewrite filter_In, andb_true_iff, negb_true_iff, Nat.eqb_neq, in_seq. split.
  - intros (Hj & Hij & Hne). split; [auto|].
    destruct (hits_of s rc pbc i ri j) as [|m l] eqn:E; [discriminate|].
    exists (mk s j (a_element (at_ s j)) ri (a_r (at_ s j)) m). split; [|reflexivity].
    unfold nbs_of. apply in_flat_map. exists j. split; [apply in_seq; lia|]. rewrite E. simpl. auto.
  - intros (Hij & n & Hn & Ej). unfold nbs_of in Hn. apply in_flat_map in Hn as (j' & Hj' & Hn).
    apply in_map_iff in Hn as (m & <- & Hm). cbn in Ej. subst j'. apply in_seq in Hj'. split; [lia|]. split; [auto|].
    destruct (hits_of s rc pbc i ri j); [contradiction|reflexivity].
Qed.
Lemma counters_correct nsort fuel rc b s s' i ai' : is_sort nsort -> no_list s -> zero_counters s ->
  calculateNeighborList nsort fuel rc b s = Some s' -> nth_error (s_atoms s') i = Some ai' ->
  a_numN ai' = length (a_nbs ai') /\
  (forall e, (e < s_numElements s)%nat ->
     nth_error (a_perEl ai') e = Some (length (filter (fun n => Nat.eqb e (nb_element n)) (a_nbs ai')))) /\
  a_numU ai' = length (a_unique ai') /\
  exists U, a_unique ai' = i :: U /\ NoDup (i :: U) /\
    (forall j, In j U <-> j <> i /\ exists n, In n (a_nbs ai') /\ nb_index n = j).
Proof.
  intros Hs Hn Hz H Hi. destruct (calculate_spec nsort fuel rc b s s' Hs Hn H) as (pbc & Hp & _ & _ & _ & _ & _ & _ & HL & HA).
  assert (Hil : (i < length (s_atoms s))%nat) by (rewrite <- HL; apply nth_error_Some; congruence).
  destruct (HA i _ (nth_error_at s i Hil)) as (ai & Ei & (_ & B2 & B3 & B4 & B5 & B6 & B7 & B8 & B9 & B10) & _).
  assert (ai = ai') by congruence. subst ai.
  pose proof (nth_error_In _ _ (nth_error_at s i Hil)) as HI. pose proof (Hz _ HI) as Ez.
  split; auto. split.
  { intros e He. rewrite Ez, repeat_length in B7. rewrite (nth_error_nth' _ 0%nat) by lia. f_equal. rewrite B8, Ez.
    assert (Er : nth e (repeat 0%nat (s_numElements s)) 0%nat = 0%nat).
    { clear. revert e. induction (s_numElements s); destruct e; simpl; auto. }
    rewrite Er. reflexivity. }
  split; auto. exists (uniq_of s (Rmax rc (s_maxrc s)) pbc i (a_r (at_ s i)) (length (s_atoms s))). split; auto.
  split. { constructor; [|apply NoDup_filter, seq_NoDup]. rewrite uniq_spec by auto. tauto. }
  intros j. rewrite uniq_spec by auto. split; intros (A & n & Hn' & E); split; auto; exists n; split; auto.
  - eapply Permutation_in; [symmetry; exact B5|auto].
  - eapply Permutation_in; [exact B5|auto].
Qed.

(** Clearing. *)
Lemma resize0_length n l : length (resize0 n l) = n.
Proof. unfold resize0. rewrite app_length, firstn_length, repeat_length. lia. Qed.
Lemma resize0_id l : resize0 (length l) l = l.
Proof. unfold resize0. rewrite firstn_all, Nat.sub_diag. apply app_nil_r. Qed.
Lemma clear_no_list s : (forall a, In a (s_atoms s) -> (a_element a < s_numElements s)%nat) -> no_list (clearNeighborList s).
Proof.
  intros H a Ha. unfold clearNeighborList in *; cbn in *. apply in_map_iff in Ha as (a0 & <- & Ha0). cbn.
  rewrite resize0_id. rewrite resize0_length. auto 10.
Qed.
Lemma clear_keeps s : length (s_atoms (clearNeighborList s)) = length (s_atoms s) /\
  s_periodic (clearNeighborList s) = s_periodic s /\ s_box (clearNeighborList s) = s_box s /\
  s_maxrc (clearNeighborList s) = s_maxrc s /\
  forall i a, nth_error (s_atoms s) i = Some a -> exists a', nth_error (s_atoms (clearNeighborList s)) i = Some a' /\
    a_r a' = a_r a /\ a_element a' = a_element a.
Proof.
  cbn. rewrite map_length. repeat split; auto. intros i a Ha. rewrite nth_error_map, Ha. cbn. eexists. split; [reflexivity|]. auto.
Qed.

(** A structure of two atoms at distance 1. *)
Definition two (x : R) : structure :=
  mkStruct false (mkMat vzero vzero vzero)
    [fresh_atom 0 vzero 1; fresh_atom 0 (mkVec x 0 0) 1] 1 false false 0.
Lemma two_no_list x : no_list (two x).
Proof. intros a [<-|[<-|[]]]; cbn; auto 10. Qed.
Lemma two_wrapped x : wrapped (two x).
Proof. discriminate. Qed.
Lemma two_range x rc : Rabs x <= rc -> in_range (two x) rc 0 1 (0, 0, 0)%Z.
Proof.
  intros H. exists (fresh_atom 0 vzero 1), (fresh_atom 0 (mkVec x 0 0) 1). cbn. repeat split; auto; [discriminate|].
  unfold displacement, position_of_image; cbn. unfold lattice, combine, norm, norm2, vsub, vadd, smul; cbn.
  match goal with |- sqrt ?X <= _ => replace X with (Rsqr x) by (unfold Rsqr; ring) end. rewrite sqrt_Rsqr_abs. auto.
Qed.
Definition id_sort_exists : exists nsort, is_sort nsort.
Proof.
  exists (fix isort l := match l with [] => [] | x :: r =>
     (fix ins x l := match l with [] => [x] | y :: t => if Rle_dec (nb_d x) (nb_d y) then x :: l else y :: ins x t end) x (isort r) end).
  set (ins := fix ins x l := match l with [] => [x] | y :: t => if Rle_dec (nb_d x) (nb_d y) then x :: l else y :: ins x t end).
  intros l. induction l as [|x l [IH1 IH2]]; [split; [auto|constructor]|].
  match goal with |- Permutation ?f _ /\ _ => set (r := f) end. change r with (ins x ((fix isort l := match l with [] => [] | x :: r => ins x (isort r) end) l)).
  clear r. revert IH1 IH2. generalize ((fix isort l := match l with [] => [] | x :: r => ins x (isort r) end) l). intros t IH1 IH2.
  assert (Hp : forall t, Permutation (ins x t) (x :: t)).
  { clear. induction t as [|y t IH]; simpl; auto. destruct (Rle_dec _ _); auto. rewrite IH. apply perm_swap. }
  split; [rewrite Hp; auto|].
  assert (Hh : forall t, Sorted (fun a b => nb_d a <= nb_d b) t -> Sorted (fun a b => nb_d a <= nb_d b) (ins x t)).
  { clear. induction t as [|y t IH]; intros Hs; simpl; [constructor; auto|]. destruct (Rle_dec (nb_d x) (nb_d y)) as [Hle|Hle].
    - constructor; auto.
    - inversion Hs as [|? ? Hs' Hhd]; subst. constructor; [auto|]. destruct t as [|z t]; simpl; [constructor; lra|].
      destruct (Rle_dec (nb_d x) (nb_d z)); constructor; [lra|]. inversion Hhd; auto. }
  auto.
Qed.

Lemma Forall2_in_l {A B} (P : A -> B -> Prop) l l' x : Forall2 P l l' -> In x l -> exists y, In y l' /\ P x y.
Proof. intros H. induction H; intros HI; [contradiction|]. destruct HI as [->|HI]; [exists y; simpl; auto|]. destruct (IHForall2 HI) as (z & A1 & A2). exists z; simpl; auto. Qed.
Lemma Forall2_in_r {A B} (P : A -> B -> Prop) l l' y : Forall2 P l l' -> In y l' -> exists x, In x l /\ P x y.
Proof. intros H. induction H; intros HI; [contradiction|]. destruct HI as [->|HI]; [exists x; simpl; auto|]. destruct (IHForall2 HI) as (z & A1 & A2). exists z; simpl; auto. Qed.

(** Recomputing after clearNeighborList counts the neighbors of the previous
    list again in numNeighborsPerElement. *)
Lemma recount : exists nsort fuel rc s s1 s2 a,
  is_sort nsort /\ no_list s /\ zero_counters s /\
  calculateNeighborList nsort fuel rc false s = Some s1 /\
  calculateNeighborList nsort fuel rc false (clearNeighborList s1) = Some s2 /\
  nth_error (s_atoms s2) 0 = Some a /\
  nth 0 (a_perEl a) 0%nat <> length (filter (fun n => Nat.eqb 0 (nb_element n)) (a_nbs a)).
Proof.
  destruct id_sort_exists as [nsort Hs]. exists nsort, 0%nat, 2, (two 1).
  destruct (list_terminates nsort 2 false (two 1) (two_no_list 1)) as (f0 & F0); [discriminate|].
  assert (HF : forall s, s_periodic s = false -> forall f g, calculateNeighborList nsort f 2 false s = calculateNeighborList nsort g 2 false s).
  { intros s E f g. unfold calculateNeighborList. rewrite E. reflexivity. }
  destruct (F0 f0 (le_n _)) as (s1 & E1). rewrite (HF (two 1) eq_refl f0 0%nat) in E1.
  pose proof (calculate_spec nsort 0 2 false (two 1) s1 Hs (two_no_list 1) E1) as (pbc & Hp & _ & P1 & _ & P2 & P3 & _ & P4 & P5).
  assert (Hn2 : no_list (clearNeighborList s1)).
  { apply clear_no_list. intros a Ha. apply In_nth_error in Ha as [i Hi]. rewrite P2.
    assert (Hi2 : (i < length (s_atoms s1))%nat) by (apply nth_error_Some; congruence). rewrite P4 in Hi2. cbn in Hi2.
    destruct (P5 i _ (nth_error_at (two 1) i Hi2)) as (a' & Ea & (_ & _ & El & _) & _). assert (a' = a) by congruence. subst a'.
    rewrite El. destruct i as [|[|i]]; cbn; lia. }
  destruct (list_terminates nsort 2 false (clearNeighborList s1) Hn2) as (f1 & F1); [cbn; rewrite P1; discriminate|].
  destruct (F1 f1 (le_n _)) as (s2 & E2). rewrite (HF (clearNeighborList s1) P1 f1 0%nat) in E2.
  exists s1, s2.
  destruct (P5 0%nat _ eq_refl) as (a1 & Ea1 & (_ & _ & _ & _ & Q5 & _ & _ & Q8 & _) & _).
  pose proof (calculate_spec nsort 0 2 false _ s2 Hs Hn2 E2) as (pbc2 & Hp2 & _ & _ & _ & _ & _ & _ & R4 & R5).
  assert (Ea1' : nth_error (s_atoms (clearNeighborList s1)) 0 = Some (atom_clearNeighborList (length (resize0 (s_numElements s1) (a_perEl a1)))
     (mkAtom (a_element a1) (a_r a1) (a_hasNL a1) (a_sorted a1) (a_numN a1) (a_numU a1) (resize0 (s_numElements s1) (a_perEl a1)) (a_unique a1) (a_nbs a1) (a_cutoffs a1)))).
  { unfold clearNeighborList; cbn [s_atoms]. rewrite nth_error_map, Ea1. reflexivity. }
  destruct (R5 0%nat _ Ea1') as (a2 & Ea2 & (_ & _ & _ & _ & _ & _ & _ & T8 & _) & _).
  exists a2. split; [auto|]. split; [apply two_no_list|]. split; [intros a [<-|[<-|[]]]; reflexivity|].
  split; [auto|]. split; [auto|]. split; [auto|].
  rewrite T8. cbn [a_perEl atom_clearNeighborList]. rewrite resize0_id, P2. cbn [s_numElements two].
  assert (Hpos : (0 < nth 0 (a_perEl a1) 0)%nat).
  { rewrite Q8. cbn.
    assert (HI : exists n, In n (a_nbs a1) /\ nb_element n = 0%nat).
    { destruct (stored_list 0 (two 1) (Rmax 2 0) pbc 0 _ (two_wrapped 1) ltac:(rewrite Rmax_left; lra) Hp eq_refl) as (L & _ & L2 & L3).
      assert (HIn : In (1%nat, (0, 0, 0)%Z) L). { apply L2. apply two_range. rewrite Rmax_left, Rabs_right; lra. }
      destruct (Forall2_in_l _ _ _ _ L3 HIn) as (n & Hn & aj & Ej & _ & _ & El & _).
      exists n. split; [eapply Permutation_in; [symmetry; exact Q5|exact Hn]|]. cbn in Ej. injection Ej as <-. exact El. }
    destruct HI as (n & Hn & El). unfold count_el.
    assert (HF2 : In n (filter (fun n => Nat.eqb 0 (nb_element n)) (a_nbs a1))) by (apply filter_In; split; [auto|rewrite El; reflexivity]).
    destruct (filter _ _); [contradiction|simpl; lia]. }
  assert (Er : nth 0 (resize0 1 (a_perEl a1)) 0%nat = nth 0 (a_perEl a1) 0%nat).
  { destruct (a_perEl a1); reflexivity. }
  rewrite Er. unfold count_el. lia.
Qed.
