(** Environments: they exist, depend only on atoms within the cutoff, and near a
    structure they are moved copies of the list in the structure. *)
From Coq Require Import Reals Lra ZArith List Lia Bool Arith Permutation.
From Coquelicot Require Import Coquelicot.
From Coq Require Import List.
From Verif Require Import Base.RealBase Base.Vec3 Base.SumR Model.NeuralNetwork Model.CutoffFunction Model.CompactScreening
  Model.Geometry Model.NeighborList Model.SymFunctions Model.Scaling
  Spec.GeometrySpec Spec.NeighborSpec Spec.CompactSpec Spec.SymSpec Spec.NetworkSpec Spec.ForceSpec
  Proofs.CutoffProofs Proofs.GeometryProofs Proofs.NeighborProofs Proofs.NeighborMore Proofs.SymInv.
Import ListNotations.
Local Open Scope R_scope.

(** ** Locality *)
Definition within (rc : R) (n : nat * vec) : bool := if Rle_dec (norm (snd n)) rc then true else false.
Lemma within_false rc n : within rc n = false -> rc < norm (snd n).
Proof. unfold within. destruct (Rle_dec _ _); [discriminate|lra]. Qed.
Lemma within_true rc n : within rc n = true <-> norm (snd n) <= rc.
Proof. unfold within. destruct (Rle_dec _ _); split; auto; congruence. Qed.

Lemma rsum_drop {A} (p : A -> bool) (f : A -> R) l : (forall x, In x l -> p x = false -> f x = 0) ->
  rsum (map f l) = rsum (map f (filter p l)).
Proof.
  intros H. rewrite rsum_filter. apply rsum_ext. intros x Hx. destruct (p x) eqn:E; auto.
Qed.
Lemma pair_sum_drop {A} (p : A -> bool) (f : A -> A -> R) l :
  (forall x y, p x = false -> f x y = 0) -> (forall x y, p y = false -> f x y = 0) ->
  pair_sum f l = pair_sum f (filter p l).
Proof.
  intros H1 H2. induction l as [|x l IH]; cbn [pair_sum filter]; auto.
  rewrite IH. destruct (p x) eqn:E.
  - cbn [pair_sum]. f_equal. apply rsum_drop. auto.
  - rewrite rsum_zero by auto. ring.
Qed.
Lemma cutoff_beyond fc rc r : cutoff_setup fc rc -> rc < r -> cf_f fc r = 0.
Proof. intros (Hrc & t & al & E) H. apply (proj1 (cf_outside _ _ _ _ E r ltac:(lra))). Qed.
Lemma support_beyond l r f x : r < x -> on_support l r f x = 0.
Proof. intros H. unfold on_support. destruct (Rlt_dec l x); auto. destruct (Rlt_dec x r); auto. lra. Qed.

Lemma sf_value_within Z k rc e : admissible k -> cutoff_of k <= rc -> sf_value Z k e = sf_value Z k (filter (within rc) e).
Proof.
  intros Ha Hrc.
  assert (R1 : forall (v : vec -> R) e1, (forall x, rc < norm x -> v x = 0) ->
     radial_sum (only e1 v) e = radial_sum (only e1 v) (filter (within rc) e)).
  { intros v e1 H. apply rsum_drop. intros x _ Hx. unfold only. destruct (Nat.eqb _ _); auto. apply H. now apply within_false. }
  assert (R2 : forall (v : vec -> R), (forall x, rc < norm x -> v x = 0) ->
     radial_sum (weighted Z v) e = radial_sum (weighted Z v) (filter (within rc) e)).
  { intros v H. apply rsum_drop. intros x _ Hx. unfold weighted. rewrite H by now apply within_false. ring. }
  assert (P1 : forall (v : vec -> vec -> R) e1 e2, (forall x y, rc < norm x \/ rc < norm y -> v x y = 0) ->
     pair_sum (only_pair e1 e2 v) e = pair_sum (only_pair e1 e2 v) (filter (within rc) e)).
  { intros v e1 e2 H. apply pair_sum_drop; intros x y Hx; unfold only_pair; destruct (_ || _)%bool; auto; apply H;
      [left|right]; now apply within_false. }
  assert (P2 : forall (v : vec -> vec -> R), (forall x y, rc < norm x \/ rc < norm y -> v x y = 0) ->
     pair_sum (weighted_pair Z v) e = pair_sum (weighted_pair Z v) (filter (within rc) e)).
  { intros v H. apply pair_sum_drop; intros x y Hx; unfold weighted_pair; rewrite H; try ring; [left|right]; now apply within_false. }
  destruct k; cbn [sf_value cutoff_of admissible] in *; try apply Rmult_eq_compat_l;
    first [apply R1|apply R2|apply P1|apply P2].
  all: try (intros x Hx; first [unfold radial_gauss; rewrite (cutoff_beyond _ _ _ Ha) by lra; ring
       | unfold radial_compact; apply support_beyond; lra]).
  all: intros x y Hxy; try destruct Ha as [Ha _].
  all: unfold angular_gauss_narrow, angular_gauss_wide, angular_compact_narrow, angular_compact_wide, rad_compact; cbv zeta.
  all: destruct Hxy as [H|H]; first [ rewrite (cutoff_beyond _ _ (norm x) Ha) by lra; ring
    | rewrite (cutoff_beyond _ _ (norm y) Ha) by lra; ring
    | rewrite (support_beyond _ _ _ (norm x)) by lra; ring | rewrite (support_beyond _ _ _ (norm y)) by lra; ring ].
Qed.

(** ** Existence *)
Lemma bound_int' (g p x : R) (z : Z) : 0 < p -> Rabs (g + IZR z) * p <= x ->
  exists K : nat, True /\ Rabs (IZR z) <= Rabs g + x / p.
Proof.
  intros Hp H. exists 0%nat. split; auto.
  assert (Rabs (g + IZR z) <= x / p). { apply (Rmult_le_reg_r p); auto. unfold Rdiv. rewrite Rmult_assoc, Rinv_l by lra. lra. }
  replace (IZR z) with ((g + IZR z) - g) by ring. unfold Rminus. eapply Rle_trans; [apply Rabs_triang|]. rewrite Rabs_Ropp. lra.
Qed.
Lemma int_below (z : Z) B : Rabs (IZR z) <= B -> (- Z.of_nat (Z.to_nat (up B)) <= z <= Z.of_nat (Z.to_nat (up B)))%Z.
Proof.
  intros H. destruct (archimed B) as [H1 _]. pose proof (Rabs_pos (IZR z)).
  assert (0 < up B)%Z by (apply lt_IZR; lra). rewrite Z2Nat.id by lia.
  pose proof (Rle_abs (IZR z)). pose proof (Rle_abs (- IZR z)). rewrite Rabs_Ropp in *.
  split; apply le_IZR; rewrite ?opp_IZR; lra.
Qed.
Lemma images_bounded box v rc : det box <> 0 -> exists pbc, forall m, norm (vadd v (lattice box m)) <= rc -> searched pbc m.
Proof.
  intros Hd. set (g := matvec (calculateInverseBox box) v). assert (E : v = combine box g) by (symmetry; apply inv_right; auto).
  pose proof (projections_pos box Hd) as P. destruct (projections box) as [[pa pb] pc] eqn:Ep. destruct P as (A & B & C).
  exists (Z.to_nat (up (Rabs (vx g) + rc / pa)), Z.to_nat (up (Rabs (vy g) + rc / pb)), Z.to_nat (up (Rabs (vz g) + rc / pc))).
  intros [[x y] z] Hn. rewrite E in Hn.
  set (s' := mkVec (vx g + IZR x) (vy g + IZR y) (vz g + IZR z)).
  assert (E' : vadd (combine box g) (lattice box (x, y, z)) = combine box s') by (unfold lattice, combine, s'; vring).
  rewrite E' in Hn. pose proof (frac_bound box s' Hd) as F. rewrite Ep in F. destruct F as (Fa & Fb & Fc). cbn [vx vy vz s'] in *.
  unfold searched. repeat split; apply int_below;
    first [ destruct (bound_int' (vx g) pa rc x) as (_ & _ & H); auto; lra
          | destruct (bound_int' (vy g) pb rc y) as (_ & _ & H); auto; lra
          | destruct (bound_int' (vz g) pc rc z) as (_ & _ & H); auto; lra ].
Qed.
Lemma in_range_enum s rc i : (s_periodic s = true -> det (s_box s) <> 0) ->
  exists L, NoDup L /\ forall j m, In (j, m) L <-> in_range s rc i j m.
Proof.
  intros Hd. destruct (nth_error (s_atoms s) i) as [ai|] eqn:Ei.
  2:{ exists []. split; [constructor|]. intros j m. split; [intros []|]. intros (ai & aj & E & _). congruence. }
  destruct (Rlt_dec rc 0) as [Hrc|Hrc].
  { exists []. split; [constructor|]. intros j m. split; [intros []|]. intros (ai' & aj & _ & _ & _ & _ & H).
    pose proof (norm_nonneg (displacement s ai' aj m)). lra. }
  assert (H : forall n, exists L, NoDup L /\ forall j m, In (j, m) L <-> (j < n)%nat /\ in_range s rc i j m).
  { induction n as [|n (L & L1 & L2)].
    - exists []. split; [constructor|]. intros j m. split; [intros []|]. intros (H & _). lia.
    - destruct (nth_error (s_atoms s) n) as [aj|] eqn:Ej.
      + assert (X : exists pbc, forall m, (s_periodic s = false -> m = (0,0,0)%Z) -> norm (displacement s ai aj m) <= rc -> searched pbc m).
        { destruct (s_periodic s).
          - destruct (images_bounded (s_box s) (vsub (a_r ai) (a_r aj)) rc (Hd eq_refl)) as (pbc & X). exists pbc.
            intros m _ H. apply X. now rewrite <- displacement_sum.
          - exists (0,0,0)%nat. intros m H _. rewrite (H eq_refl). simpl. lia. }
        destruct X as (pbc & X).
        set (q := fun m : image => (ok s rc i n (a_r ai) (a_r aj) m && (s_periodic s || let '(x, y, z) := m in (Z.eqb x 0 && Z.eqb y 0 && Z.eqb z 0)%bool))%bool).
        assert (Q : forall m, q m = true <-> ok s rc i n (a_r ai) (a_r aj) m = true /\ (s_periodic s = false -> m = (0,0,0)%Z)).
        { intros [[x y] z]. unfold q. rewrite andb_true_iff. destruct (s_periodic s); cbn [orb].
          - split; intros [A _]; split; auto; discriminate.
          - rewrite !andb_true_iff, !Z.eqb_eq. split; intros [A B]; split; auto.
            + intros _. destruct B as ((-> & ->) & ->). reflexivity.
            + specialize (B eq_refl). injection B as -> -> ->. auto. }
        exists (L ++ map (pair n) (filter q (images pbc))). split.
        { apply NoDup_app'; auto.
          - apply NoDup_map_inj; [congruence|]. apply NoDup_filter, NoDup_images.
          - intros [j m] H1 H2. apply L2 in H1 as [H1 _]. apply in_map_iff in H2 as (m' & E & _). injection E as <- <-. lia. }
        intros j m. rewrite in_app_iff, L2, in_map_iff. split.
        * intros [[H1 H2]|(m' & E & H)]; [split; auto; lia|]. injection E as <- <-. apply filter_In in H as [_ H].
          apply Q in H as [H H']. apply ok_spec in H as [H1 H2]; [|lra]. split; [lia|]. exists ai, aj. auto.
        * intros [H1 H2]. destruct (Nat.eq_dec j n) as [->|Hn]; [right|left; split; auto; lia].
          destruct H2 as (ai' & aj' & E1 & E2 & H3 & H4 & H5). rewrite Ei in E1. injection E1 as <-. rewrite Ej in E2. injection E2 as <-.
          exists m. split; auto. apply filter_In. split; [apply in_images; auto|]. apply Q. split; auto. apply ok_spec; auto. lra.
      + exists L. split; auto. intros j m. rewrite L2. split; intros [H1 H2]; split; auto.
        destruct (Nat.eq_dec j n) as [->|]; [|lia]. destruct H2 as (ai' & aj' & _ & E & _). congruence. }
  destruct (H (length (s_atoms s))) as (L & L1 & L2). exists L. split; auto. intros j m. rewrite L2. split; [tauto|].
  intros R. split; auto. destruct R as (_ & aj & _ & E & _). apply nth_error_Some. congruence.
Qed.

(** ** Environments as lists *)
Definition view (s : structure) (i : nat) (p : nat * image) : nat * vec :=
  (a_element (at_ s (fst p)), displacement s (at_ s i) (at_ s (fst p)) (snd p)).
Lemma seen_view s i L e : Forall2 (seen_from s i) L e -> e = map (view s i) L.
Proof.
  induction 1 as [|p n L e H _ IH]; auto. cbn [map]. rewrite <- IH. f_equal.
  destruct H as (ai & aj & Ei & Ej & ->). unfold view. now rewrite (at_nth s i ai Ei), (at_nth s _ aj Ej).
Qed.
Lemma view_seen s rc i L : (forall p, In p L -> in_range s rc i (fst p) (snd p)) -> Forall2 (seen_from s i) L (map (view s i) L).
Proof.
  intros H. apply Forall2_map_r. intros p Hp. destruct (H p Hp) as (ai & aj & Ei & Ej & _). exists ai, aj. split; auto. split; auto.
  unfold view. now rewrite (at_nth s i ai Ei), (at_nth s _ aj Ej).
Qed.
Lemma neighbourhood_exists s rc i : (s_periodic s = true -> det (s_box s) <> 0) -> exists e, neighbourhood s rc i e.
Proof.
  intros Hd. destruct (in_range_enum s rc i Hd) as (L & L1 & L2). exists (map (view s i) L), L. split; auto. split; auto.
  apply (view_seen s rc). intros [j m] Hp. now apply L2.
Qed.
Lemma neighbourhood_unique s rc i e e' : neighbourhood s rc i e -> neighbourhood s rc i e' -> Permutation e e'.
Proof.
  intros (L & L1 & L2 & L3) (L' & L1' & L2' & L3'). rewrite (seen_view _ _ _ _ L3), (seen_view _ _ _ _ L3').
  apply Permutation_map. apply NoDup_Permutation; auto. intros [j m]. now rewrite L2, L2'.
Qed.

Lemma sf_input_permut Z fs e e' k : Permutation e e' -> sf_input Z fs e k = sf_input Z fs e' k.
Proof. intros H. unfold sf_input. destruct (nth_error fs k); auto. now rewrite (sf_value_permut Z _ e e' H). Qed.

Lemma evaluate_ext net G H : (forall k, G k = H k) -> getOutput (NetworkSpec.evaluate net G) 0 = getOutput (NetworkSpec.evaluate net H) 0.
Proof.
  intros E. f_equal. unfold NetworkSpec.evaluate. f_equal. unfold setInput.
  apply Loop.for_up_ext. intros i s _. now rewrite E.
Qed.
Lemma atomic_energy_permut Z fs net e e' : Permutation e e' -> atomic_energy Z fs net e = atomic_energy Z fs net e'.
Proof. intros H. apply evaluate_ext. intros k. now apply sf_input_permut. Qed.

Lemma choose_list {A} (P : nat -> A -> Prop) n : (forall i, (i < n)%nat -> exists x, P i x) ->
  exists l, length l = n /\ forall i x, nth_error l i = Some x -> P i x.
Proof.
  induction n as [|n IH]; intros H.
  - exists []. split; auto. intros [|i] x; discriminate.
  - destruct IH as (l & L & F). { intros i Hi. apply H. lia. } destruct (H n ltac:(lia)) as (x & Hx).
    exists (l ++ [x]). split; [rewrite app_length; cbn; lia|]. intros i y Hy. destruct (Nat.lt_ge_cases i n) as [Hi|Hi].
    + rewrite nth_error_app1 in Hy by lia. auto.
    + rewrite nth_error_app2 in Hy by lia. destruct (i - length l)%nat as [|q] eqn:E.
      * injection Hy as <-. replace i with n by lia. auto.
      * destruct q; discriminate.
Qed.
Theorem energy_exists P rc s : (s_periodic s = true -> det (s_box s) <> 0) -> exists E, has_energy P rc s E.
Proof.
  intros Hd. destruct (choose_list (neighbourhood s rc) (length (s_atoms s))) as (es & L & F).
  { intros i _. now apply neighbourhood_exists. }
  eexists. exists es. repeat split; auto.
Qed.
Lemma rsum_combine {A B} (f : A * B -> R) l es es' : length es = length l -> length es' = length l ->
  (forall i x e e', nth_error l i = Some x -> nth_error es i = Some e -> nth_error es' i = Some e' -> f (x, e) = f (x, e')) ->
  rsum (map f (List.combine l es)) = rsum (map f (List.combine l es')).
Proof.
  revert es es'. induction l as [|x l IH]; intros [|e es] [|e' es']; cbn; try discriminate; auto. intros L L' H.
  rewrite (H 0%nat x e e') by reflexivity. f_equal. apply IH; auto. intros i y a a' Hy Ha Ha'. apply (H (S i)); auto.
Qed.
Theorem energy_unique P rc s E E' : has_energy P rc s E -> has_energy P rc s E' -> E = E'.
Proof.
  intros (es & L & F & ->) (es' & L' & F' & ->). apply rsum_combine; auto.
  intros i x e e' Hx He He'. cbn [fst snd]. apply atomic_energy_permut. eapply neighbourhood_unique; eauto.
Qed.

(** ** Moving the atoms *)
Lemma displaced_atom u t s i : nth_error (s_atoms (displaced u t s)) i =
  option_map (fun a => mkAtom (a_element a) (vadd (a_r a) (smul t (u i))) (a_hasNL a) (a_sorted a) (a_numN a)
                                  (a_numU a) (a_perEl a) (a_unique a) (a_nbs a) (a_cutoffs a)) (nth_error (s_atoms s) i).
Proof. unfold displaced, set_atoms; cbn [s_atoms]. rewrite nth_error_mapi. reflexivity. Qed.
Lemma displaced_length u t s : length (s_atoms (displaced u t s)) = length (s_atoms s).
Proof. unfold displaced, set_atoms; cbn [s_atoms]. apply mapi_length. Qed.

Definition moved_env (u : nat -> vec) (i : nat) (t : R) (nbs : list neighbor) : env :=
  map (fun n => (nb_element n, vadd (nb_dr n) (smul t (vsub (u i) (u (nb_index n)))))) nbs.

Lemma finite_gap {A} (f : A -> R) rc (l : list A) : exists g, 0 < g /\ forall x, In x l -> rc < f x -> rc + g <= f x.
Proof.
  induction l as [|x l (g & Hg & H)].
  - exists 1. split; [lra|]. intros x [].
  - destruct (Rlt_dec rc (f x)) as [Hx|Hx].
    + exists (Rmin g (f x - rc)). split; [apply Rmin_pos; lra|]. intros y [<-|Hy] Hr.
      * pose proof (Rmin_r g (f x - rc)). lra.
      * pose proof (Rmin_l g (f x - rc)). specialize (H y Hy Hr). lra.
    + exists g. split; auto. intros y [<-|Hy] Hr; [lra|auto].
Qed.
Lemma range_gap s rc n : (s_periodic s = true -> det (s_box s) <> 0) -> exists g, 0 < g /\
  forall i j m ai aj, (i < n)%nat -> nth_error (s_atoms s) i = Some ai -> nth_error (s_atoms s) j = Some aj ->
    (s_periodic s = false -> m = (0,0,0)%Z) -> (i, (0,0,0)%Z) <> (j, m) ->
    rc < norm (displacement s ai aj m) -> rc + g <= norm (displacement s ai aj m).
Proof.
  intros Hd. induction n as [|n (g & Hg & H)].
  - exists 1. split; [lra|]. intros; lia.
  - destruct (in_range_enum s (rc + 1) n Hd) as (L & _ & L2).
    destruct (finite_gap (fun p => norm (snd (view s n p))) rc L) as (g' & Hg' & H').
    exists (Rmin g (Rmin g' 1)). pose proof (Rmin_l g (Rmin g' 1)). pose proof (Rmin_r g (Rmin g' 1)).
    pose proof (Rmin_l g' 1). pose proof (Rmin_r g' 1).
    split. { repeat apply Rmin_pos; lra. }
    intros i j m ai aj Hi Ei Ej Hm Hs Hr. destruct (Nat.eq_dec i n) as [->|Hn].
    + destruct (Rle_dec (norm (displacement s ai aj m)) (rc + 1)) as [Hl|Hl]; [|lra].
      assert (Hin : In (j, m) L) by (apply L2; exists ai, aj; auto).
      specialize (H' (j, m) Hin). unfold view in H'. cbn [fst snd] in H'.
      rewrite (at_nth s n ai Ei), (at_nth s j aj Ej) in H'. specialize (H' Hr). lra.
    + specialize (H i j m ai aj ltac:(lia) Ei Ej Hm Hs Hr). lra.
Qed.
Lemma shift_bound (u : nat -> vec) n : exists U, 0 < U /\ forall i j, (i < n)%nat -> (j < n)%nat -> norm (vsub (u i) (u j)) <= U.
Proof.
  assert (X : exists U, 0 < U /\ forall i, (i < n)%nat -> norm (u i) <= U).
  { induction n as [|n (U & HU & H)].
    - exists 1. split; [lra|]. intros; lia.
    - exists (U + norm (u n)). pose proof (norm_nonneg (u n)). split; [lra|]. intros i Hi.
      destruct (Nat.eq_dec i n) as [->|]; [lra|]. specialize (H i ltac:(lia)). lra. }
  destruct X as (U & HU & H). exists (U + U). split; [lra|]. intros i j Hi Hj.
  replace (vsub (u i) (u j)) with (vadd (u i) (vopp (u j))) by vring.
  eapply Rle_trans; [apply norm_triangle|]. rewrite norm_opp. specialize (H i Hi) as A. specialize (H j Hj) as B. lra.
Qed.

Theorem near_environment u s rc : (s_periodic s = true -> det (s_box s) <> 0) -> exists d, 0 < d /\
  forall t, Rabs t < d -> forall i L0 e, (i < length (s_atoms s))%nat ->
    NoDup L0 -> (forall j m, In (j, m) L0 <-> in_range s rc i j m) ->
    neighbourhood (displaced u t s) rc i e ->
    Permutation e (filter (within rc) (map (view (displaced u t s) i) L0)).
Proof.
  intros Hd. set (n := length (s_atoms s)).
  destruct (range_gap s rc n Hd) as (g & Hg & G). destruct (shift_bound u n) as (U & HU & S).
  exists (g / U). split; [apply Rdiv_lt_0_compat; auto|]. intros t Ht i L0 e Hi N0 H0 (L & L1 & L2 & L3).
  assert (HtU : Rabs t * U < g). { apply (Rmult_lt_compat_r U) in Ht; auto. unfold Rdiv in Ht. rewrite Rmult_assoc, Rinv_l in Ht by lra. lra. }
  rewrite (seen_view _ _ _ _ L3). clear e L3.
  set (st := displaced u t s) in *.
  assert (F : forall (f : nat * image -> nat * vec) p l, filter p (map f l) = map f (filter (fun x => p (f x)) l)).
  { intros f p l. induction l as [|x l IH]; cbn; auto. destruct (p (f x)); cbn; now rewrite IH. }
  rewrite F. apply Permutation_map.
  assert (Hdisp : forall i j ai aj m, nth_error (s_atoms s) i = Some ai -> nth_error (s_atoms s) j = Some aj ->
     exists ai' aj', nth_error (s_atoms st) i = Some ai' /\ nth_error (s_atoms st) j = Some aj' /\
       displacement st ai' aj' m = vadd (displacement s ai aj m) (smul t (vsub (u i) (u j)))).
  { intros i' j ai aj m Ei Ej. unfold st. rewrite !displaced_atom, Ei, Ej. cbn [option_map]. do 2 eexists.
    split; [reflexivity|]. split; [reflexivity|]. unfold displacement, position_of_image; cbn [a_r].
    change (s_box (displaced u t s)) with (s_box s). vring. }
  apply NoDup_Permutation; [auto|apply NoDup_filter; auto|].
  intros [j m]. rewrite filter_In, L2, H0, within_true. cbn [fst snd]. split.
  - intros (bi & bj & Ebi & Ebj & Hm & Hs & Hr). unfold st in Ebi, Ebj. rewrite displaced_atom in Ebi, Ebj.
    destruct (nth_error (s_atoms s) i) as [ai|] eqn:Ei; [|discriminate]. destruct (nth_error (s_atoms s) j) as [aj|] eqn:Ej; [|discriminate].
    cbn in Ebi, Ebj. destruct (Hdisp i j ai aj m Ei Ej) as (bi' & bj' & Ebi' & Ebj' & D).
    unfold view. cbn [fst snd]. rewrite (at_nth st i bi' Ebi'), (at_nth st j bj' Ebj').
    assert (bi = bi'). { unfold st in Ebi'. rewrite displaced_atom, Ei in Ebi'. cbn in Ebi'. congruence. } subst bi'.
    assert (bj = bj'). { unfold st in Ebj'. rewrite displaced_atom, Ej in Ebj'. cbn in Ebj'. congruence. } subst bj'.
    split; auto. exists ai, aj. split; auto. split; auto. split; auto. split; auto.
    destruct (Rle_dec (norm (displacement s ai aj m)) rc) as [|Hn]; auto. exfalso.
    assert (Hj : (j < n)%nat) by (apply nth_error_Some; congruence).
    specialize (G i j m ai aj Hi Ei Ej Hm Hs ltac:(lra)). rewrite D in Hr.
    assert (norm (displacement s ai aj m) <= norm (vadd (displacement s ai aj m) (smul t (vsub (u i) (u j)))) + Rabs t * U).
    { replace (displacement s ai aj m) with (vadd (vadd (displacement s ai aj m) (smul t (vsub (u i) (u j)))) (vopp (smul t (vsub (u i) (u j))))) at 1 by vring.
      eapply Rle_trans; [apply norm_triangle|]. rewrite norm_opp, norm_smul. apply Rplus_le_compat_l.
      apply Rmult_le_compat_l; [apply Rabs_pos|]. apply S; auto. }
    lra.
  - intros [(ai & aj & Ei & Ej & Hm & Hs & Hr) Hw]. destruct (Hdisp i j ai aj m Ei Ej) as (bi & bj & Ebi & Ebj & D).
    exists bi, bj. split; auto. split; auto. split; auto. split; auto.
    unfold view in Hw. cbn [fst snd] in Hw. rewrite (at_nth st i bi Ebi), (at_nth st j bj Ebj) in Hw. auto.
Qed.

(** The same for the stored list. *)
Lemma stored_view u t s i ai L nbs : nth_error (s_atoms s) i = Some ai -> Forall2 (stored s ai) L nbs ->
  moved_env u i t nbs = map (view (displaced u t s) i) L.
Proof.
  intros Ei. induction 1 as [|p n L nbs H _ IH]; auto. cbn [map moved_env]. unfold moved_env in IH. rewrite IH. f_equal.
  destruct H as (aj & Ej & H1 & _ & H3 & H4 & _). unfold view.
  assert (Ei' := displaced_atom u t s i). assert (Ej' := displaced_atom u t s (fst p)). rewrite Ei in Ei'. rewrite Ej in Ej'.
  cbn [option_map] in Ei', Ej'. rewrite (at_nth _ _ _ Ei'), (at_nth _ _ _ Ej'). cbn [a_element]. rewrite H3. f_equal.
  rewrite H4, H1. unfold displacement, position_of_image. cbn [a_r]. change (s_box (displaced u t s)) with (s_box s). vring.
Qed.
