(** Supercells (C69). *)
From Coq Require Import Reals Lra Lia ZArith List Permutation Bool Arith.
From Coquelicot Require Import Coquelicot.
From Coq Require Import List.
From Verif Require Import Base.Vec3 Base.SumR Model.NeuralNetwork Model.Scaling Model.NeighborList Model.SymFunctions Model.SymCache Model.SymSetup
  Model.SymGroups Model.Forces Model.GroupEvaluation
  Spec.NetworkSpec Spec.GeometrySpec Spec.NeighborSpec Spec.SymSpec Spec.GroupSpec Spec.ForceSpec Spec.EvaluationSpec Spec.InvarianceSpec
  Proofs.GeometryProofs Proofs.KspaceProofs Proofs.NeighborProofs Proofs.NeighborMore Proofs.SymGrad Proofs.SymInv Proofs.SelectSetsProofs Proofs.ForceLocal Proofs.ForceProofs Proofs.GroupForces
  Proofs.Isometry Proofs.Covering Proofs.SameSystem Proofs.SymLabelled Proofs.Pull Proofs.Outcome Proofs.Invariance.
Import ListNotations.
Local Open Scope R_scope.

(** ** Cells and their numbers *)
Lemma in_cells n1 n2 n3 a b c : In (a, b, c) (cells n1 n2 n3) <->
  (0 <= a < Z.of_nat n1 /\ 0 <= b < Z.of_nat n2 /\ 0 <= c < Z.of_nat n3)%Z.
Proof.
  assert (X : forall n z, In z (map Z.of_nat (seq 0 n)) <-> (0 <= z < Z.of_nat n)%Z).
  { intros n z. rewrite in_map_iff. split.
    - intros (k & <- & H). apply in_seq in H. lia.
    - intros H. exists (Z.to_nat z). split; [lia|]. apply in_seq. lia. }
  unfold cells. rewrite !in_prod_iff, !X. tauto.
Qed.
Lemma cells_NoDup n1 n2 n3 : NoDup (cells n1 n2 n3).
Proof.
  assert (X : forall n, NoDup (map Z.of_nat (seq 0 n))).
  { intros n. apply FinFun.Injective_map_NoDup; [intros x y; lia|apply seq_NoDup]. }
  unfold cells. repeat apply list_prod_NoDup; apply X.
Qed.
Lemma cells_length n1 n2 n3 : length (cells n1 n2 n3) = (n1 * n2 * n3)%nat.
Proof. unfold cells. now rewrite !prod_length, !map_length, !seq_length. Qed.
Lemma flat_map_nth {A B} (f : A -> list B) n l k j x : (forall x, In x l -> length (f x) = n) -> nth_error l k = Some x -> (j < n)%nat ->
  nth_error (flat_map f l) (k * n + j) = nth_error (f x) j.
Proof.
  intros H. revert k. induction l as [|y l IH]; intros k Hk Hj; [destruct k; discriminate|]. destruct k as [|k]; cbn [flat_map].
  - injection Hk as ->. rewrite nth_error_app1; auto. rewrite H by now left. auto.
  - rewrite nth_error_app2 by (rewrite H by (now left); lia). rewrite H by now left. replace (S k * n + j - n)%nat with (k * n + j)%nat by lia.
    apply IH; auto. intros; apply H. now right.
Qed.
Lemma flat_map_length_const {A B} (f : A -> list B) n l : (forall x, In x l -> length (f x) = n) -> length (flat_map f l) = (length l * n)%nat.
Proof.
  intros H. induction l as [|y l IH]; cbn; auto. rewrite app_length, H by now left. rewrite IH; auto. intros; apply H. now right.
Qed.
Lemma sumn_mul m n (f : nat -> R) : sumn (m * n) f = sumn m (fun k => sumn n (fun j => f (k * n + j)%nat)).
Proof.
  induction m as [|m IH]; [reflexivity|]. unfold sumn at 2. rewrite seq_S, map_app, rsum_app. cbn [map rsum fold_right plus]. rewrite Rplus_0_r.
  fold (sumn m (fun k => sumn n (fun j => f (k * n + j)%nat))). rewrite <- IH. replace (S m * n)%nat with (m * n + n)%nat by lia.
  unfold sumn. rewrite seq_app, map_app, rsum_app. f_equal. f_equal. rewrite Nat.add_0_l.
  change (map f (seq (m * n) n) = map (fun j => f (m * n + j)%nat) (seq 0 n)).
  clear. generalize (m * n)%nat. intros a. induction n as [|n IH]; auto. rewrite !seq_S, !map_app, IH. reflexivity.
Qed.

Section Cover.
Variables n1 n2 n3 : nat.
Hypothesis Pos : (0 < n1 /\ 0 < n2 /\ 0 < n3)%nat.
Let nc := (n1 * n2 * n3)%nat.
Let cell (k : nat) : image := nth k (cells n1 n2 n3) (0, 0, 0)%Z.
Definition iscale (m : image) : image := let '(a, b, c) := m in (Z.of_nat n1 * a, Z.of_nat n2 * b, Z.of_nat n3 * c)%Z.
Definition imod (m : image) : image := let '(a, b, c) := m in (a mod Z.of_nat n1, b mod Z.of_nat n2, c mod Z.of_nat n3)%Z.
Definition idiv (m : image) : image := let '(a, b, c) := m in (a / Z.of_nat n1, b / Z.of_nat n2, c / Z.of_nat n3)%Z.
Lemma imod_cell m : In (imod m) (cells n1 n2 n3).
Proof. destruct m as [[a b] c]. apply in_cells. repeat split; apply Z.mod_pos_bound; lia. Qed.
Lemma idiv_mod m : m = iadd (iscale (idiv m)) (imod m).
Proof. destruct m as [[a b] c]. unfold iadd, iscale, idiv, imod. f_equal; [f_equal|]; apply Z.div_mod; lia. Qed.
Lemma scale_unique m m' c c' : In c (cells n1 n2 n3) -> In c' (cells n1 n2 n3) -> iadd (iscale m) c = iadd (iscale m') c' -> m = m' /\ c = c'.
Proof.
  destruct m as [[x y] z], m' as [[x' y'] z'], c as [[a b] d], c' as [[a' b'] d']. rewrite !in_cells. unfold iadd, iscale. intros H H' E.
  injection E as E1 E2 E3.
  assert (X : forall N q q' r r', (0 <= r < N)%Z -> (0 <= r' < N)%Z -> (N * q + r = N * q' + r')%Z -> q = q' /\ r = r').
  { intros N q q' r r' Hr Hr' E. apply (Z.div_mod_unique N); auto. }
  destruct (X (Z.of_nat n1) x x' a a') as [-> ->]; try tauto. destruct (X (Z.of_nat n2) y y' b b') as [-> ->]; try tauto.
  destruct (X (Z.of_nat n3) z z' d d') as [-> ->]; tauto.
Qed.
Lemma lattice_stretched b m : lattice (stretched n1 n2 n3 b) m = lattice b (iscale m).
Proof. destruct m as [[x y] z]. unfold lattice, iscale, combine, stretched. cbn. rewrite !mult_IZR, <- !INR_IZR_INZ. vring. Qed.
Lemma cell_in k : (k < nc)%nat -> In (cell k) (cells n1 n2 n3).
Proof. intros H. apply nth_In. now rewrite cells_length. Qed.
Lemma cell_number c : In c (cells n1 n2 n3) -> exists k, (k < nc)%nat /\ cell k = c.
Proof. intros H. apply In_nth with (d := (0, 0, 0)%Z) in H as (k & H1 & H2). rewrite cells_length in H1. eauto. Qed.
Lemma cell_inj k k' : (k < nc)%nat -> (k' < nc)%nat -> cell k = cell k' -> k = k'.
Proof.
  intros H H' E. apply (proj1 (NoDup_nth (cells n1 n2 n3) (0, 0, 0)%Z) (cells_NoDup n1 n2 n3)); auto; now rewrite cells_length.
Qed.

Definition covers (s s' : structure) : Prop :=
  s_periodic s = true /\ s_periodic s' = true /\ s_box s' = stretched n1 n2 n3 (s_box s) /\
  length (s_atoms s') = (nc * length (s_atoms s))%nat /\
  forall k j, (k < nc)%nat -> (j < length (s_atoms s))%nat ->
    a_element (at_ s' (k * length (s_atoms s) + j)) = a_element (at_ s j) /\
    a_r (at_ s' (k * length (s_atoms s) + j)) = vadd (a_r (at_ s j)) (lattice (s_box s) (cell k)).

Lemma supercell_covers s : s_periodic s = true -> covers s (supercell n1 n2 n3 s).
Proof.
  intros H. split; auto. split; auto. split; auto. cbn [supercell s_atoms].
  assert (X : forall c, In c (cells n1 n2 n3) -> length (map (moved_to (s_box s) c) (s_atoms s)) = length (s_atoms s)) by (intros; apply map_length).
  split; [rewrite (flat_map_length_const _ _ _ X), cells_length; auto|]. intros k j Hk Hj.
  assert (Hc : nth_error (cells n1 n2 n3) k = Some (cell k)) by (apply nth_error_nth'; now rewrite cells_length).
  assert (E : nth_error (s_atoms (supercell n1 n2 n3 s)) (k * length (s_atoms s) + j) = Some (moved_to (s_box s) (cell k) (at_ s j))).
  { cbn [supercell s_atoms]. rewrite (flat_map_nth _ _ _ k j (cell k) X Hc Hj). apply map_nth_error, at_some; auto. }
  rewrite (at_nth _ _ _ E). split; reflexivity.
Qed.
Lemma index_split n k j : (j < n)%nat -> ((k * n + j) / n = k /\ (k * n + j) mod n = j)%nat.
Proof.
  intros H. split.
  - rewrite Nat.div_add_l by lia. rewrite Nat.div_small by auto. lia.
  - rewrite Nat.add_comm, Nat.mod_add by lia. now apply Nat.mod_small.
Qed.
Lemma index_make n i : (i < nc * n)%nat -> exists k j, (k < nc)%nat /\ (j < n)%nat /\ i = (k * n + j)%nat.
Proof.
  intros H. assert (n <> 0)%nat by (intros ->; lia). exists (i / n)%nat, (i mod n)%nat. split; [apply Nat.div_lt_upper_bound; lia|].
  split; [now apply Nat.mod_upper_bound|]. rewrite (Nat.mul_comm _ n). now apply Nat.div_mod.
Qed.
Section One.
Variables s s' : structure.
Hypothesis HC : covers s s'.
Hypothesis Hdet : det (s_box s) <> 0.
Let n := length (s_atoms s).
Lemma cov_nice : nice s. Proof. intros _. exact Hdet. Qed.
Lemma cov_nice' : nice s'.
Proof.
  intros _. destruct HC as (_ & _ & -> & _). unfold stretched, det.
  replace (dot _ _) with (INR n1 * INR n2 * INR n3 * det (s_box s)).
  - destruct Pos as (P1 & P2 & P3). apply lt_0_INR in P1, P2, P3. repeat apply Rmult_integral_contrapositive_currified; auto; lra.
  - unfold det, dot, cross, smul; cbn. ring.
Qed.
Lemma cov_length : length (s_atoms s') = (nc * n)%nat. Proof. apply HC. Qed.
Lemma cov_at k j : (k < nc)%nat -> (j < n)%nat -> a_element (at_ s' (k * n + j)) = a_element (at_ s j) /\
    a_r (at_ s' (k * n + j)) = vadd (a_r (at_ s j)) (lattice (s_box s) (cell k)).
Proof. apply HC. Qed.
Lemma cov_lattice m : lattice (s_box s') m = lattice (s_box s) (iscale m).
Proof. destruct HC as (_ & _ & -> & _). apply lattice_stretched. Qed.

Definition over (k0 : nat) (q q' : nat * image) : Prop :=
  site s q /\ site s' q' /\ exists k, (k < nc)%nat /\ fst q' = (k * n + fst q)%nat /\ iadd (iscale (snd q')) (cell k0) = iadd (snd q) (cell k).
Lemma iadd_cancel a b c : iadd a c = iadd b c -> a = b.
Proof. destruct a as [[x y] z], b as [[x' y'] z'], c as [[u v] w]. unfold iadd. intros E. injection E as E1 E2 E3. f_equal; [f_equal|]; lia. Qed.
Lemma over_matches k0 i : (k0 < nc)%nat -> (i < n)%nat ->
  (forall q q', over k0 q q' -> site s q /\ site s' q') /\ (forall q, site s q -> exists q', over k0 q q') /\
  (forall q', site s' q' -> exists q, over k0 q q') /\ (forall q q1 q2, over k0 q q1 -> over k0 q q2 -> q1 = q2) /\
  (forall q1 q2 q', over k0 q1 q' -> over k0 q2 q' -> q1 = q2) /\ over k0 (i, (0, 0, 0)%Z) ((k0 * n + i)%nat, (0, 0, 0)%Z) /\
  (forall q q', over k0 q q' -> fst (view s' (k0 * n + i) q') = fst (view s i q) /\ snd (view s' (k0 * n + i) q') = snd (view s i q)).
Proof.
  intros Hk0 Hi. assert (Pr := proj1 HC). assert (Pr' := proj1 (proj2 HC)).
  split; [|split; [|split; [|split; [|split; [|split]]]]].
  - intros q q' (A & B & _). auto.
  - intros [j m] (Hj & _). cbn [fst] in Hj. set (d := isub (cell k0) m). destruct (cell_number (imod d) (imod_cell d)) as (k & Hk & Ek).
    exists ((k * n + j)%nat, isub (0, 0, 0)%Z (idiv d)). split; [split; auto; cbn; congruence|]. split.
    + split; [cbn [fst]; rewrite cov_length; fold n in Hj; nia|congruence].
    + exists k. split; auto. split; auto. cbn [snd]. rewrite Ek. pose proof (idiv_mod d) as Q. unfold d in Q at 1. clear - Q.
      destruct (idiv d) as [[x y] z], (imod d) as [[x1 y1] z1], (cell k0) as [[a b] c], m as [[u v] w].
      unfold isub, iadd, iscale in *. injection Q as Q1 Q2 Q3. f_equal; [f_equal|]; lia.
  - intros [i' m'] (Hi' & _). cbn [fst] in Hi'. rewrite cov_length in Hi'. destruct (index_make n i' Hi') as (k & j & Hk & Hj & ->).
    exists (j, isub (iadd (iscale m') (cell k0)) (cell k)). split; [split; auto; cbn; congruence|]. split; [split; [cbn [fst]; rewrite cov_length; nia|congruence]|].
    exists k. split; auto. split; auto. cbn [snd]. destruct (iadd (iscale m') (cell k0)) as [[x y] z], (cell k) as [[a b] c]. unfold isub, iadd. f_equal; [f_equal|]; lia.
  - intros q [i1 p1] [i2 p2] (_ & _ & k1 & K1 & A1 & B1) (_ & _ & k2 & K2 & A2 & B2). cbn [fst snd] in *.
    assert (X : p1 = p2 /\ cell k1 = cell k2).
    { destruct q as [j m]. cbn [snd] in *. 
      assert (Y : iadd (iscale (isub (0,0,0)%Z p1)) (cell k1) = iadd (iscale (isub (0,0,0)%Z p2)) (cell k2)).
      { destruct p1 as [[x1 y1] z1], p2 as [[x2 y2] z2], (cell k1) as [[a1 b1] c1], (cell k2) as [[a2 b2] c2], (cell k0) as [[a b] c], m as [[u v] w].
        unfold isub, iadd, iscale in *. injection B1 as X1 X2 X3. injection B2 as Y1 Y2 Y3. f_equal; [f_equal|]; lia. }
      apply scale_unique in Y as [Y1 Y2]; [|apply cell_in; auto|apply cell_in; auto]. split; auto.
      destruct p1 as [[x1 y1] z1], p2 as [[x2 y2] z2]. unfold isub in Y1. injection Y1 as. f_equal; [f_equal|]; lia. }
    destruct X as [-> X]. apply cell_inj in X; auto. subst. reflexivity.
  - intros [j1 p1] [j2 p2] [i' m'] ((Hj1 & _) & _ & k1 & K1 & A1 & B1) ((Hj2 & _) & _ & k2 & K2 & A2 & B2). cbn [fst snd] in *. fold n in Hj1, Hj2.
    assert (k1 = k2 /\ j1 = j2) as [<- <-].
    { destruct (index_split n k1 j1 Hj1) as [X1 X2]. destruct (index_split n k2 j2 Hj2) as [Y1 Y2]. rewrite <- A1 in *. rewrite <- A2 in *. split; congruence. }
    f_equal. apply (iadd_cancel _ _ (cell k1)). congruence.
  - split; [split; auto|]. split; [split; [cbn [fst]; rewrite cov_length; nia|auto]|]. exists k0. split; auto. split; auto.
    cbn [snd]. destruct (cell k0) as [[a b] c]. unfold iadd, iscale. f_equal; [f_equal|]; lia.
  - intros [j m] [i' m'] ((Hj & _) & _ & k & Hk & A & B). cbn [fst snd] in A, B, Hj. fold n in Hj. rewrite A.
    destruct (cov_at k j Hk Hj) as [E1 E2]. destruct (cov_at k0 i Hk0 Hi) as [_ E4]. rewrite !view_fst, !view_snd. cbn [fst snd]. split; auto.
    rewrite E2, E4, cov_lattice. apply (f_equal (lattice (s_box s))) in B. rewrite !lattice_iadd in B.
    transitivity (vadd (vsub (a_r (at_ s i)) (a_r (at_ s j))) (vsub (vadd (lattice (s_box s) (iscale m')) (lattice (s_box s) (cell k0))) (lattice (s_box s) (cell k)))); [vring|].
    rewrite B. vring.
Qed.
Lemma cover_neighbourhood rc k0 i e : (k0 < nc)%nat -> (i < n)%nat -> neighbourhood s rc i e -> neighbourhood s' rc (k0 * n + i) e.
Proof.
  intros Hk0 Hi He. replace e with (map (fun n => (fst n, (fun v : vec => v) (snd n))) e) by (rewrite <- (map_id e) at 2; apply map_ext; intros []; auto).
  destruct (over_matches k0 i Hk0 Hi) as (M1 & M2 & M3 & M4 & M5 & M6 & M7).
  exact (match_neighbourhood (fun v => v) s s' i (k0 * n + i) (over k0) (fun _ => eq_refl) M1 M2 M3 M4 M5 M6 M7 rc e He).
Qed.
Lemma cover_pull rc u k0 i L : (k0 < nc)%nat -> (i < n)%nat -> sites s rc i L -> exists L', sites s' rc (k0 * n + i) L' /\
  map (pull true s' (fun j => u (j mod n)%nat) (k0 * n + i)) L' = map (pull true s u i) L.
Proof.
  intros Hk0 Hi HL. destruct (over_matches k0 i Hk0 Hi) as (M1 & M2 & M3 & M4 & M5 & M6 & M7).
  destruct (match_sites (fun v => v) s s' i (k0 * n + i) (over k0) (fun _ => eq_refl) M1 M2 M3 M4 M5 M6 M7 rc L HL) as (L' & H1 & F).
  exists L'. split; auto. clear H1 HL. induction F as [|q q' L L' H _ IH]; auto. cbn [map]. rewrite IH. f_equal.
  destruct (M7 _ _ H) as [X Y]. destruct H as ((Hq & _) & _ & k & Hk & E & _). fold n in Hq. unfold pull, moving. cbn [negb andb].
  destruct (index_split n k0 i Hi) as [_ ->]. rewrite E. destruct (index_split n k (fst q) Hq) as [_ ->]. f_equal.
  rewrite (surjective_pairing (view s' (k0 * n + i) q')), X, Y. symmetry. apply surjective_pairing.
Qed.
Lemma cover_back rc i' e' : (i' < nc * n)%nat -> neighbourhood s' rc i' e' -> exists k i, (k < nc)%nat /\ (i < n)%nat /\ i' = (k * n + i)%nat /\ neighbourhood s rc i e'.
Proof.
  intros Hi He. destruct (index_make n i' Hi) as (k & i & Hk & Li & ->). exists k, i. split; auto. split; auto. split; auto.
  destruct (neighbourhood_exists s rc i cov_nice) as (e0 & H0). assert (H1 := cover_neighbourhood rc k i e0 Hk Li H0).
  eapply neighbourhood_permut; [exact H0|]. eapply neighbourhood_unique; eauto.
Qed.
Lemma cover_energies P rc en : has_atomic_energies P rc s en -> has_atomic_energies P rc s' (fun i => en (i mod n)%nat).
Proof.
  intros H i' e' Hi He. rewrite cov_length in Hi. destruct (cover_back rc i' e' Hi He) as (k & i & Hk & Li & -> & H1).
  destruct (index_split n k i Li) as [_ ->]. destruct (cov_at k i Hk Li) as [-> _]. now apply H.
Qed.
Theorem cover_energy P rc E : has_energy P rc s E -> has_energy P rc s' (INR nc * E).
Proof.
  intros HE. destruct (atomic_energies_exist P rc s cov_nice) as (en & Hen).
  assert (Hs := sum_is_energy P rc s' _ cov_nice' (cover_energies P rc en Hen)). rewrite cov_length in Hs.
  replace (INR nc * E) with (sumn (nc * n) (fun i => en (i mod n)%nat)); auto.
  rewrite sumn_mul, (energy_is_sum P rc s en E Hen HE). fold n.
  rewrite (sumn_ext nc _ (fun _ => sumn n en)).
  - clear. induction nc as [|m IH]; [cbn; lra|]. rewrite S_INR. unfold sumn in *. rewrite seq_S, map_app, rsum_app, IH. cbn [map rsum fold_right]. lra.
  - intros k Hk. apply sumn_ext. intros j Hj. now destruct (index_split n k j Hj) as [_ ->].
Qed.
Lemma cover_everywhere P rc (Q : kind -> env -> Prop) : everywhere P rc s Q -> everywhere P rc s' Q.
Proof.
  intros H i' a' e' f Ei He Hf. assert (Hi : (i' < nc * n)%nat) by (rewrite <- cov_length; apply nth_error_Some; congruence).
  destruct (cover_back rc i' e' Hi He) as (k & i & Hk & Li & -> & H1). apply (H i _ e' f (at_some s i Li) H1).
  rewrite <- (at_nth _ _ _ Ei) in Hf. destruct (cov_at k i Hk Li) as [X _]. now rewrite X in Hf.
Qed.
Lemma cover_no_self rc : no_self_image s rc -> no_self_image s' rc.
Proof.
  intros H i' m (ai & aj & Ei & Ej & _ & Hne & Hr). rewrite Ei in Ej. injection Ej as <-.
  assert (Hi : (i' < nc * n)%nat) by (rewrite <- cov_length; apply nth_error_Some; congruence).
  destruct (index_make n i' Hi) as (k & i & Hk & Li & ->). apply (H i (iscale m)). exists (at_ s i), (at_ s i).
  split; [now apply at_some|]. split; [now apply at_some|]. split; [destruct HC as (X & _); congruence|]. split.
  - intros E. injection E as E. apply Hne. f_equal. destruct m as [[a b] c]. unfold iscale in E. injection E as E1 E2 E3. f_equal; [f_equal|]; nia.
  - replace (displacement s (at_ s i) (at_ s i) (iscale m)) with (displacement s' ai ai m); auto.
    unfold displacement, position_of_image. rewrite cov_lattice. vring.
Qed.

(** Moving from one copy to another. *)
Definition shift_to (c : image) (v : vec) : vec := vadd v (lattice (s_box s) c).
Lemma shift_linear c v : linear_part (shift_to c) v = v. Proof. unfold linear_part, shift_to. vring. Qed.
Lemma moved_index (k0 k1 : nat) : (k0 < nc)%nat -> (k1 < nc)%nat -> exists h : nat -> nat, h k0 = k1 /\ (forall k, (k < nc)%nat -> (h k < nc)%nat) /\
  forall k, (k < nc)%nat -> cell (h k) = imod (iadd (cell k) (isub (cell k1) (cell k0))).
Proof.
  intros H0 H1. destruct (choose_list (fun k k' => (k' < nc)%nat /\ cell k' = imod (iadd (cell k) (isub (cell k1) (cell k0)))) nc) as (l & L & F).
  { intros k Hk. apply cell_number, imod_cell. }
  assert (G : forall k, (k < nc)%nat -> (nth k l 0 < nc)%nat /\ cell (nth k l 0%nat) = imod (iadd (cell k) (isub (cell k1) (cell k0)))).
  { intros k Hk. apply F. apply nth_error_nth'. lia. }
  exists (fun k => nth k l 0%nat). split; [|split; [apply G|apply G]].
  destruct (G k0 H0) as [X Y]. apply cell_inj; auto. rewrite Y. assert (C1 := cell_in k1 H1).
  destruct (cell k1) as [[a b] c], (cell k0) as [[a0 b0] c0]. apply in_cells in C1 as (C1 & C2 & C3). unfold iadd, isub, imod.
  f_equal; [f_equal|]; (rewrite Zplus_minus; apply Z.mod_small; auto).
Qed.
Lemma copies_same k0 k1 : (k0 < nc)%nat -> (k1 < nc)%nat -> exists c p,
  same_system (shift_to c) p s' s' /\ forall i, (i < n)%nat -> p (k0 * n + i)%nat = (k1 * n + i)%nat.
Proof.
  intros H0 H1. destruct (moved_index k0 k1 H0 H1) as (h & E & Hh & Hc). set (d := isub (cell k1) (cell k0)) in *.
  exists d, (fun i => h (i / n) * n + i mod n)%nat. split.
  - split; [intros x y; f_equal; unfold shift_to; vring|]. split; auto. split.
    { intros _. split; intros m; exists m; now rewrite shift_linear. }
    split; auto. split.
    + intros i j Hi Hj. rewrite cov_length in Hi, Hj. destruct (index_make n i Hi) as (ki & ji & Hki & Hji & ->). destruct (index_make n j Hj) as (kj & jj & Hkj & Hjj & ->).
      destruct (index_split n ki ji Hji) as [-> ->]. destruct (index_split n kj jj Hjj) as [-> ->]. intros Q.
      assert (h ki = h kj /\ ji = jj) as [Q1 ->].
      { destruct (index_split n (h ki) ji Hji) as [X1 X2]. destruct (index_split n (h kj) jj Hjj) as [Y1 Y2]. rewrite Q in *. split; congruence. }
      f_equal. f_equal. apply cell_inj; auto. apply (f_equal cell) in Q1. rewrite !Hc in Q1 by auto.
      assert (Ci := cell_in ki Hki). assert (Cj := cell_in kj Hkj).
      destruct (cell ki) as [[a b] c], (cell kj) as [[a' b'] c'], d as [[x y] z]. apply in_cells in Ci as (C1 & C2 & C3). apply in_cells in Cj as (D1 & D2 & D3).
      unfold iadd, imod in Q1. injection Q1 as Q1 Q2 Q3.
      assert (X : forall N r r' w, (0 <= r < N)%Z -> (0 <= r' < N)%Z -> ((r + w) mod N = (r' + w) mod N)%Z -> r = r').
      { clear. intros N r r' w Hr Hr' E. rewrite <- (Z.mod_small r N), <- (Z.mod_small r' N) by auto.
        replace r with (r + w - w)%Z by ring. replace r' with (r' + w - w)%Z by ring. rewrite (Zminus_mod (r + w)), (Zminus_mod (r' + w)), E. reflexivity. }
      f_equal; [f_equal|]; eauto.
    + intros i a Ha. assert (Hi : (i < nc * n)%nat) by (rewrite <- cov_length; apply nth_error_Some; congruence).
      destruct (index_make n i Hi) as (k & j & Hk & Hj & ->). destruct (index_split n k j Hj) as [-> ->].
      rewrite <- (at_nth _ _ _ Ha). destruct (cov_at k j Hk Hj) as [E1 E2]. destruct (cov_at (h k) j (Hh k Hk) Hj) as [E3 E4].
      exists (at_ s' (h k * n + j)%nat), (isub (0, 0, 0)%Z (idiv (iadd (cell k) d))).
      split; [apply at_some; rewrite cov_length; specialize (Hh k Hk); nia|]. split; [congruence|]. split.
      * rewrite E4, E2, cov_lattice, Hc by auto. unfold shift_to. pose proof (f_equal (lattice (s_box s)) (idiv_mod (iadd (cell k) d))) as Q.
        rewrite !lattice_iadd in Q.
        replace (iscale (isub (0, 0, 0)%Z (idiv (iadd (cell k) d)))) with (isub (0, 0, 0)%Z (iscale (idiv (iadd (cell k) d)))).
        2:{ destruct (idiv _) as [[x y] z]. unfold isub, iscale. f_equal; [f_equal|]; lia. }
        rewrite lattice_isub, lattice_0.
        transitivity (vadd (a_r (at_ s j)) (vsub (vadd (lattice (s_box s) (iscale (idiv (iadd (cell k) d)))) (lattice (s_box s) (imod (iadd (cell k) d)))) (lattice (s_box s) (iscale (idiv (iadd (cell k) d)))))); [vring|].
        rewrite <- Q. vring.
      * destruct HC as (_ & X & _). congruence.
  - intros i Hi. destruct (index_split n k0 i Hi) as [-> ->]. now rewrite E.
Qed.
End One.

(** ** What evaluations return *)
Section Outcomes.
Variables (s s' : structure) (P : potential) (rc E E' : R) (ys ys' : list eatom).
Hypothesis HC : covers s s'.
Hypothesis Hdet : det (s_box s) <> 0.
Hypothesis O : outcome P rc s E ys.
Hypothesis O' : outcome P rc s' E' ys'.
Let n := length (s_atoms s).
Lemma super_energy : E' = INR nc * E.
Proof. destruct O as (H & _). destruct O' as (H' & _). eapply energy_unique; [exact H'|]. eapply cover_energy; eauto. Qed.
Lemma super_at k j y : (k < nc)%nat -> nth_error ys j = Some y -> exists y', nth_error ys' (k * n + j) = Some y' /\ e_energy y' = e_energy y.
Proof.
  intros Hk Hy. destruct O as (_ & L & En & _). destruct O' as (_ & L' & En' & _).
  assert (Hj : (j < n)%nat) by (unfold n; rewrite <- L; apply nth_error_Some; congruence).
  assert (LL := cov_length s s' HC). fold n in LL.
  destruct (nth_error ys' (k * n + j)) as [y'|] eqn:Ey'; [|apply nth_error_None in Ey'; nia]. exists y'. split; auto.
  destruct (atomic_energies_exist P rc s (cov_nice s Hdet)) as (en & Hen).
  rewrite (En en j y Hen Hy). rewrite (En' _ (k * n + j)%nat y' (cover_energies s s' HC Hdet P rc en Hen) Ey'). cbv beta. fold n.
  now destruct (index_split n k j Hj) as [_ ->].
Qed.
Lemma super_force : harmless rc P s ->
  forall k j y y', (k < nc)%nat -> nth_error ys j = Some y -> nth_error ys' (k * n + j) = Some y' -> e_f y' = e_f y.
Proof.
  intros Hh k j y y' Hk Hy Hy'.
  assert (Hj : (j < n)%nat). { destruct O as (_ & L & _). unfold n. rewrite <- L. apply nth_error_Some. congruence. }
  assert (Hh' : harmless rc P s') by (destruct Hh as [H|H]; [left; eapply cover_no_self; eauto|now right]).
  assert (N' := cov_nice' s s' HC Hdet).
  (* all copies have the same force *)
  assert (Same : forall k2, (k2 < nc)%nat -> exists y2, nth_error ys' (k2 * n + j) = Some y2 /\ e_f y2 = e_f y').
  { intros k2 H2. destruct (copies_same s s' HC k k2 Hk H2) as (c & p & HS & Hp). fold n in Hp.
    destruct (super_at k2 j y H2 Hy) as (y2 & E2 & _). exists y2. split; auto.
    rewrite <- (shift_linear s c (e_f y')). apply (outcome_force (shift_to s c) p s' s' P rc E' E' ys' ys' HS N' N' O' O' (k * n + j)%nat); auto.
    now rewrite Hp. }
  apply dot_ext. intros v. set (u := fun i => if Nat.eqb i j then v else vzero).
  destruct O as (_ & L & _ & F). destruct O' as (_ & L' & _ & F').
  assert (X : work_of ys' (fun i => u (i mod n)%nat) = INR nc * work_of ys u).
  { destruct (sites_exist s rc (cov_nice s Hdet)) as (LL & HL). destruct (sites_exist s' rc N') as (LL' & HL').
    rewrite (F true (fun _ => Hh) u LL HL), (F' true (fun _ => Hh') _ LL' HL'), (cov_length s s' HC). fold n. rewrite sumn_mul.
    rewrite (sumn_ext nc _ (fun _ => sumn n (fun j => work_on P (a_element (at_ s j)) (map (pull true s u j) (LL j))))).
    - rewrite <- Ropp_mult_distr_r. f_equal. clear. induction nc as [|m IH]; [cbn; lra|]. rewrite S_INR. unfold sumn at 1. unfold sumn at 1 in IH. rewrite seq_S, map_app, rsum_app, IH. cbn [map rsum fold_right]. lra.
    - intros k2 H2. apply sumn_ext. intros i Hi. destruct (cov_at s s' HC k2 i H2 Hi) as [Ee _]. fold n in Ee. rewrite Ee.
      destruct (cover_pull s s' HC rc u k2 i (LL i) H2 Hi (HL i Hi)) as (K & K1 & K2). fold n in K1, K2. rewrite <- K2. apply work_on_permut, Permutation_map.
      apply (sites_unique s' rc (k2 * n + i)); auto. apply HL'. rewrite (cov_length s s' HC). fold n. nia. }
  assert (W : work_of ys u = dot (e_f y) v) by apply (work_single ys j y v Hy).
  assert (W' : work_of ys' (fun i => u (i mod n)%nat) = INR nc * dot (e_f y') v).
  { unfold work_of. rewrite rsum_combine_seq, L', (cov_length s s' HC). fold n. rewrite sumn_mul.
    rewrite (sumn_ext nc _ (fun _ => dot (e_f y') v)).
    - clear. induction nc as [|m IH]; [cbn; lra|]. rewrite S_INR. unfold sumn in *. rewrite seq_S, map_app, rsum_app, IH. cbn [map rsum fold_right]. lra.
    - intros k2 H2. rewrite (sumn_single _ _ j Hj).
      + destruct (Same k2 H2) as (y2 & E2 & <-). unfold nthR. rewrite E2. cbn [fst snd]. destruct (index_split n k2 j Hj) as [_ ->].
        unfold u. now rewrite Nat.eqb_refl.
      + intros i Hi Hne. unfold nthR. destruct (nth_error ys' (k2 * n + i)); auto. cbn [fst snd]. destruct (index_split n k2 i Hi) as [_ ->].
        unfold u. apply Nat.eqb_neq in Hne. rewrite Hne. unfold dot, vzero; cbn. ring. }
  rewrite W, W' in X. assert (0 < INR nc) by (apply lt_0_INR; lia). nra.
Qed.
End Outcomes.
End Cover.
