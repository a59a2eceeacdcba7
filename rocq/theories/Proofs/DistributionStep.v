(** One structure of nnp-dist (C89, C90). *)
From Coq Require Import Reals Lra Lia ZArith Bool Arith Permutation.
From Coquelicot Require Import Rcomplements.
From Coq Require Import List.
From Verif Require Import Base.Vec3 Base.SumR Model.Geometry Model.NeighborList Model.SymLines Model.Distribution Spec.GeometrySpec Spec.NeighborSpec
  Spec.DistributionSpec Proofs.NeighborMore Proofs.SymLineProofs Proofs.DistributionFill Proofs.DistributionCount.
Import ListNotations.
Local Open Scope R_scope.

Lemma floor_size_iff x n : 0 <= x -> floor_size x = n <-> INR n <= x < INR (n + 1).
Proof.
  intros X. unfold floor_size. destruct (base_Int_part x) as (B1 & B2). rewrite plus_INR. cbn [INR].
  assert (P : (0 <= Int_part x)%Z) by (apply le_IZR; destruct (Z_le_gt_dec 0 (Int_part x)) as [H|H]; [now apply IZR_le|]; exfalso; assert (Int_part x <= -1)%Z as L by lia; apply IZR_le in L; lra).
  split.
  - intros <-. rewrite INR_IZR_INZ, Z2Nat.id by auto. lra.
  - intros (H1 & H2). rewrite INR_IZR_INZ in H1, H2.
    assert (Int_part x = Z.of_nat n) as ->; [|apply Nat2Z.id].
    assert (IZR (Int_part x) < IZR (Z.of_nat n) + 1) by lra. assert (IZR (Z.of_nat n) < IZR (Int_part x) + 1) by lra.
    rewrite <- plus_IZR in *. apply lt_IZR in H, H0. lia.
Qed.

Section Step.
Variables (numElements numBins : nat) (rc : R).
Hypothesis NB : (0 < numBins)%nat.
Hypothesis RC : 0 < rc.
Notation drr := (dr numBins rc).
Notation daa := (da numBins).
Lemma nb_pos : 0 < INR numBins.
Proof. now apply lt_0_INR. Qed.
Lemma dr_pos : 0 < drr.
Proof. unfold dr. apply Rdiv_lt_0_compat; auto. apply nb_pos. Qed.
Lemma da_pos : 0 < daa.
Proof. unfold da. apply Rdiv_lt_0_compat; [lra | apply nb_pos]. Qed.
Lemma bin_iff d n : 0 <= d -> Nat.eqb (floor_size (d / drr)) n = in_bin (INR n * drr) (INR (n + 1) * drr) d.
Proof.
  intros D. pose proof dr_pos as P. apply eq_true_iff_eq. rewrite Nat.eqb_eq, in_bin_true, floor_size_iff; [|apply Rmult_le_pos; auto; left; now apply Rinv_0_lt_compat].
  split; intros (H1 & H2); split.
  - apply (Rmult_le_compat_r drr) in H1; [|lra]. unfold Rdiv in H1. rewrite Rmult_assoc, Rinv_l, Rmult_1_r in H1 by lra. auto.
  - apply (Rmult_lt_compat_r drr) in H2; [|lra]. unfold Rdiv in H2. rewrite Rmult_assoc, Rinv_l, Rmult_1_r in H2 by lra. auto.
  - apply (Rmult_le_reg_r drr); auto. unfold Rdiv. rewrite Rmult_assoc, Rinv_l, Rmult_1_r by lra. auto.
  - apply (Rmult_lt_reg_r drr); auto. unfold Rdiv. rewrite Rmult_assoc, Rinv_l, Rmult_1_r by lra. auto.
Qed.
Lemma bin_small d : 0 <= d -> (floor_size (d / drr) < numBins)%nat <-> d < rc.
Proof.
  intros D. pose proof dr_pos as P. assert (E : INR numBins * drr = rc) by (unfold dr; field; apply Rgt_not_eq, nb_pos).
  pose proof (proj1 (in_bin_true _ _ _) (eq_trans (eq_sym (bin_iff d _ D)) (Nat.eqb_refl _))) as (H1 & H2). set (n := floor_size (d / drr)) in *. split; intros L.
  - assert (INR (n + 1) <= INR numBins) as X by (apply le_INR; lia). nra.
  - apply INR_lt. rewrite plus_INR in H2. cbn in H2. apply (Rmult_lt_reg_r drr); auto. lra.
Qed.
Lemma norm_nonneg v : 0 <= norm v.
Proof. apply sqrt_pos. Qed.

(** ** Radial part *)
Lemma rterm_split ei i j n nb : (i <= j)%nat -> 0 <= nb_d nb -> rterm numBins rc ei (i, j) n nb =
  (ind (Nat.eqb ei i && Nat.eqb (nb_element nb) j && in_bin (INR n * drr) (INR (n + 1) * drr) (nb_d nb)) +
   ind (Nat.eqb ei j && Nat.eqb (nb_element nb) i && in_bin (INR n * drr) (INR (n + 1) * drr) (nb_d nb))) / 2.
Proof.
  intros L D. unfold rterm, weight, pair_key, bin_of. rewrite bin_iff by auto. unfold key_eqb, ind. set (b := in_bin _ _ _). set (ej := nb_element nb).
  destruct (Nat.leb_spec ei ej); cbn [fst snd];
    destruct (Nat.eqb_spec ei i), (Nat.eqb_spec ej j), (Nat.eqb_spec ei j), (Nat.eqb_spec ej i), (Nat.eqb_spec ei ej), b; cbn [andb]; try lra; exfalso; subst; lia.
Qed.
Lemma rterm_zero ei i j n nb : (j < i)%nat -> rterm numBins rc ei (i, j) n nb = 0.
Proof.
  intros L. unfold rterm, pair_key, key_eqb. set (ej := nb_element nb).
  destruct (Nat.leb_spec ei ej); cbn [fst snd]; [destruct (Nat.eqb_spec ei i), (Nat.eqb_spec ej j) | destruct (Nat.eqb_spec ej i), (Nat.eqb_spec ei j)]; cbn [andb]; auto; exfalso; subst; lia.
Qed.
Lemma radial_count s s' F i j n : length (s_atoms s') = natoms s -> labels s s' rc F -> (i <= j)%nat ->
  exists c, pairs_between s rc i j (INR n * drr) (INR (n + 1) * drr) c /\
    rsum (map (fun a => rsum (map (rterm numBins rc (a_element a) (i, j) n) (a_nbs a))) (s_atoms s')) = INR c.
Proof.
  intros LEN LAB L. set (lo := INR n * drr). set (hi := INR (n + 1) * drr).
  destruct (pairs_count s s' rc F LEN LAB i j lo hi) as (c & C & E). destruct (pairs_count s s' rc F LEN LAB j i lo hi) as (c2 & C2 & E2).
  pose proof (pairs_unique _ _ _ _ _ _ _ _ (pairs_sym _ _ _ _ _ _ _ C2) C) as ->. exists c. split; auto.
  rewrite (rsum_indexed _ (fun a => rsum (map (fun p => (ind (Nat.eqb (el s a) i && Nat.eqb (el s (fst p)) j && in_bin lo hi (norm (sep s a p))) +
     ind (Nat.eqb (el s a) j && Nat.eqb (el s (fst p)) i && in_bin lo hi (norm (sep s a p)))) * / 2) (F a))) _ 0).
  - rewrite LEN. rewrite (rsum_ext _ (fun a => (rsum (map (fun p => ind (Nat.eqb (el s a) i && Nat.eqb (el s (fst p)) j && in_bin lo hi (norm (sep s a p)))) (F a)) +
       rsum (map (fun p => ind (Nat.eqb (el s a) j && Nat.eqb (el s (fst p)) i && in_bin lo hi (norm (sep s a p)))) (F a))) * / 2)).
    + rewrite rsum_scal_r, rsum_plus, <- E, <- E2. lra.
    + intros a _. rewrite rsum_scal_r, rsum_plus. reflexivity.
  - intros a x X. cbn [Nat.add]. destruct (LAB a x X) as (LA & EL & FF & _). symmetry. eapply rsum_Forall2; [exact FF|]. intros p nb _ _ (H1 & H2 & H3). cbn beta.
    rewrite rterm_split by (auto; rewrite H3; apply norm_nonneg). rewrite EL, H1, H3. reflexivity.
Qed.
Lemma radial_zero s' i j n : (j < i)%nat -> rsum (map (fun a => rsum (map (rterm numBins rc (a_element a) (i, j) n) (a_nbs a))) (s_atoms s')) = 0.
Proof. intros L. apply rsum_zero. intros a _. apply rsum_zero. intros nb _. now apply rterm_zero. Qed.
Lemma number_none s e a : number_of s e = 0%nat -> ~ of_kind s a e.
Proof.
  intros N (x & X & E). unfold number_of in N. apply length_zero_iff_nil in N. apply nth_error_In in X.
  assert (In x (filter (fun a => Nat.eqb (a_element a) e) (s_atoms s))) as I by (apply filter_In; split; auto; now apply Nat.eqb_eq). rewrite N in I. destruct I.
Qed.
Lemma none_beyond s e : no_list s -> (s_numElements s <= e)%nat -> number_of s e = 0%nat.
Proof.
  intros NL L. unfold number_of. replace (filter _ _) with (@nil atom); auto. symmetry.
  assert (G : forall a, In a (s_atoms s) -> Nat.eqb (a_element a) e = false) by (intros a I; apply Nat.eqb_neq; destruct (NL a I) as (_ & _ & _ & _ & H & _); lia).
  induction (s_atoms s) as [|a l IH]; auto. cbn. rewrite (G a) by now left. apply IH. intros b I. apply G. now right.
Qed.
Lemma pairs_none s i j lo hi c : number_of s i = 0%nat \/ number_of s j = 0%nat -> pairs_between s rc i j lo hi c -> c = 0%nat.
Proof.
  intros N (L & _ & <- & SP). destruct L as [|((a, b), m) L]; auto. exfalso. destruct (proj1 (SP a b m) (or_introl eq_refl)) as (_ & A & B & _).
  destruct N as [N|N]; eapply number_none; eauto.
Qed.

(** ** Angular part *)
Lemma norm_pos v : norm v <> 0 -> 0 < norm v.
Proof. pose proof (norm_nonneg v). lra. Qed.
Lemma acos_m1 : acos (-1) = PI.
Proof. replace (-1) with (- (1)) by lra. rewrite acos_opp, acos_1. lra. Qed.
Lemma in_angle_iff x n : 0 <= x < 180 -> (n < numBins)%nat -> floor_size (x / daa) = n <-> in_angle_bin numBins n x.
Proof.
  intros (X1 & X2) N. pose proof da_pos as P. unfold in_angle_bin. fold daa. rewrite floor_size_iff by (apply Rmult_le_pos; auto; left; now apply Rinv_0_lt_compat).
  assert (D : x = x / daa * daa) by (field; lra). split.
  - intros (H1 & H2). split; [|left]; rewrite D; [apply Rmult_le_compat_r | apply Rmult_lt_compat_r]; lra.
  - intros (H1 & [H2 | (_ & ->)]); [|lra]. rewrite D in H1, H2. split; [apply (Rmult_le_reg_r daa) | apply (Rmult_lt_reg_r daa)]; auto.
Qed.
Lemma floor_angle_small x : 0 <= x < 180 -> (floor_size (x / daa) < numBins)%nat.
Proof.
  intros (X1 & X2). pose proof da_pos as P. assert (Q : 0 <= x / daa) by (apply Rmult_le_pos; auto; left; now apply Rinv_0_lt_compat).
  destruct (proj1 (floor_size_iff (x / daa) _ Q) eq_refl) as (H1 & _). apply INR_lt. eapply Rle_lt_trans; [exact H1|].
  apply (Rmult_lt_reg_r daa); auto. replace (x / daa * daa) with x by (field; lra). unfold da. replace (INR numBins * (180 / INR numBins)) with 180; auto. field. apply Rgt_not_eq, nb_pos.
Qed.
Lemma angle_bin_spec nj nk : nb_d nj = norm (nb_dr nj) -> nb_d nk = norm (nb_dr nk) -> nb_d nj <> 0 -> nb_d nk <> 0 ->
  exists b, angle_bin numBins nj nk = Done b /\ (b < numBins)%nat /\ forall n, (n < numBins)%nat -> b = n <-> in_angle_bin numBins n (angle (nb_dr nj) (nb_dr nk)).
Proof.
  intros EJ EK ZJ ZK. unfold angle_bin, angle. destruct (Req_EM_T _ 0) as [Z|Z]; [exfalso; apply Rmult_integral in Z; tauto|]. rewrite <- EJ, <- EK.
  set (th := dot (nb_dr nj) (nb_dr nk) / (nb_d nj * nb_d nk)).
  assert (P : 0 < nb_d nj * nb_d nk) by (rewrite EJ, EK in *; apply Rmult_lt_0_compat; now apply norm_pos).
  assert (B : -1 <= th <= 1).
  { pose proof (cauchy_schwarz (nb_dr nj) (nb_dr nk)) as CS. rewrite <- EJ, <- EK in CS. apply Rabs_le_between in CS. unfold th.
    split; apply (Rmult_le_reg_r (nb_d nj * nb_d nk)); auto; unfold Rdiv; rewrite Rmult_assoc, Rinv_l, Rmult_1_r by lra; lra. }
  pose proof PI_RGT_0 as PP. pose proof da_pos as DP. assert (E180 : INR numBins * daa = 180) by (unfold da; field; apply Rgt_not_eq, nb_pos).
  destruct (Rle_dec 1 th) as [H|H].
  - exists 0%nat. split; auto. split; auto. intros n N. replace th with 1 by lra. rewrite acos_1. rewrite <- in_angle_iff; auto; [|split; unfold Rdiv; rewrite !Rmult_0_l; lra].
    rewrite floor_size_iff by (unfold Rdiv; rewrite !Rmult_0_l; lra). replace (0 * 180 / PI / daa) with 0 by (unfold Rdiv; ring). split.
    + intros <-. cbn. lra.
    + intros (H1 & _). destruct n; auto. rewrite S_INR in H1. pose proof (pos_INR n). lra.
  - destruct (Rle_dec th (-1)) as [H'|H'].
    + exists (numBins - 1)%nat. split; auto. split; [lia|]. intros n N. replace th with (-1) by lra. rewrite acos_m1. unfold in_angle_bin. fold daa.
      replace (PI * 180 / PI) with 180 by (field; lra). split.
      * intros <-. split; [|right; split; auto; lia]. rewrite <- E180. apply Rmult_le_compat_r; [lra|]. apply le_INR. lia.
      * intros (H1 & [H2 | (H2 & _)]); [|lia]. exfalso. rewrite <- E180 in H2. apply Rmult_lt_reg_r in H2; auto. apply INR_lt in H2. lia.
    + destruct (acos_bound_lt th ltac:(lra)) as (A1 & A2). assert (X : 0 <= acos th * 180 / PI < 180).
      { split; [apply Rmult_le_pos; [lra | left; now apply Rinv_0_lt_compat]|]. apply (Rmult_lt_reg_r PI); auto. unfold Rdiv. rewrite Rmult_assoc, Rinv_l, Rmult_1_r by lra. nra. }
      eexists. split; [reflexivity|]. split; [now apply floor_angle_small|]. intros n N. now apply in_angle_iff.
Qed.

Lemma dot_comm u v : dot u v = dot v u.
Proof. unfold dot. ring. Qed.
Lemma angle_bin_ext nj nk nj' nk' : nb_d nj = nb_d nj' -> nb_dr nj = nb_dr nj' -> nb_d nk = nb_d nk' -> nb_dr nk = nb_dr nk' -> angle_bin numBins nj nk = angle_bin numBins nj' nk'.
Proof. intros E1 E2 E3 E4. unfold angle_bin. now rewrite E1, E2, E3, E4. Qed.
Lemma angle_bin_sym nj nk : angle_bin numBins nj nk = angle_bin numBins nk nj.
Proof. unfold angle_bin. now rewrite (dot_comm (nb_dr nj)), (Rmult_comm (nb_d nj)). Qed.
Definition as_nb (v : vec) : neighbor := mkNb 0 0 0 (norm v) v.
Definition bin_test (s : structure) (tb : nat -> bool) (a : nat) (pq : (nat * image) * (nat * image)) : bool :=
  match angle_bin numBins (as_nb (sep s a (fst pq))) (as_nb (sep s a (snd pq))) with Done b => tb b | _ => false end.
Lemma bin_test_swap s tb a pq : bin_test s tb a (swap pq) = bin_test s tb a pq.
Proof. unfold bin_test. cbn [swap fst snd]. now rewrite angle_bin_sym. Qed.
(** Contributions of pairs of neighbors with a bin in [tb]. *)
Definition atest (tb : nat -> bool) (ei i : nat) (k : key) (p : neighbor * neighbor) : R :=
  if (Nat.eqb ei i && key_eqb (pair_key (nb_element (fst p)) (nb_element (snd p))) k)%bool
  then match angle_bin numBins (fst p) (snd p) with Done b => ind (tb b) | _ => 0 end else 0.
Definition multiplicity (j k : nat) : R := if Nat.eqb j k then 2 else 1.
Lemma angular_count s s' F i j k tb P : length (s_atoms s') = natoms s -> labels s s' rc F -> (j <= k)%nat ->
  (forall a p q, (a < natoms s)%nat -> In p (F a) -> In q (F a) -> p <> q -> bin_test s tb a (p, q) = true <-> P (angle (sep s a p) (sep s a q))) ->
  exists c, triples_with s rc i j k P c /\
    multiplicity j k * rsum (map (fun a => rsum (map (atest tb (a_element a) i (j, k)) (pairs_of (a_nbs a)))) (s_atoms s')) = INR c.
Proof.
  intros LEN LAB L T. destruct (triples_count s s' rc F LEN LAB i j k P (bin_test s tb) T) as (c & C & E). exists c. split; auto. rewrite E. clear E.
  rewrite <- rsum_scal. rewrite <- LEN. apply rsum_indexed. intros a x X. cbn [Nat.add]. destruct (LAB a x X) as (LA & EL & FF & _).
  rewrite sum_ordered. rewrite <- rsum_scal. symmetry. eapply rsum_Forall2; [apply Forall2_pairs; exact FF|].
  intros (p, q) (nb, nb') _ _ ((H1 & H2 & H3) & (H4 & H5 & H6)). cbn beta. rewrite bin_test_swap. unfold atest, bin_test. cbn [fst snd swap] in *.
  rewrite EL, H1, H4. rewrite (angle_bin_ext nb nb' (as_nb (sep s a p)) (as_nb (sep s a q))) by (cbn; auto).
  set (t := angle_bin _ _ _). set (ej := el s (fst p)). set (ek := el s (fst q)). set (ei := el s a).
  unfold multiplicity, pair_key, key_eqb, ind. destruct (Nat.leb_spec ej ek); cbn [fst snd];
    destruct (Nat.eqb_spec ei i), (Nat.eqb_spec j k), (Nat.eqb_spec ej j), (Nat.eqb_spec ek k), (Nat.eqb_spec ej k), (Nat.eqb_spec ek j); cbn [andb];
    try (exfalso; subst; lia); destruct t as [b| |]; try lra; destruct (tb b); lra.
Qed.
End Step.
