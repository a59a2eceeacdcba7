(** Distribution functions of a data set (C89, C90). *)
From Coq Require Import Reals Lra Lia ZArith Bool Arith Permutation.
From Coq Require Import List.
From Verif Require Import Base.Vec3 Base.SumR Model.Geometry Model.NeighborList Model.SymLines Model.Distribution Spec.GeometrySpec Spec.NeighborSpec
  Spec.DistributionSpec Proofs.NeighborMore Proofs.SymLineProofs Proofs.DistributionFill Proofs.DistributionCount Proofs.DistributionStep.
Import ListNotations.
Local Open Scope R_scope.

Lemma nth_map_seq (f : nat -> R) n k : (k < n)%nat -> nth k (map f (seq 0 n)) 0 = f k.
Proof. intros L. rewrite (nth_indep _ 0 (f 0%nat)) by (rewrite map_length, seq_length; auto). rewrite map_nth. f_equal. now rewrite seq_nth. Qed.

Section Run.
Variables (numElements numBins : nat) (rc : R) (calcAdf : bool) (nsort : list neighbor -> list neighbor).
Hypothesis NB : (0 < numBins)%nat.
Hypothesis RC : 0 < rc.
Hypothesis IS : is_sort nsort.
Notation drr := (dr numBins rc).
Notation daa := (da numBins).
Definition empty (h : histograms) : Prop := full numBins h /\ forall k n, nth n (h k) 0 = 0.
(** Between two structures. *)
Definition clean (d : dist) : Prop :=
  empty (d_rhist d) /\ (forall i, empty (d_ahist d i)) /\ full numBins (d_rdf d) /\ (forall i, full numBins (d_adf d i)).
Definition suitable (s : structure) : Prop := readable numElements s /\ none_at_cutoff s rc /\ (calcAdf = true -> apart s).

Lemma zeros_empty n : nth n (zeros numBins) 0 = 0.
Proof. unfold zeros. destruct (nth_in_or_default n (repeat 0 numBins) 0) as [I|E]; auto. now apply repeat_spec in I. Qed.
Lemma zeros_length : length (zeros numBins) = numBins.
Proof. apply repeat_length. Qed.
Lemma clean_init : clean (dist_init numBins).
Proof.
  unfold clean, empty, full. cbn. repeat split; intros; try apply zeros_empty; apply zeros_length.
Qed.

(** Neighbors of a suitable structure. *)
Lemma suitable_neighbors s s' F : suitable s -> labels s s' rc F ->
  forall a nb, In a (s_atoms s') -> In nb (a_nbs a) -> (bin_of numBins rc nb < numBins)%nat.
Proof.
  intros (RD & NC & _) LAB a nb IA IN. apply In_nth_error in IA. destruct IA as (i & IA). destruct (LAB i a IA) as (LA & _ & FF & _ & SP).
  destruct (Forall2_in_r _ _ _ _ FF IN) as ((b, m) & I & _ & _ & D). apply SP in I. unfold bin_of. rewrite D. apply bin_small; auto; [apply norm_nonneg|].
  pose proof (in_range_norm _ _ _ _ _ I). destruct (in_range_bound _ _ _ _ _ I) as (_ & LB).
  pose proof (NC i b m (sep s i (b, m)) I (proj2 (separation_sep _ _ _ _ _ LA LB) eq_refl)). lra.
Qed.
Lemma apart_sep s a b m : apart s -> in_range s rc a b m -> norm (sep s a (b, m)) <> 0.
Proof.
  intros AP I. destruct (in_range_bound _ _ _ _ _ I) as (LA & LB). destruct I as (x & y & _ & _ & P & N & _).
  apply (AP a b m); auto. now apply separation_sep.
Qed.
Lemma suitable_angles s s' F : apart s -> labels s s' rc F ->
  forall a p, In a (s_atoms s') -> In p (pairs_of (a_nbs a)) -> good_angle numBins p.
Proof.
  intros AP LAB a (nb, nb') IA IN. apply In_nth_error in IA. destruct IA as (i & IA). destruct (LAB i a IA) as (LA & _ & FF & _ & SP).
  apply in_pairs_of in IN. destruct IN as (I1 & I2).
  destruct (Forall2_in_r _ _ _ _ FF I1) as ((b, m) & J1 & _ & V1 & D1). destruct (Forall2_in_r _ _ _ _ FF I2) as ((b', m') & J2 & _ & V2 & D2).
  apply SP in J1, J2. destruct (angle_bin_spec numBins NB nb nb') as (n & E & L & _); [congruence | congruence | rewrite D1; now apply apart_sep | rewrite D2; now apply apart_sep |].
  now exists n.
Qed.

Definition rterm_sum (s' : structure) k n := rsum (map (fun a => rsum (map (rterm numBins rc (a_element a) k n) (a_nbs a))) (s_atoms s')).
Definition aterm_sum (s' : structure) i k n := rsum (map (fun a => rsum (map (aterm numBins (a_element a) i k n) (pairs_of (a_nbs a)))) (s_atoms s')).
Lemma atest_aterm ei i k n p : atest numBins (fun b => Nat.eqb b n) ei i k p = aterm numBins ei i k n p.
Proof. reflexivity. Qed.
Lemma angle_counts s s' F i j k n : length (s_atoms s') = natoms s -> labels s s' rc F -> apart s -> (j <= k)%nat -> (n < numBins)%nat ->
  exists c, triples_with s rc i j k (in_angle_bin numBins n) c /\ multiplicity j k * aterm_sum s' i (j, k) n = INR c.
Proof.
  intros LEN LAB AP L N. unfold aterm_sum. apply (angular_count numBins rc NB s s' F i j k (fun b => Nat.eqb b n) (in_angle_bin numBins n) LEN LAB L).
  intros a (b, m) (b', m') LA I1 I2 NE. destruct (labelled_at s s' rc F LEN LAB a LA) as (_ & SP). apply SP in I1, I2. unfold bin_test. cbn [fst snd].
  destruct (angle_bin_spec numBins NB (as_nb (sep s a (b, m))) (as_nb (sep s a (b', m')))) as (x & E & LX & X); auto; [now apply apart_sep | now apply apart_sep |].
  rewrite E, Nat.eqb_eq. now apply X.
Qed.
Lemma angle_total s s' F i j k : length (s_atoms s') = natoms s -> labels s s' rc F -> apart s -> (j <= k)%nat ->
  exists t, triples_with s rc i j k (fun _ => True) t /\ multiplicity j k * sumn numBins (aterm_sum s' i (j, k)) = INR t.
Proof.
  intros LEN LAB AP L. destruct (angular_count numBins rc NB s s' F i j k (fun _ => true) (fun _ => True) LEN LAB L) as (t & T & E).
  - intros a (b, m) (b', m') LA I1 I2 NE. destruct (labelled_at s s' rc F LEN LAB a LA) as (_ & SP). apply SP in I1, I2. unfold bin_test. cbn [fst snd].
    destruct (angle_bin_spec numBins NB (as_nb (sep s a (b, m))) (as_nb (sep s a (b', m')))) as (x & E & LX & X); auto; [now apply apart_sep | now apply apart_sep |].
    now rewrite E.
  - exists t. split; auto. rewrite <- E. f_equal. unfold aterm_sum, sumn. rewrite rsum_swap. apply rsum_ext. intros a IA. rewrite rsum_swap. apply rsum_ext. intros p IP.
    destruct (suitable_angles s s' F AP LAB a p IA IP) as (b & B & LB). unfold aterm, atest. rewrite B.
    destruct (_ && _)%bool; [|apply rsum_zero; auto]. cbn [ind]. fold (sumn numBins (fun n => ind (Nat.eqb b n))). rewrite (sumn_single _ _ b LB).
    + now rewrite Nat.eqb_refl.
    + intros n _ NE. unfold ind. destruct (Nat.eqb_spec b n); congruence.
Qed.
Lemma aterm_zero s s' F i k n : readable numElements s -> labels s s' rc F -> in_loop numElements i k = false -> aterm_sum s' i k n = 0.
Proof.
  intros (NL & _ & _ & NE) LAB IL. unfold aterm_sum. apply rsum_zero. intros a IA. apply rsum_zero. intros (nb, nb') IP. unfold aterm. cbn [fst snd].
  destruct (Nat.eqb_spec (a_element a) i) as [E|E]; auto. destruct (key_eqb _ k) eqn:K; auto. exfalso. apply key_eqb_true in K. subst k i.
  apply In_nth_error in IA. destruct IA as (q & IA). destruct (LAB q a IA) as (LA & EL & FF & _ & SP). apply in_pairs_of in IP. destruct IP as (I1 & I2).
  destruct (Forall2_in_r _ _ _ _ FF I1) as ((b, m) & J1 & V1 & _). destruct (Forall2_in_r _ _ _ _ FF I2) as ((b', m') & J2 & V2 & _).
  apply SP in J1, J2. destruct (in_range_bound _ _ _ _ _ J1) as (_ & LB). destruct (in_range_bound _ _ _ _ _ J2) as (_ & LB').
  assert (G : forall x, (x < natoms s)%nat -> (el s x < numElements)%nat).
  { intros x LX. unfold el. destruct (nth_error (s_atoms s) x) as [y|] eqn:Y; [|apply nth_error_None in Y; unfold natoms in LX; lia].
    apply nth_error_In in Y. destruct (NL y Y) as (_ & _ & _ & _ & H & _). lia. }
  cbn [fst] in *. pose proof (G q LA). pose proof (G b LB). pose proof (G b' LB'). revert IL. unfold in_loop, pair_key. rewrite EL, V1, V2. cbn [fst].
  destruct (Nat.leb_spec (el s b) (el s b')); cbn [fst snd]; rewrite !andb_false_iff, !Nat.ltb_ge, !Nat.leb_gt; lia.
Qed.

Lemma total_sum v : total numBins v = sumn numBins (fun n => nth n v 0).
Proof. unfold total, sumn. rewrite fold_sum. lra. Qed.

(** ** One structure *)
Lemma structure_step s fuel d s' : suitable s -> clean d -> calculateNeighborList nsort fuel rc false s = Some s' ->
  exists d', dist_structure numElements numBins rc calcAdf nsort fuel s d = Done d' /\ clean d' /\
    d_count d' = (d_count d + 1)%nat /\ d_countPeriodic d' = (d_countPeriodic d + (if s_periodic s then 1 else 0))%nat /\
    (forall i, (i < numElements)%nat -> d_density d' i = d_density d i + (if s_periodic s then INR (atoms_of s i) / cell_volume s else 0)) /\
    (forall i j n, (i <= j)%nat -> (j < numElements)%nat -> (n < numBins)%nat ->
       exists x, radial s rc i j numBins n x /\ nth n (d_rdf d' (i, j)) 0 = nth n (d_rdf d (i, j)) 0 + x) /\
    (calcAdf = true -> forall i j k n, (i < numElements)%nat -> (j <= k)%nat -> (k < numElements)%nat -> (n < numBins)%nat ->
       exists x, angular s rc i j k numBins n x /\ nth n (d_adf d' i (j, k)) 0 = nth n (d_adf d i (j, k)) 0 + x) /\
    (calcAdf = true -> forall i j k, (i < numElements)%nat -> (j <= k)%nat -> (k < numElements)%nat ->
       exists t, triples_with s rc i j k (fun _ => True) t /\
         sumn numBins (fun n => nth n (d_adf d' i (j, k)) 0) * daa = sumn numBins (fun n => nth n (d_adf d i (j, k)) 0) * daa + (if Nat.eqb t 0 then 0 else 1)).
Proof.
  intros SU (CR & CA & FR & FA) C. destruct SU as (RD & NC & AP). pose proof RD as (NL & W & M & NE).
  destruct (labels_exist s s' rc nsort fuel false IS NL W RC M C) as (LEN & F & LAB).
  assert (SU : suitable s) by (split; [|split]; auto).
  destruct (fill_atoms_spec numBins rc calcAdf (s_atoms s') (d_rhist d) (d_ahist d) (proj1 CR) (fun i => proj1 (CA i))
     (suitable_neighbors s s' F SU LAB) (fun H => suitable_angles s s' F (AP H) LAB)) as (rh & ah & E & F1 & F2 & S1 & S2).
  assert (R1 : forall k n, nth n (rh k) 0 = rterm_sum s' k n) by (intros; rewrite S1, (proj2 CR); unfold rterm_sum; lra).
  assert (A1 : calcAdf = true -> forall i k n, nth n (ah i k) 0 = aterm_sum s' i k n) by (intros H i k n; rewrite S2, (proj2 (CA i)) by auto; unfold aterm_sum; lra).
  unfold dist_structure. rewrite C, E. cbn [bindo]. unfold rdf_step.
  destruct (if calcAdf then adf_step numElements numBins ah (d_adf d) else (ah, d_adf d)) as (ah', adf') eqn:EA.
  eexists. split; [reflexivity|]. cbn [d_rhist d_rdf d_ahist d_adf d_count d_countPeriodic d_density].
  assert (RV : forall i j n, (i <= j)%nat -> exists c, pairs_between s rc i j (INR n * drr) (INR (n + 1) * drr) c /\ rterm_sum s' (i, j) n = INR c)
    by (intros i j n L; exact (radial_count numBins rc NB RC s s' F i j n LEN LAB L)).
  assert (PF : forall i j, (i <= j)%nat -> present numElements s (i, j) = false -> number_of s i = 0%nat \/ number_of s j = 0%nat).
  { intros i j L P. unfold present in P. cbn [fst snd] in P. rewrite (proj2 (Nat.leb_le i j) L) in P. cbn [andb] in P. rewrite !andb_false_iff, !negb_false_iff, !Nat.eqb_eq, Nat.ltb_ge in P.
    destruct P as [[P|P]|P]; auto. right. apply (none_beyond numBins NB); auto. lia. }
  split; [|split; [|split; [|split; [|split; [|split]]]]]; auto.
  - unfold clean, empty, full. cbn [d_rhist d_rdf d_ahist d_adf]. split; [split|split; [|split]].
    + intros k. destruct (present numElements s k); [apply zeros_length | apply F1].
    + intros (i, j) n. destruct (present numElements s (i, j)) eqn:P; [apply zeros_empty|]. rewrite R1. destruct (le_lt_dec i j) as [L|L].
      * destruct (RV i j n L) as (c & PC & ->). apply (pairs_none rc _ _ _ _ _ _ (PF _ _ L P)) in PC. now subst c.
      * unfold rterm_sum. now apply radial_zero.
    + destruct calcAdf eqn:CC.
      * injection EA as <- _. intros i. split; intros k; [|intros n]; destruct (in_loop numElements i k) eqn:IL; [apply zeros_length | apply F2 | apply zeros_empty |].
        rewrite A1 by auto. eapply aterm_zero; eauto.
      * injection EA as <- _. intros i. assert (X : forall ats st st', foldo (fun a st => fill_neighbors numBins rc false (a_element a) (a_nbs a) st) ats st = Done st' -> snd st' = snd st).
        { clear. induction ats as [|a ats IH]; intros st st' H; [now injection H as <-|]. cbn [foldo] in H.
          destruct (fill_neighbors numBins rc false (a_element a) (a_nbs a) st) as [st1| |] eqn:F; try discriminate. cbn [bindo] in H. rewrite (IH _ _ H). clear - F.
          revert st st1 F. induction (a_nbs a) as [|nb l IH]; intros (rh, ah) st1 F; [now injection F as <-|]. cbn [fill_neighbors] in F.
          destruct (bump_at rh _ _ _); try discriminate. cbn [bindo] in F. now apply IH in F. }
        unfold fill_atoms in E. apply X in E. cbn in E. subst ah. apply CA.
    + intros k. destruct (present numElements s k); [unfold accumulate; rewrite map_length; apply seq_length | apply FR].
    + destruct calcAdf; injection EA as _ <-; [|exact FA]. intros i k. destruct (in_loop numElements i k); [|apply FA]. destruct (Rlt_dec _ _); [unfold accumulate; rewrite map_length; apply seq_length | apply FA].
  - intros i L. apply Nat.ltb_lt in L. rewrite L, andb_true_r. destruct (s_periodic s); [|lra]. reflexivity.
  - intros i j n L LJ LN. destruct (RV i j n L) as (c & PC & RS). destruct (present numElements s (i, j)) eqn:P.
    + eexists. split; [exists c; split; [exact PC | reflexivity]|]. unfold accumulate. rewrite (nth_map_seq _ _ _ LN). f_equal. rewrite R1, RS. fold drr.
      change (number_of s (fst (i, j))) with (atoms_of s i). change (number_of s (snd (i, j))) with (atoms_of s j). change (volume s) with (cell_volume s). rewrite mult_INR.
      destruct (s_periodic s); unfold Rdiv; f_equal; try ring; f_equal; ring.
    + exists 0. split; [|lra]. exists c. split; auto. apply (pairs_none rc _ _ _ _ _ _ (PF _ _ L P)) in PC. subst c. cbn. unfold Rdiv. ring.
  - intros CC i j k n LI L LK LN. rewrite CC in EA. injection EA as _ <-.
    assert (IL : in_loop numElements i (j, k) = true) by (unfold in_loop; cbn [fst snd]; rewrite !andb_true_iff, !Nat.ltb_lt, Nat.leb_le; lia). rewrite IL.
    destruct (angle_counts s s' F i j k n LEN LAB (AP CC) L LN) as (c & TC & EC). destruct (angle_total s s' F i j k LEN LAB (AP CC) L) as (t & TT & ET).
    assert (TOT : total numBins (ah i (j, k)) = sumn numBins (aterm_sum s' i (j, k))) by (rewrite total_sum; apply sumn_ext; intros m _; now apply A1).
    assert (MP : 0 < multiplicity j k) by (unfold multiplicity; destruct (Nat.eqb _ _); lra).
    eexists. split; [exists c, t; split; [exact TC|]; split; [exact TT | reflexivity]|].
    destruct (Rlt_dec 0 (total numBins (ah i (j, k)))) as [H|H].
    + unfold accumulate. rewrite (nth_map_seq _ _ _ LN), (A1 CC). f_equal. rewrite TOT in *.
      destruct (Nat.eqb_spec t 0) as [->|TN]; [exfalso; cbn in ET; nra|]. rewrite <- EC, <- ET. fold daa. pose proof (da_pos numBins NB). field. split; [|split]; lra.
    + destruct (Nat.eqb_spec t 0) as [->|TN]; [lra|]. exfalso. assert (0 < INR t) as X by (apply lt_0_INR; lia). rewrite <- ET, <- TOT in X. nra.
  - intros CC i j k LI L LK. rewrite CC in EA. injection EA as _ <-.
    assert (IL : in_loop numElements i (j, k) = true) by (unfold in_loop; cbn [fst snd]; rewrite !andb_true_iff, !Nat.ltb_lt, Nat.leb_le; lia).
    destruct (angle_total s s' F i j k LEN LAB (AP CC) L) as (t & TT & ET). exists t. split; auto.
    assert (TOT : total numBins (ah i (j, k)) = sumn numBins (aterm_sum s' i (j, k))) by (rewrite total_sum; apply sumn_ext; intros m _; now apply A1).
    assert (MP : 0 < multiplicity j k) by (unfold multiplicity; destruct (Nat.eqb _ _); lra). pose proof (da_pos numBins NB) as DP. rewrite IL.
    destruct (Rlt_dec 0 (total numBins (ah i (j, k)))) as [H|H].
    + rewrite (sumn_ext _ _ (fun n => nth n (d_adf d i (j, k)) 0 + aterm_sum s' i (j, k) n * (/ total numBins (ah i (j, k)) * / daa))).
      2:{ intros n LN. unfold accumulate. rewrite (nth_map_seq _ _ _ LN), (A1 CC). unfold Rdiv. ring. }
      rewrite sumn_plus, sumn_scal_r, Rmult_plus_distr_r. f_equal. rewrite <- TOT.
      destruct (Nat.eqb_spec t 0) as [->|TN]; [exfalso; cbn in ET; rewrite TOT in H; nra|]. field. lra.
    + destruct (Nat.eqb_spec t 0) as [->|TN]; [lra|]. exfalso. assert (0 < INR t) as X by (apply lt_0_INR; lia). rewrite <- ET, <- TOT in X. nra.
Qed.

(** ** All structures *)
Definition periodic_of (structures : list structure) : nat := length (filter s_periodic structures).
Definition density_of (s : structure) (i : nat) : R := if s_periodic s then INR (atoms_of s i) / cell_volume s else 0.
Lemma run_spec structures : Forall suitable structures -> exists fuel0, forall fuel, (fuel0 <= fuel)%nat -> forall d, clean d ->
  exists d', foldo (dist_structure numElements numBins rc calcAdf nsort fuel) structures d = Done d' /\ clean d' /\
    d_count d' = (d_count d + length structures)%nat /\ d_countPeriodic d' = (d_countPeriodic d + periodic_of structures)%nat /\
    (forall i, (i < numElements)%nat -> d_density d' i = d_density d i + rsum (map (fun s => density_of s i) structures)) /\
    (forall i j n, (i <= j)%nat -> (j < numElements)%nat -> (n < numBins)%nat ->
       exists xs, Forall2 (fun s x => radial s rc i j numBins n x) structures xs /\ nth n (d_rdf d' (i, j)) 0 = nth n (d_rdf d (i, j)) 0 + rsum xs) /\
    (calcAdf = true -> forall i j k n, (i < numElements)%nat -> (j <= k)%nat -> (k < numElements)%nat -> (n < numBins)%nat ->
       exists xs, Forall2 (fun s x => angular s rc i j k numBins n x) structures xs /\ nth n (d_adf d' i (j, k)) 0 = nth n (d_adf d i (j, k)) 0 + rsum xs) /\
    (calcAdf = true -> forall i j k, (i < numElements)%nat -> (j <= k)%nat -> (k < numElements)%nat ->
       exists ts, Forall2 (fun s t => triples_with s rc i j k (fun _ => True) t) structures ts /\
         sumn numBins (fun n => nth n (d_adf d' i (j, k)) 0) * daa = sumn numBins (fun n => nth n (d_adf d i (j, k)) 0) * daa + INR (length (filter (fun t => negb (Nat.eqb t 0)) ts))).
Proof.
  induction 1 as [|s l SU FS IH].
  - exists 0%nat. intros fuel _ d CD. exists d. split; [reflexivity|]. split; auto. cbn. split; [lia|]. split; [unfold periodic_of; cbn; lia|]. split; [intros; lra|].
    split; [|split]; [intros | intros _; intros | intros _; intros]; exists []; split; try constructor; cbn; lra.
  - destruct IH as (f1 & IH). destruct (list_terminates nsort rc false s) as (f2 & LT); [apply SU | intros P; apply (proj1 (proj2 (proj1 SU))); auto|].
    exists (Nat.max f1 f2). intros fuel LF d CD. destruct (LT fuel) as (s' & C); [lia|].
    destruct (structure_step s fuel d s' SU CD C) as (d1 & E1 & C1 & K1 & K2 & K3 & K4 & K5 & K6).
    destruct (IH fuel ltac:(lia) d1 C1) as (d' & E' & C' & Q1 & Q2 & Q3 & Q4 & Q5 & Q6).
    exists d'. cbn [foldo]. rewrite E1. cbn [bindo]. split; auto. split; auto. split; [cbn [length]; lia|].
    split; [unfold periodic_of in *; cbn [filter]; rewrite Q2, K2; destruct (s_periodic s); cbn [length]; lia|]. split; [|split; [|split]].
    + intros i LI. rewrite Q3, K3 by auto. cbn [map]. change (rsum (?x :: ?l)) with (x + rsum l). unfold density_of at 2. lra.
    + intros i j n L LJ LN. destruct (K4 i j n L LJ LN) as (x & X & EX). destruct (Q4 i j n L LJ LN) as (xs & XS & EXS).
      exists (x :: xs). split; [now constructor|]. change (rsum (?x :: ?l)) with (x + rsum l). lra.
    + intros CC i j k n LI L LJ LN. destruct (K5 CC i j k n LI L LJ LN) as (x & X & EX). destruct (Q5 CC i j k n LI L LJ LN) as (xs & XS & EXS).
      exists (x :: xs). split; [now constructor|]. change (rsum (?x :: ?l)) with (x + rsum l). lra.
    + intros CC i j k LI L LJ. destruct (K6 CC i j k LI L LJ) as (x & X & EX). destruct (Q6 CC i j k LI L LJ) as (xs & XS & EXS).
      exists (x :: xs). split; [now constructor|]. rewrite EXS, EX. cbn [filter]. destruct (Nat.eqb x 0); cbn [negb length]; [|rewrite S_INR]; lra.
Qed.

Lemma step_inv s fuel d d' : readable numElements s -> full numBins (d_rhist d) ->
  dist_structure numElements numBins rc calcAdf nsort fuel s d = Done d' -> full numBins (d_rhist d') /\ none_at_cutoff s rc.
Proof.
  intros (NL & W & M & NE) FR E. unfold dist_structure in E. destruct (calculateNeighborList nsort fuel rc false s) as [s'|] eqn:C; [|discriminate].
  destruct (fill_atoms _ _ _ _ _) as [(rh, ah)| |] eqn:F; try discriminate. destruct (fill_atoms_inv _ _ _ _ _ _ _ FR F) as (F1 & F2). cbn [fst] in F1.
  cbn [bindo] in E. unfold rdf_step in E. destruct (if calcAdf then _ else _) as (ah', adf'). injection E as <-. split.
  - intros k. cbn [d_rhist]. destruct (present numElements s k); [apply zeros_length | apply F1].
  - destruct (labels_exist s s' rc nsort fuel false IS NL W RC M C) as (LEN & G & LAB). intros a b m v I SP EV.
    destruct (in_range_bound _ _ _ _ _ I) as (LA & LB). destruct (nth_error (s_atoms s') a) as [x|] eqn:X; [|apply nth_error_None in X; lia].
    destruct (LAB a x X) as (_ & _ & FF & _ & S2). apply S2 in I. destruct (Forall2_in_l _ _ _ _ FF I) as (nb & IN & _ & _ & D).
    apply separation_sep in SP; auto. subst v. apply (nth_error_In (s_atoms s')) in X. pose proof (F2 x nb X IN) as Z. unfold bin_of in Z. rewrite D in Z. apply bin_small in Z; auto; [lra | apply norm_nonneg].
Qed.
Lemma run_inv structures fuel : Forall (readable numElements) structures -> forall d d', full numBins (d_rhist d) ->
  foldo (dist_structure numElements numBins rc calcAdf nsort fuel) structures d = Done d' -> Forall (fun s => none_at_cutoff s rc) structures.
Proof.
  induction 1 as [|s l RD FS IH]; intros d d' FR E; [constructor|]. cbn [foldo] in E. destruct (dist_structure _ _ _ _ _ _ s d) as [d1| |] eqn:E1; try discriminate.
  destruct (step_inv _ _ _ _ RD FR E1). constructor; auto. cbn [bindo] in E. eapply IH; eauto.
Qed.

End Run.
(** ** Files *)
Lemma in_element_pairs numElements i j : In (i, j) (element_pairs numElements) <-> (i <= j)%nat /\ (j < numElements)%nat.
Proof.
  unfold element_pairs. rewrite in_flat_map. split.
  - intros (a & A & I). apply in_seq in A. apply in_map_iff in I. destruct I as (b & E & I). injection E as -> ->. apply in_seq in I. lia.
  - intros (L & LJ). exists i. split; [apply in_seq; lia|]. apply in_map_iff. exists j. split; auto. apply in_seq. lia.
Qed.
Lemma NoDup_flat {A B} (f : A -> list B) (key : B -> A) l : (forall a b, In b (f a) -> key b = a) -> NoDup l -> (forall a, In a l -> NoDup (f a)) -> NoDup (flat_map f l).
Proof.
  intros K ND NF. induction ND as [|a l NI ND IH]; [constructor|]. cbn. apply nodup_app; [apply NF; now left | apply IH; intros; apply NF; now right |].
  intros x I1 I2. apply in_flat_map in I2. destruct I2 as (b & IB & I2). apply K in I1, I2. congruence.
Qed.
Lemma NoDup_element_pairs numElements : NoDup (element_pairs numElements).
Proof.
  unfold element_pairs. apply (NoDup_flat _ fst); [|apply seq_NoDup|].
  - intros a (x, y) I. apply in_map_iff in I. destruct I as (b & E & _). now injection E as -> ->.
  - intros a _. apply FinFun.Injective_map_NoDup; [intros x y E; now injection E | apply seq_NoDup].
Qed.
Lemma max_element_spec v : v <> [] -> In (max_element v) v /\ forall x, In x v -> x <= max_element v.
Proof.
  destruct v as [|a v]; [congruence|]. intros _. unfold max_element. cbn [hd fold_left]. rewrite Rmax_left by lra.
  enough (G : forall v a, (fold_left Rmax v a = a \/ In (fold_left Rmax v a) v) /\ a <= fold_left Rmax v a /\ forall x, In x v -> x <= fold_left Rmax v a).
  { destruct (G v a) as (G1 & G2 & G3). split; [destruct G1 as [G1|G1]; [left; auto | now right]|]. intros x [<- | I]; auto. }
  clear. induction v as [|b v IH]; intros a; cbn [fold_left].
  - split; auto. split; [lra|]. intros x [].
  - destruct (IH (Rmax a b)) as (G1 & G2 & G3). pose proof (Rmax_l a b). pose proof (Rmax_r a b). split; [|split; [lra|]].
    + destruct G1 as [G1|G1]; [|right; now right]. rewrite G1. unfold Rmax. destruct (Rle_dec a b); [right; now left | now left].
    + intros x [<- | I]; [lra | auto].
Qed.
