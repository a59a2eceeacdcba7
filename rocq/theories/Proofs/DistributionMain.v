(** Files of nnp-dist (C89, C90). *)
From Coq Require Import Reals Lra Lia ZArith Bool Arith Permutation.
From Coq Require Import List.
From Verif Require Import Base.Vec3 Base.SumR Model.Geometry Model.NeighborList Model.SymLines Model.Distribution Spec.GeometrySpec Spec.NeighborSpec
  Spec.DistributionSpec Proofs.NeighborMore Proofs.SymLineProofs Proofs.DistributionFill Proofs.DistributionCount Proofs.DistributionStep Proofs.DistributionProofs.
Import ListNotations.
Local Open Scope R_scope.

Lemma Forall2_len {A B} (P : A -> B -> Prop) l m : Forall2 P l m -> length l = length m.
Proof. induction 1; cbn; auto. Qed.
Lemma maximum_of (v : list R) (c : R) n : length v = n -> (0 < n)%nat -> 0 < c ->
  maximum_one (map (fun m => (nth m v 0 / c, quotient (nth m v 0) (max_element v))) (seq 0 n)).
Proof.
  intros LV N C (x & I & P). apply in_map_iff in I. destruct I as (m & <- & IM). cbn [fst] in P. apply in_seq in IM.
  assert (NE : v <> []) by (intros ->; cbn in LV; lia). destruct (max_element_spec v NE) as (M1 & M2). destruct (In_nth _ _ 0 M1) as (t & LT & ET).
  assert (XP : 0 < nth m v 0) by (replace (nth m v 0) with (nth m v 0 / c * c) by (field; lra); now apply Rmult_lt_0_compat).
  assert (MP : 0 < max_element v) by (eapply Rlt_le_trans; [exact XP | apply M2, nth_In; lia]).
  exists (nth t v 0 / c, quotient (nth t v 0) (max_element v)). split; [apply in_map_iff; exists t; split; auto; apply in_seq; lia|]. split.
  - intros w I. apply in_map_iff in I. destruct I as (q & <- & IQ). apply in_seq in IQ. cbn [fst]. rewrite ET. apply Rmult_le_compat_r; [left; now apply Rinv_0_lt_compat | apply M2, nth_In; lia].
  - intros w I. apply in_map_iff in I. destruct I as (q & <- & IQ). cbn [fst snd]. unfold quotient. destruct (Req_EM_T (max_element v) 0); [lra|]. f_equal. rewrite ET. field. lra.
Qed.
Lemma nth_error_map_seq {A} (f : nat -> A) N n x : nth_error (map f (seq 0 N)) n = Some x -> (n < N)%nat /\ x = f n.
Proof.
  intros E. assert (L : (n < N)%nat) by (rewrite <- (seq_length N 0), <- (map_length f); apply nth_error_Some; congruence). split; auto.
  rewrite nth_error_map, (nth_error_nth' _ 0%nat), seq_nth in E by (rewrite ?seq_length; auto). now injection E as <-.
Qed.

Section Main.
Variables (numElements numBins : nat) (rc : R) (calcAdf : bool) (nsort : list neighbor -> list neighbor) (structures : list structure).
Hypothesis NE : (0 < numElements)%nat.
Hypothesis NB : (0 < numBins)%nat.
Hypothesis RC : 0 < rc.
Hypothesis IS : is_sort nsort.
Hypothesis NN : structures <> [].

Lemma len_pos : 0 < INR (length structures).
Proof. apply lt_0_INR. destruct structures; [congruence | cbn; lia]. Qed.

Theorem files : Forall (suitable numElements rc calcAdf) structures ->
  exists fuel0, forall fuel, (fuel0 <= fuel)%nat -> exists out, nnp_dist numElements numBins rc calcAdf nsort fuel structures = Done out /\
    (NoDup (map fst (o_rdf out)) /\ (forall i j, In (i, j) (map fst (o_rdf out)) <-> (i <= j)%nat /\ (j < numElements)%nat) /\
     forall i j rows, In ((i, j), rows) (o_rdf out) ->
       rdf_rows structures rc i j numBins rows /\ maximum_one (map (fun r => (rr_rdf r, rr_max1 r)) rows) /\ coordination structures rc j numBins rows) /\
    (calcAdf = false -> o_adf out = []) /\
    (calcAdf = true -> NoDup (map fst (o_adf out)) /\
     (forall i j k, In (i, (j, k)) (map fst (o_adf out)) <-> (i < numElements)%nat /\ (j <= k)%nat /\ (k < numElements)%nat) /\
     forall i j k rows, In ((i, (j, k)), rows) (o_adf out) ->
       adf_rows structures rc i j k numBins rows /\ maximum_one (map (fun r => (ar_adf r, ar_max1 r)) rows) /\
       exists ts, Forall2 (fun s t => triples_with s rc i j k (fun _ => True) t) structures ts /\
         rsum (map ar_adf rows) * (180 / INR numBins) = INR (length (filter (fun t => negb (Nat.eqb t 0)) ts)) / INR (length structures)).
Proof.
  intros SU. destruct (run_spec numElements numBins rc calcAdf nsort NB RC IS structures SU) as (fuel0 & RS). exists fuel0. intros fuel LF.
  destruct (RS fuel LF (dist_init numBins) (clean_init numBins)) as (d & E & (_ & _ & FR & FA) & K1 & K2 & K3 & K4 & K5 & K6). clear RS.
  cbn [dist_init d_count d_countPeriodic d_density d_rdf d_adf] in *.
  unfold nnp_dist. rewrite (proj2 (Nat.eqb_neq numBins 0)) by lia. rewrite (proj2 (Nat.eqb_neq numElements 0)) by lia. cbn [orb]. rewrite E. cbn [bindo].
  cbn [Nat.add] in K1. pose proof len_pos as LP. assert (KP : d_count d <> 0%nat) by (rewrite K1; destruct structures; [congruence | discriminate]).
  rewrite (proj2 (Nat.eqb_neq _ _) KP). eexists. split; [reflexivity|]. cbn [o_rdf o_adf].
  assert (ZZ : forall n, nth n (zeros numBins) 0 = 0) by apply (zeros_empty numBins).
  split; [|split; [intros ->; reflexivity|]].
  - rewrite map_map. cbn [fst]. rewrite map_id. split; [apply NoDup_element_pairs|]. split; [apply in_element_pairs|].
    intros i j rows I. apply in_map_iff in I. destruct I as (k & EK & I). injection EK as -> <-. apply in_element_pairs in I. destruct I as (L & LJ).
    split; [|split; [|split]].
    + split; [unfold rdf_file; now rewrite map_length, seq_length|]. intros n row R. apply nth_error_map_seq in R. destruct R as (LN & ->). cbn [rr_low rr_high rr_rdf].
      split; auto. split; auto. destruct (K4 i j n L LJ LN) as (xs & XS & EX). exists xs. split; auto. rewrite EX, ZZ, Rplus_0_l, K1. unfold mean. now rewrite (Forall2_len _ _ _ XS).
    + unfold rdf_file. rewrite map_map. cbn [rr_rdf rr_max1]. apply maximum_of; auto. now rewrite K1.
    + intros AP n row R. apply nth_error_map_seq in R. destruct R as (LN & ->). cbn [rr_cn]. rewrite K1, K2.
      assert (periodic_of structures = length structures) as ->.
      { unfold periodic_of. f_equal. clear - AP. induction structures as [|s l IH]; auto. cbn. rewrite (AP s) by now left. f_equal. apply IH. intros x I. apply AP. now right. }
      cbn [Nat.add]. rewrite Nat.eqb_refl. f_equal. set (rho := mean _).
      assert (RHO : d_density d j = rho * INR (length structures)).
      { rewrite K3 by auto. rewrite Rplus_0_l. unfold rho, mean. rewrite map_length. rewrite (rsum_ext _ (fun s => INR (atoms_of s j) / cell_volume s)); [field; lra|].
        intros s I. unfold density_of. now rewrite AP. }
      assert (G : forall m, (m < numBins)%nat -> nth m (map rr_rdf (rdf_file numBins rc d (i, j))) 0 = nth m (d_rdf d (i, j)) 0 / INR (length structures)).
      { intros m LM. unfold rdf_file. rewrite map_map. cbn [rr_rdf]. rewrite nth_map_seq by auto. now rewrite K1. }
      assert (CN : forall m, (m < numBins)%nat -> forall x, cn_step numBins rc d (i, j) m x = x + (if Nat.ltb 0 m then
          4 * PI * ((INR m + 1 / 2) * (rc / INR numBins)) ^ 2 * rho * ((nth (m - 1) (map rr_rdf (rdf_file numBins rc d (i, j))) 0 + nth m (map rr_rdf (rdf_file numBins rc d (i, j))) 0) / 2) * (rc / INR numBins) else 0)).
      { intros m LM x. unfold cn_step. destruct (Nat.ltb_spec 0 m); [|lra]. rewrite !G by lia. cbn [snd]. rewrite RHO, K1. fold (dr numBins rc). field. lra. }
      clear - CN LN NB. revert CN LN. generalize (cn_step numBins rc d (i, j)). generalize (map rr_rdf (rdf_file numBins rc d (i, j))). intros g f CN LN.
      replace (n + 1)%nat with (S n) by lia. induction n as [|n IH].
      * cbn [seq fold_left]. rewrite CN by auto. cbn. unfold sumn. cbn. lra.
      * rewrite seq_S, fold_left_app, IH by lia. cbn [fold_left Nat.add]. rewrite CN by auto. rewrite sumn_S. cbn [Nat.ltb Nat.leb]. rewrite Nat.sub_succ, Nat.sub_0_r, Nat.add_1_r. reflexivity.
    + intros (s & IS' & NP) row R. unfold rdf_file in R. apply in_map_iff in R. destruct R as (n & <- & _). cbn [rr_cn]. rewrite K1, K2.
      assert (periodic_of structures <> length structures) as PN.
      { unfold periodic_of. clear - IS' NP. intros E. revert IS'. assert (forall s, In s structures -> s_periodic s = true) as A; [|intros I; specialize (A s I); congruence].
        assert (LE : forall l : list structure, (length (filter s_periodic l) <= length l)%nat) by (induction l as [|x l IH]; cbn; [lia | destruct (s_periodic x); cbn; lia]).
        revert E. induction structures as [|x l IH]; intros E y I; [destruct I|]. cbn in E. destruct (s_periodic x) eqn:P.
        - cbn in E. destruct I as [<- | I]; auto.
        - pose proof (LE l). lia. }
      cbn [Nat.add]. destruct (Nat.eqb_spec (length structures) (periodic_of structures)); congruence.
  - intros CC. rewrite CC.
    assert (FM : forall (f : nat -> key -> list adf_row) l, map fst (flat_map (fun i => map (fun k => (i, k, f i k)) (element_pairs numElements)) l) = flat_map (fun i => map (pair i) (element_pairs numElements)) l).
    { intros f l. induction l as [|x l IH]; auto. cbn [flat_map]. rewrite map_app, IH, map_map. reflexivity. }
    rewrite FM. split; [|split].
    + apply (NoDup_flat _ fst); [|apply seq_NoDup|].
      * intros a (x, y) I. apply in_map_iff in I. destruct I as (b & EB & _). now injection EB as -> ->.
      * intros a _. apply FinFun.Injective_map_NoDup; [intros x y EX; now injection EX | apply NoDup_element_pairs].
    + intros i j k. rewrite in_flat_map. split.
      * intros (a & A & I). apply in_seq in A. apply in_map_iff in I. destruct I as ((x, y) & EX & I). injection EX as -> -> ->. apply in_element_pairs in I. lia.
      * intros (LI & L & LK). exists i. split; [apply in_seq; lia|]. apply in_map, in_element_pairs. auto.
    + intros i j k rows I. apply in_flat_map in I. destruct I as (a & A & I). apply in_seq in A. apply in_map_iff in I. destruct I as ((x, y) & EX & I). injection EX as -> -> -> <-.
      apply in_element_pairs in I. destruct I as (L & LK). assert (LI : (i < numElements)%nat) by lia. split; [|split].
      * split; [unfold adf_file; now rewrite map_length, seq_length|]. intros n row R. apply nth_error_map_seq in R. destruct R as (LN & ->). cbn [ar_low ar_high ar_adf].
        split; auto. split; auto. destruct (K5 CC i j k n LI L LK LN) as (xs & XS & EX). exists xs. split; auto. rewrite EX, ZZ, Rplus_0_l, K1. unfold mean. now rewrite (Forall2_len _ _ _ XS).
      * unfold adf_file. rewrite map_map. cbn [ar_adf ar_max1]. apply maximum_of; auto; [apply FA | now rewrite K1].
      * destruct (K6 CC i j k LI L LK) as (ts & TS & ET). exists ts. split; auto. unfold adf_file. rewrite map_map. cbn [ar_adf]. unfold Rdiv at 1. rewrite rsum_scal_r.
        change (rsum (map (fun x => nth x (d_adf d i (j, k)) 0) (seq 0 numBins))) with (sumn numBins (fun x => nth x (d_adf d i (j, k)) 0)).
        rewrite (sumn_zero numBins (fun n => nth n (zeros numBins) 0)) in ET by (intros; apply ZZ). fold (da numBins). rewrite K1.
        replace (sumn numBins (fun x => nth x (d_adf d i (j, k)) 0) * / INR (length structures) * da numBins) with (sumn numBins (fun x => nth x (d_adf d i (j, k)) 0) * da numBins / INR (length structures)) by (unfold Rdiv; ring).
        rewrite ET. f_equal. lra.
Qed.

Theorem finishes : Forall (readable numElements) structures -> (calcAdf = true -> Forall apart structures) ->
  (exists fuel0, forall fuel, (fuel0 <= fuel)%nat -> exists out, nnp_dist numElements numBins rc calcAdf nsort fuel structures = Done out) <->
  Forall (fun s => none_at_cutoff s rc) structures.
Proof.
  intros RD AP. split.
  - intros (f & H). destruct (H f (le_n f)) as (out & E). unfold nnp_dist in E. destruct (_ || _)%bool; [discriminate|].
    destruct (foldo _ _ _) as [d| |] eqn:F; try discriminate. apply (run_inv numElements numBins rc calcAdf nsort NB RC IS structures f RD (dist_init numBins) d); auto.
    apply (clean_init numBins).
  - intros NC. assert (SU : Forall (suitable numElements rc calcAdf) structures).
    { rewrite Forall_forall in *. intros s I. split; [auto|]. split; [auto|]. intros C. apply (AP C); auto. }
    destruct (files SU) as (f & H). exists f. intros fuel LF. destruct (H fuel LF) as (out & E & _). eauto.
Qed.
End Main.
(** ** The two kinds of files *)
Theorem radial_files numElements numBins rc calcAdf nsort structures :
  (0 < numElements)%nat -> (0 < numBins)%nat -> 0 < rc -> is_sort nsort -> structures <> [] ->
  (forall s, In s structures -> readable numElements s /\ none_at_cutoff s rc /\ (calcAdf = true -> apart s)) ->
  exists fuel0, forall fuel, (fuel0 <= fuel)%nat -> exists out, nnp_dist numElements numBins rc calcAdf nsort fuel structures = Done out /\
    NoDup (map fst (o_rdf out)) /\ (forall i j, In (i, j) (map fst (o_rdf out)) <-> (i <= j)%nat /\ (j < numElements)%nat) /\
    forall i j rows, In ((i, j), rows) (o_rdf out) ->
      rdf_rows structures rc i j numBins rows /\ maximum_one (map (fun r => (rr_rdf r, rr_max1 r)) rows) /\ coordination structures rc j numBins rows.
Proof.
  intros NE NB RC IS NN SU. destruct (files numElements numBins rc calcAdf nsort structures NE NB RC IS NN) as (f & H); [apply Forall_forall; exact SU|].
  exists f. intros fuel LF. destruct (H fuel LF) as (out & E & R & _). exists out. tauto.
Qed.
Theorem angular_files numElements numBins rc nsort structures :
  (0 < numElements)%nat -> (0 < numBins)%nat -> 0 < rc -> is_sort nsort -> structures <> [] ->
  (forall s, In s structures -> readable numElements s /\ none_at_cutoff s rc /\ apart s) ->
  exists fuel0, forall fuel, (fuel0 <= fuel)%nat -> exists out, nnp_dist numElements numBins rc true nsort fuel structures = Done out /\
    NoDup (map fst (o_adf out)) /\
    (forall i j k, In (i, (j, k)) (map fst (o_adf out)) <-> (i < numElements)%nat /\ (j <= k)%nat /\ (k < numElements)%nat) /\
    forall i j k rows, In ((i, (j, k)), rows) (o_adf out) ->
      adf_rows structures rc i j k numBins rows /\ maximum_one (map (fun r => (ar_adf r, ar_max1 r)) rows).
Proof.
  intros NE NB RC IS NN SU. destruct (files numElements numBins rc true nsort structures NE NB RC IS NN) as (f & H).
  { apply Forall_forall. intros s I. destruct (SU s I) as (A & B & C). split; auto. }
  exists f. intros fuel LF. destruct (H fuel LF) as (out & E & _ & _ & A). destruct (A eq_refl) as (A1 & A2 & A3). exists out. split; auto. split; auto. split; auto.
  intros i j k rows I. destruct (A3 i j k rows I) as (B1 & B2 & _). auto.
Qed.
Theorem angular_integral numElements numBins rc nsort structures :
  (0 < numElements)%nat -> (0 < numBins)%nat -> 0 < rc -> is_sort nsort -> structures <> [] ->
  (forall s, In s structures -> readable numElements s /\ none_at_cutoff s rc /\ apart s) ->
  exists fuel0, forall fuel, (fuel0 <= fuel)%nat -> exists out, nnp_dist numElements numBins rc true nsort fuel structures = Done out /\
    forall i j k rows, In ((i, (j, k)), rows) (o_adf out) ->
      (forall s, In s structures -> ~ triples_with s rc i j k (fun _ => True) 0) ->
      rsum (map (fun r => ar_adf r * (ar_high r - ar_low r)) rows) = 1.
Proof.
  intros NE NB RC IS NN SU. destruct (files numElements numBins rc true nsort structures NE NB RC IS NN) as (f & H).
  { apply Forall_forall. intros s I. destruct (SU s I) as (A & B & C). split; auto. }
  exists f. intros fuel LF. destruct (H fuel LF) as (out & E & _ & _ & A). destruct (A eq_refl) as (A1 & A2 & A3). exists out. split; auto.
  intros i j k rows I T. destruct (A3 i j k rows I) as ((LEN & RW) & _ & ts & TS & ET).
  rewrite (rsum_ext _ (fun r => ar_adf r * (180 / INR numBins))).
  - rewrite rsum_scal_r, ET. assert (length (filter (fun t => negb (Nat.eqb t 0)) ts) = length structures) as ->.
    { clear - TS T. induction TS as [|s t l ts H TS IH]; auto. cbn [filter]. destruct (Nat.eqb_spec t 0) as [->|N].
      - exfalso. apply (T s); auto. now left.
      - cbn. f_equal. apply IH. intros x X. apply T. now right. }
    field. apply Rgt_not_eq, lt_0_INR. destruct structures; [congruence | cbn; lia].
  - intros r R. apply In_nth_error in R. destruct R as (n & R). destruct (RW n r R) as (-> & -> & _). rewrite plus_INR. cbn [INR]. ring.
Qed.
