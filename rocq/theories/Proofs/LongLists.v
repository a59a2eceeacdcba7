(** Neighbor lists longer than the cutoff radius of the symmetry functions. *)
From Coq Require Import Reals Lra ZArith List Lia Bool Arith Permutation Sorted.
From Coquelicot Require Import Coquelicot.
From Coq Require Import List.
From Verif Require Import Base.RealBase Base.Loop Base.Vec3 Base.SumR Model.Scaling Model.NeighborList Model.SymFunctions Model.SymSetup Model.Forces
  Model.Evaluation4G
  Spec.GeometrySpec Spec.NeighborSpec Spec.SymSpec Spec.SetupSpec Spec.ForceSpec
  Proofs.NeighborProofs Proofs.NeighborMore Proofs.CutoffMapProofs Proofs.SetupProofs Proofs.ForceAssembly Proofs.ForceProofs Proofs.Truncate.
Import ListNotations.
Local Open Scope R_scope.

Definition upto (rc : R) (n : neighbor) : bool := if Rle_dec (nb_d n) rc then true else false.
Definition near (rc : R) (a : atom) : list neighbor := firstn (count_below rc (a_nbs a)) (a_nbs a).
Definition sees (l : list neighbor) (j : nat) : bool := existsb (fun n => Nat.eqb (nb_index n) j) l.
Definition cut_atom (rc : R) (a : atom) : atom :=
  mkAtom (a_element a) (a_r a) (a_hasNL a) (a_sorted a) (length (near rc a)) (a_numU a) (a_perEl a)
    (match a_unique a with [] => [] | i :: U => i :: filter (sees (near rc a)) U end) (near rc a) [].
Definition long (N n : nat) (rc : R) (i : nat) (a : atom) : Prop :=
  good_list a /\ near rc a = filter (upto rc) (a_nbs a) /\ (count_below rc (a_nbs a) <= getStoredMinNumNeighbors a rc)%nat /\
  (forall m, In m (a_nbs a) -> (nb_element m < N)%nat /\ (nb_index m < n)%nat /\ nb_tag m = Z.of_nat (nb_index m)) /\
  exists U, a_unique a = i :: U /\ NoDup U /\ forall j, In j U <-> j <> i /\ exists m, In m (a_nbs a) /\ nb_index m = j.

Lemma filter_filter' {A} (p : A -> bool) l : filter p (filter p l) = filter p l.
Proof. induction l as [|x l IH]; cbn; auto. destruct (p x) eqn:E; cbn; rewrite ?E, IH; auto. Qed.
Lemma count_le rc l : (count_below rc l <= length l)%nat.
Proof. unfold count_below. induction l as [|x l IH]; cbn; auto. destruct (Rle_dec _ _); cbn; lia. Qed.
Lemma beyond N n rc i a : long N n rc i a -> forall j m, (count_below rc (a_nbs a) <= j)%nat -> nth_error (a_nbs a) j = Some m -> rc < nb_d m.
Proof.
  intros (_ & E & _) j m Hj Hm. unfold near in E. set (k := count_below rc (a_nbs a)) in *.
  assert (Z0 : filter (upto rc) (skipn k (a_nbs a)) = []).
  { assert (L : filter (upto rc) (a_nbs a) = filter (upto rc) (firstn k (a_nbs a)) ++ filter (upto rc) (skipn k (a_nbs a))).
    { rewrite <- filter_app, firstn_skipn. reflexivity. }
    rewrite E, filter_filter' in L. apply (f_equal (@length _)) in L. rewrite app_length in L. apply length_zero_iff_nil. lia. }
  assert (Hin : In m (skipn k (a_nbs a))).
  { rewrite <- (firstn_skipn k (a_nbs a)) in Hm. pose proof (count_le rc (a_nbs a)). fold k in H. rewrite nth_error_app2 in Hm; rewrite firstn_length, Nat.min_l in * by lia; [|lia].
    eapply nth_error_In; eauto. }
  destruct (Rle_dec (nb_d m) rc) as [H|H]; [|lra].
  assert (In m (filter (upto rc) (skipn k (a_nbs a)))). { apply filter_In. split; auto. unfold upto. destruct (Rle_dec _ _); auto. }
  rewrite Z0 in H0. destruct H0.
Qed.
Lemma near_in N n rc i a : long N n rc i a -> forall m, In m (near rc a) <-> In m (a_nbs a) /\ nb_d m <= rc.
Proof.
  intros (_ & E & _) m. rewrite E, filter_In. unfold upto. destruct (Rle_dec _ _); intuition; discriminate.
Qed.
Lemma near_nth rc a j : (j < count_below rc (a_nbs a))%nat -> nth_error (near rc a) j = nth_error (a_nbs a) j.
Proof.
  intros H. unfold near. set (k := count_below rc (a_nbs a)) in *.
  transitivity (nth_error (firstn k (a_nbs a) ++ skipn k (a_nbs a)) j); [|now rewrite firstn_skipn].
  symmetry. apply nth_error_app1. rewrite firstn_length. pose proof (count_le rc (a_nbs a)). lia.
Qed.
Lemma near_length rc a : length (near rc a) = count_below rc (a_nbs a).
Proof. unfold near. rewrite firstn_length. pose proof (count_le rc (a_nbs a)). lia. Qed.
Lemma cut_good rc a : good_list a -> good_list (cut_atom rc a).
Proof.
  intros (H1 & H2 & H3). split; [reflexivity|]. split.
  - intros m Hm. apply H2. cbn [a_nbs cut_atom] in Hm. unfold near in Hm. rewrite <- (firstn_skipn (count_below rc (a_nbs a))). apply in_app_iff. auto.
  - intros r. unfold getStoredMinNumNeighbors. cbn [cut_atom a_cutoffs cfind a_numN a_nbs]. split; auto.
    intros j m Hj E. apply nth_error_None in Hj. congruence.
Qed.
(** Symmetry functions of the long and of the cut list agree. *)
Lemma calculateAll_cut N n rc i a Z fs : long N n rc i a -> (forall f, In f fs -> no_slots f /\ cutoff_of (sf_kind f) <= rc) ->
  calculateAll Z fs a true allocated = calculateAll Z fs (cut_atom rc a) true allocated.
Proof.
  intros Hl Hf. apply (calculateAll_same a (cut_atom rc a) (count_below rc (a_nbs a)) rc); auto.
  - apply Hl.
  - apply cut_good, Hl.
  - apply count_le.
  - cbn [cut_atom a_nbs]. now rewrite near_length.
  - intros j Hj. cbn [cut_atom a_nbs]. symmetry. now apply near_nth.
  - intros j m Hj Hm. pose proof (beyond _ _ _ _ _ Hl j m Hj Hm). lra.
  - intros j m Hj Hm. cbn [cut_atom a_nbs] in Hm. rewrite <- near_length in Hj. apply nth_error_None in Hj. congruence.
Qed.

Lemma sequence_all {A} (l : list (option A)) r : sequence l = Some r -> ~ In None l.
Proof.
  revert r. induction l as [|[a|] l IH]; intros r E; cbn in *; try discriminate; auto.
  destruct (sequence l) as [t|]; [|discriminate]. intros [H|H]; [discriminate|]. now apply (IH t).
Qed.
(** ** The list of a 4G evaluation *)
Section Stage.
Variables (N : nat) (rc R0 : R) (s : structure).
Hypothesis Hrc : 0 <= rc.
Hypothesis HR0 : rc <= R0.
Hypothesis HN : s_numElements s = N.
Hypothesis Hs : unprocessed rc s.
Let n := length (s_atoms s).
Definition with_maxrc (s : structure) : structure := mkStruct (s_periodic s) (s_box s) (s_atoms s) (s_numElements s) (s_hasNL s) (s_sorted s) R0.

Lemma long_stage nsort fuel cutoffs s' : is_sort nsort -> (N <= length cutoffs)%nat ->
  calculateNeighborListCutoffs nsort fuel rc cutoffs (with_maxrc s) = Some s' ->
  length (s_atoms s') = n /\ s_periodic s' = s_periodic s /\ s_box s' = s_box s /\ s_sorted s' = true /\
  (forall i ai, nth_error (s_atoms s) i = Some ai -> exists ai', nth_error (s_atoms s') i = Some ai' /\ a_r ai' = a_r ai /\
     long N n rc i ai' /\ listed N rc s i ai (cut_atom rc ai')) /\
  (forall i j ai aj, nth_error (s_atoms s') i = Some ai -> nth_error (s_atoms s') j = Some aj ->
    Permutation (map nb_dr (filter (fun n => Nat.eqb (nb_index n) j) (a_nbs ai)))
              (map (fun n => vopp (nb_dr n)) (filter (fun n => Nat.eqb (nb_index n) i) (a_nbs aj)))).
Proof.
  intros Hsort Hcut E. destruct Hs as (Hl & Hz & Hc & Hw & Hm).
  assert (HR : Rmax rc R0 = R0) by (apply Rmax_right; auto).
  unfold calculateNeighborListCutoffs in E. destruct (calculateNeighborList nsort fuel rc true (with_maxrc s)) as [s1|] eqn:E1; [|discriminate].
  destruct (list_correct nsort fuel rc true (with_maxrc s) s1 Hsort Hl Hw) as (L1 & HC); auto. { cbn [s_maxrc with_maxrc]. rewrite HR. lra. }
  cbn [s_maxrc with_maxrc] in HC. rewrite HR in HC.
  destruct (cutoff_map_correct nsort fuel rc cutoffs (with_maxrc s) s1 Hsort Hl Hc) as (s2 & E2 & L2 & HM); auto.
  { intros a Ha. destruct (Hl a Ha) as (_ & _ & _ & _ & H & _). rewrite HN in H. lia. }
  rewrite E in E2. injection E2 as <-.
  destruct (calculate_spec nsort fuel rc true (with_maxrc s) s1 Hsort Hl E1) as (pbc & _ & _ & B1 & B2 & _ & _ & B3 & _ & HA).
  assert (HS : exists l, sequence (map (setup_atom_cutoffs (map (prepare_cutoffs (s_maxrc s1)) cutoffs)) (s_atoms s1)) = Some l /\ s' = set_atoms s1 l).
  { unfold setupNeighborCutoffMap in E. rewrite (B3 eq_refl) in E. destruct (sequence _) as [l|]; [|discriminate]. injection E as <-. eauto. }
  destruct HS as (l & El & ES). pose proof (sequence_all _ _ El) as El0. apply sequence_spec in El as [El1 El2]. rewrite map_length in El1.
  assert (HD : forall i a1 a2, nth_error (s_atoms s1) i = Some a1 -> nth_error (s_atoms s') i = Some a2 -> exists m, a2 = set_cutoffs m a1).
  { intros i a1 a2 H1 H2. rewrite ES in H2. cbn [s_atoms set_atoms] in H2.
    assert (i < length l)%nat by (apply nth_error_Some; congruence).
    destruct (setup_atom_cutoffs (map (prepare_cutoffs (s_maxrc s1)) cutoffs) a1) as [a|] eqn:Ea.
    - assert (nth_error l i = Some a). { symmetry. apply El2. rewrite nth_error_map, H1. cbn. now rewrite Ea. }
      rewrite H2 in H0. injection H0 as <-. unfold setup_atom_cutoffs in Ea. destruct (nth_error (map (prepare_cutoffs (s_maxrc s1)) cutoffs) (a_element a1)); [|discriminate].
      destruct (cutoff_loop _ _ _ _ _ _ _) as [m|]; [|discriminate]. injection Ea as <-. eauto.
    - exfalso. apply El0. rewrite <- Ea. apply in_map. eapply nth_error_In; eauto. }
  split; [rewrite L2, L1; reflexivity|]. split; [rewrite ES; exact B1|]. split; [rewrite ES; exact B2|]. split; [rewrite ES; apply B3; auto|].
  split.
  2:{ intros i j ai aj Hi Hj.
      assert (X : forall i a, nth_error (s_atoms s') i = Some a -> exists a1, nth_error (s_atoms s1) i = Some a1 /\ a_nbs a = a_nbs a1).
      { intros q a Hq. destruct (nth_error (s_atoms s1) q) as [a1|] eqn:Eq.
        - destruct (HM q a1 Eq) as (a2 & F1 & F2 & _). rewrite Hq in F1. injection F1 as <-. eauto.
        - apply nth_error_None in Eq. assert (q < length (s_atoms s'))%nat by (apply nth_error_Some; congruence). lia. }
      destruct (X i ai Hi) as (bi & F1 & ->). destruct (X j aj Hj) as (bj & F2 & ->).
      apply (list_symmetric nsort fuel rc true (with_maxrc s) s1 i j bi bj Hsort Hl E1 F1 F2). }
  intros i ai Hi. destruct (HC i ai Hi) as (a1 & L & nbs & Ei & Er & Ee & Pm & F2 & ND & HL).
  destruct (HM i a1 Ei) as (ai' & Ei' & En & _ & Hfil & Hst & _). exists ai'. split; auto.
  destruct (HD i a1 ai' Ei Ei') as (mp & Emp).
  destruct (counters_correct nsort fuel rc true (with_maxrc s) s1 i a1 Hsort Hl Hz E1 Ei) as (C1 & _ & _ & U & C2 & C3 & C4).
  assert (Ea : a_r ai' = a_r a1 /\ a_element ai' = a_element a1 /\ a_numN ai' = a_numN a1 /\ a_unique ai' = a_unique a1) by (rewrite Emp; auto).
  destruct Ea as (Ea1 & Ea2 & Ea3 & Ea4). split; [congruence|].
  assert (X : exists L', Permutation L L' /\ Forall2 (stored s ai) L' (a_nbs ai')).
  { assert (F2' : Forall2 (fun x y => stored s ai y x) nbs L). { clear - F2. induction F2; constructor; auto. }
    rewrite En. destruct (Permutation_Forall2 (Permutation_sym Pm) F2') as (L' & P1 & P2). exists L'. split; auto.
    clear - P2. induction P2; constructor; auto. }
  destruct X as (L' & P1 & P2).
  assert (St : forall m, In m (a_nbs ai') -> exists p, In p L' /\ stored s ai p m).
  { intros m Hin. destruct (Forall2_in_r _ _ _ m P2 Hin) as (p & Hp & Hst'). eauto. }
  assert (Hfi : near rc ai' = filter (upto rc) (a_nbs ai')).
  { assert (HS : Sorted (fun x y => nb_d x <= nb_d y) (a_nbs ai')).
    { destruct (HA i ai Hi) as (a3 & E3 & _ & S3). rewrite Ei in E3. injection E3 as <-. rewrite En. auto. }
    unfold near, count_below. clear - HS. apply Sorted_StronglySorted in HS; [|intros x y z; lra].
    change (fun n : neighbor => if Rle_dec (nb_d n) rc then true else false) with (upto rc).
    induction HS as [|x l HS IH HF]; cbn [filter length firstn]; auto. destruct (upto rc x) eqn:Ex; cbn [length firstn]; [f_equal; auto|].
    assert (Z0 : filter (upto rc) l = []). { rewrite Forall_forall in HF. unfold upto in Ex |- *. clear - Ex HF. destruct (Rle_dec (nb_d x) rc); [discriminate|].
      induction l as [|y l IH]; cbn; auto. pose proof (HF y (or_introl eq_refl)). destruct (Rle_dec (nb_d y) rc); [lra|]. apply IH. intros; apply HF; now right. }
    rewrite Z0. reflexivity. }
  assert (Hlong : long N n rc i ai').
  { split; [|split; [exact Hfi|split; [apply Hst|split]]].
    - split; [congruence|]. split.
      + intros m Hin. destruct (St m Hin) as (p & _ & aj & _ & _ & _ & _ & -> & ->). reflexivity.
      + intros r. rewrite Ea3, C1, <- En. split; [apply Hst|]. intros j m Hj Em.
        destruct (Rle_dec r (nb_d m)) as [|Hgt]; auto. exfalso.
        assert (HS : Sorted (fun x y => nb_d x <= nb_d y) (a_nbs ai')).
        { destruct (HA i ai Hi) as (a3 & E3 & _ & S3). rewrite Ei in E3. injection E3 as <-. rewrite En. auto. }
        assert (Hcb : (j < count_below r (a_nbs ai'))%nat).
        { clear - HS Em Hgt. apply Sorted_StronglySorted in HS; [|intros x y z; lra]. unfold count_below. revert j Em.
          induction HS as [|x l HS IH HF]; intros [|j] Em; cbn in Em; try discriminate.
          - injection Em as <-. cbn. destruct (Rle_dec _ _); [cbn; lia|lra].
          - specialize (IH j Em). rewrite Forall_forall in HF. pose proof (HF m (nth_error_In _ _ Em)). cbn. destruct (Rle_dec _ _); [cbn; lia|lra]. }
        pose proof (Hst r). lia.
    - intros m Hin. destruct (St m Hin) as (p & _ & aj & Ej & E1' & E2' & E3 & _). rewrite E1', E2', E3. split; [|split; auto].
      + rewrite <- HN. apply Hl. eapply nth_error_In; eauto.
      + apply nth_error_Some. congruence.
    - exists U. rewrite Ea4. split; auto. inversion C3; subst. split; auto. }
  split; auto.
  pose proof (near_in _ _ _ _ _ Hlong) as NI.
  split; [cbn [cut_atom a_element]; congruence|]. split; [apply cut_good, Hlong|]. split; [intros r; reflexivity|]. split; [|split].
  - intros m Hin. apply NI in Hin as [Hin _]. destruct Hlong as (_ & _ & _ & H & _). destruct (H m Hin) as (A & B & _). auto.
  - cbn [cut_atom a_nbs].
    assert (P3 : exists L2, NoDup L2 /\ Forall2 (stored s ai) L2 (near rc ai') /\ forall p, In p L2 <-> In p L' /\ exists m, stored s ai p m /\ nb_d m <= rc).
    { rewrite Hfi. assert (ND' : NoDup L') by (eapply Permutation_NoDup; eauto). clear - P2 ND'.
      induction P2 as [|p m L1 l Hst P2 IH]; [exists []; split; [constructor|split; [constructor|]]; intros p; cbn; tauto|].
      inversion ND'; subst. destruct (IH H2) as (L2 & A & B & C).
      assert (Eq : forall m', stored s ai p m' -> nb_d m' = nb_d m).
      { destruct Hst as (aj & A1 & _ & _ & _ & _ & A2). intros m' (aj' & A3 & _ & _ & _ & _ & A4). rewrite A1 in A3. injection A3 as <-. congruence. }
      cbn [filter]. unfold upto at 1. destruct (Rle_dec (nb_d m) rc) as [Hd|Hd].
      - exists (p :: L2). split; [constructor; auto; rewrite C; tauto|]. split; [constructor; auto|]. intros q. cbn [In]. rewrite C.
        split; [intros [->|[X Y]]; eauto|]. intros [[->|X] Y]; auto.
      - exists L2. split; auto. split; auto. intros q. rewrite C. cbn [In]. split; [intros [X Y]; auto|]. intros [[->|X] Y]; auto.
        exfalso. destruct Y as (m' & Y1 & Y2). rewrite (Eq _ Y1) in Y2. lra. }
    destruct P3 as (L2' & A & B & C). exists L2'. split; auto. split; auto. intros j m. rewrite C.
    assert (HL' : In (j, m) L' <-> in_range s R0 i j m).
    { change (in_range s R0 i j m) with (in_range (with_maxrc s) R0 i j m). rewrite <- HL. split; apply Permutation_in; auto. now apply Permutation_sym. }
    rewrite HL'. split.
    + intros ((a & b & Q1 & Q2 & Q3 & Q4 & Q5) & m' & (aj & R1 & _ & _ & _ & _ & R2) & R3). exists a, b. cbn [fst snd] in *.
      rewrite Hi in Q1. injection Q1 as <-. rewrite Q2 in R1. injection R1 as <-. rewrite R2 in R3. auto.
    + intros (a & b & Q1 & Q2 & Q3 & Q4 & Q5). split; [exists a, b; repeat (split; auto); lra|].
      rewrite Hi in Q1. injection Q1 as <-.
      exists (mkNb j (Z.of_nat j) (a_element b) (norm (displacement s ai b m)) (displacement s ai b m)). split; [|exact Q5].
      exists b. cbn. auto 10.
  - cbn [cut_atom a_unique a_nbs]. rewrite Ea4, C2. exists (filter (sees (near rc ai')) U). split; auto. inversion C3; subst. split; [now apply NoDup_filter|].
    intros j. rewrite filter_In. unfold sees. rewrite existsb_exists. rewrite C4. split.
    + intros [[A _] (m & B & C)]. split; auto. exists m. split; auto. now apply Nat.eqb_eq.
    + intros [A (m & B & C)]. split; [split; auto|].
      * exists m. split; auto. rewrite <- En. now apply NI.
      * exists m. split; auto. now apply Nat.eqb_eq.
Qed.
End Stage.
