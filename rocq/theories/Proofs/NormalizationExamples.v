From Coq Require Import Reals List Arith Bool Lia Lra String Ascii.
From Coq Require Import List.
From Verif Require Import Base.Vec3 Base.SumR Model.Strings Model.Settings Model.SymFunctions Model.Units Spec.UnitsSpec Proofs.UnitsProofs
  Model.Normalization Spec.NormalizationSpec Proofs.NormalizationProofs.
Import ListNotations.
Local Open Scope R_scope.

Lemma dataset_total m cE cL cQ all : cE <> 0 -> cL <> 0 -> cQ <> 0 -> (forall s, In s all -> allocated_structure s) ->
  exists all', datasetToNormalized m cE cL cQ all = Some all'.
Proof.
  intros H1 H2 H3 Ha.
  destruct (omap_round_trip (toNormalizedUnits m cE cL cQ) (toPhysicalUnits m cE cL cQ) allocated_structure
    (fun s Hs => proj1 (structure_round_trip m cE cL cQ s H1 H2 H3 Hs)) all Ha) as (l & E & _). exists l. exact E.
Qed.
Lemma ref_total procs useForces cQ : let all := concat procs in
  all <> [] -> (forall x, In x all -> counted x /\ allocated_structure x) -> cQ <> 0 -> deviation (energies_ref all) <> 0 ->
  (useForces = true -> deviation (forces_ref all) <> 0) ->
  exists m cE cL all', dataSetNormalization (lit "ref") useForces procs = Convert m cE cL /\
    datasetToNormalized m cE cL cQ all = Some all' /\
    mean (energies_ref all') = 0 /\ deviation (energies_ref all') = 1 /\
    (useForces = true -> deviation (forces_ref all') = 1) /\ (useForces = false -> cL = 1).
Proof.
  intros all Ne H HQ D1 D2.
  assert (Hc : forall x, In x all -> counted x) by (intros; now apply H).
  destruct (statistics procs) as [mm ss] eqn:St.
  destruct (statistics_spec procs mm ss Ne Hc St) as (S1 & _ & _ & _ & S5 & _ & S7 & _). fold all in S1, S5, S7.
  set (cL := if useForces then na_fRef ss / na_eRef ss else 1).
  assert (E : dataSetNormalization (lit "ref") useForces procs = Convert (na_eRef mm) (1 / na_eRef ss) cL).
  { unfold dataSetNormalization. rewrite St. reflexivity. }
  destruct (dataset_total (na_eRef mm) (1 / na_eRef ss) cL cQ all) as [all' C]; auto.
  { rewrite S5. unfold Rdiv. rewrite Rmult_1_l. now apply Rinv_neq_0_compat. }
  { unfold cL. destruct useForces; [|lra]. rewrite S5, S7. unfold Rdiv. apply Rmult_integral_contrapositive_currified; [now apply D2|now apply Rinv_neq_0_compat]. }
  { intros s Hs. now apply H. }
  exists (na_eRef mm), (1 / na_eRef ss), cL, all'. split; [exact E|]. split; [exact C|].
  eapply normalized_ref; eauto.
Qed.
Lemma force_total procs cQ : let all := concat procs in
  all <> [] -> (forall x, In x all -> counted x /\ allocated_structure x) -> cQ <> 0 ->
  deviation (forces_ref all) <> 0 -> deviation (forces_nnp all) <> 0 ->
  exists m cE cL all', dataSetNormalization (lit "force") true procs = Convert m cE cL /\
    datasetToNormalized m cE cL cQ all = Some all' /\
    mean (energies_ref all') = 0 /\ deviation (forces_ref all') = 1.
Proof.
  intros all Ne H HQ D1 D2.
  assert (Hc : forall x, In x all -> counted x) by (intros; now apply H).
  destruct (statistics procs) as [mm ss] eqn:St.
  destruct (statistics_spec procs mm ss Ne Hc St) as (S1 & _ & _ & _ & S5 & _ & S7 & S8). fold all in S1, S5, S7, S8.
  assert (E : dataSetNormalization (lit "force") true procs = Convert (na_eRef mm) (na_fNnp ss / na_fRef ss) (na_fNnp ss)).
  { unfold dataSetNormalization. rewrite St. reflexivity. }
  destruct (dataset_total (na_eRef mm) (na_fNnp ss / na_fRef ss) (na_fNnp ss) cQ all) as [all' C]; auto.
  { rewrite S7, S8. unfold Rdiv. apply Rmult_integral_contrapositive_currified; [assumption|now apply Rinv_neq_0_compat]. }
  { now rewrite S8. }
  { intros s Hs. now apply H. }
  eexists _, _, _, all'. split; [exact E|]. split; [exact C|].
  eapply normalized_force; eauto.
Qed.
Lemma force_needs_forces procs : dataSetNormalization (lit "force") false procs = Throws.
Proof. unfold dataSetNormalization. destruct (statistics procs). reflexivity. Qed.
Lemma other_modes mode useForces procs : mode <> lit "stats-only" -> mode <> lit "ref" -> mode <> lit "force" ->
  dataSetNormalization mode useForces procs = Throws.
Proof.
  intros H1 H2 H3. unfold dataSetNormalization. destruct (statistics procs).
  assert (N : forall q, mode <> q -> str_eqb mode q = false) by (intros q Hq; unfold str_eqb; destruct (list_eq_dec _ _ _); congruence).
  now rewrite !N.
Qed.

(** ** Example: two processes with one structure each. *)
Definition exAtom (f : vec) : qatom := mkQA false false false 0 0 vzero f f 0 0 [] [] [].
Definition exStructure (e : R) (fs : list vec) : qstructure :=
  mkQS false (List.length fs) [List.length fs] e e 0 0 0 (mkMat vzero vzero vzero) (mkMat vzero vzero vzero) (map exAtom fs).
Definition exProcs : list (list qstructure) := [[exStructure 0 [mkVec 1 0 0]]; [exStructure 4 [mkVec (-1) 0 0; mkVec 0 2 0]]].
Lemma sqrt_nz x : 0 < x -> sqrt x <> 0.
Proof. intros H. pose proof (sqrt_lt_R0 x H). lra. Qed.
Lemma exProcs_ok : concat exProcs <> [] /\ (forall x, In x (concat exProcs) -> counted x /\ allocated_structure x) /\
  deviation (energies_ref (concat exProcs)) <> 0 /\ deviation (forces_ref (concat exProcs)) <> 0 /\ deviation (forces_nnp (concat exProcs)) <> 0.
Proof.
  split; [discriminate|]. split; [|split; [|split]].
  - intros x [<-|[<-|[]]]; (split; [split; [reflexivity|discriminate]|]); intros a Ha; cbn in Ha; intuition (subst; discriminate).
  - apply sqrt_nz. unfold mean, energies_ref. cbn -[Rmult Rdiv Rminus Rplus Rinv pow INR IZR]. cbn [INR]. lra.
  - apply sqrt_nz. unfold mean, forces_ref, components. cbn -[Rmult Rdiv Rminus Rplus Rinv pow INR IZR]. cbn [INR]. lra.
  - apply sqrt_nz. unfold mean, forces_nnp, components. cbn -[Rmult Rdiv Rminus Rplus Rinv pow INR IZR]. cbn [INR]. lra.
Qed.
