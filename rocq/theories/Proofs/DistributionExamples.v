(** Outcomes of nnp-dist and concrete cases (C89, C90). *)
From Coq Require Import Reals Lra Lia ZArith Bool Arith Permutation.
From Coq Require Import List.
From Verif Require Import Base.Vec3 Base.SumR Model.Geometry Model.NeighborList Model.SymLines Model.Distribution Spec.GeometrySpec Spec.NeighborSpec
  Spec.DistributionSpec Spec.SetupSpec Proofs.SetupExamples Proofs.NeighborMore Proofs.NeighborSort Proofs.SymLineProofs Proofs.DistributionFill Proofs.DistributionCount
  Proofs.DistributionStep Proofs.DistributionProofs Proofs.DistributionMain Proofs.EnvironmentExamples.
Import ListNotations.
Local Open Scope R_scope.

Lemma bump_defined v : forall i x, bump v i x <> Undefined.
Proof. induction v as [|y v IH]; intros [|i] x; cbn; try discriminate. specialize (IH i x). destruct (bump v i x); cbn; congruence. Qed.
Lemma fill_defined numBins rc ei nbs : forall st, fill_neighbors numBins rc false ei nbs st <> Undefined.
Proof.
  induction nbs as [|nb nbs IH]; intros (rh, ah); cbn [fill_neighbors]; [discriminate|]. unfold bump_at.
  pose proof (bump_defined (rh (pair_key ei (nb_element nb))) (floor_size (nb_d nb / dr numBins rc)) (if Nat.eqb ei (nb_element nb) then 1 else 1 / 2)) as B.
  destruct (bump _ _ _); cbn [bindo]; try congruence. apply IH.
Qed.
Lemma foldo_defined {A S} (f : A -> S -> outcome S) l : (forall x s, In x l -> f x s <> Undefined) -> forall s, foldo f l s <> Undefined.
Proof.
  induction l as [|x l IH]; intros H s; cbn [foldo]; [discriminate|]. pose proof (H x s (or_introl eq_refl)). destruct (f x s); cbn [bindo]; try congruence.
  apply IH. intros y t I. apply H. now right.
Qed.
Theorem outcomes numElements numBins rc nsort structures : (0 < numElements)%nat -> (0 < numBins)%nat -> 0 < rc -> is_sort nsort -> structures <> [] ->
  Forall (readable numElements) structures -> exists fuel0, forall fuel, (fuel0 <= fuel)%nat ->
  match nnp_dist numElements numBins rc false nsort fuel structures with
  | Done _ => forall s, In s structures -> none_at_cutoff s rc
  | Thrown => ~ (forall s, In s structures -> none_at_cutoff s rc)
  | Undefined => False
  end.
Proof.
  intros NE NB RC IS NN RD.
  assert (T : exists fuel0, forall fuel, (fuel0 <= fuel)%nat -> forall s, In s structures -> exists s', calculateNeighborList nsort fuel rc false s = Some s').
  { clear NN. induction RD as [|s l R0 RD IH]; [exists 0%nat; intros fuel _ s []|]. destruct IH as (f1 & H1).
    destruct (list_terminates nsort rc false s) as (f2 & H2); [apply R0 | intros P; now apply R0|]. exists (Nat.max f1 f2). intros fuel LF x [<- | I]; [apply H2; lia | apply H1; auto; lia]. }
  destruct T as (f1 & T).
  assert (F2 : exists f2, forall fuel, (f2 <= fuel)%nat -> (forall s, In s structures -> none_at_cutoff s rc) -> exists out, nnp_dist numElements numBins rc false nsort fuel structures = Done out).
  {
    assert (X : (forall s, In s structures -> none_at_cutoff s rc) -> exists f2, forall fuel, (f2 <= fuel)%nat -> exists out, nnp_dist numElements numBins rc false nsort fuel structures = Done out).
    { intros NC. apply (finishes numElements numBins rc false nsort structures); auto; [discriminate|]. now apply Forall_forall. }
    destruct (Classical_Prop.classic (forall s, In s structures -> none_at_cutoff s rc)) as [C|C]; [|exists 0%nat; intros fuel _ N; contradiction].
    destruct (X C) as (f2 & H2). exists f2. intros fuel LF _. auto. }
  destruct F2 as (f2 & F2). exists (Nat.max f1 f2). intros fuel LF.
  destruct (nnp_dist numElements numBins rc false nsort fuel structures) as [out| |] eqn:E.
  - unfold nnp_dist in E. destruct (_ || _)%bool; [discriminate|]. destruct (foldo _ _ _) as [d| |] eqn:F; try discriminate.
    apply Forall_forall. apply (run_inv numElements numBins rc false nsort NB RC IS structures fuel RD (dist_init numBins) d); auto. apply (clean_init numBins).
  - intros C. destruct (F2 fuel ltac:(lia) C) as (out & O). congruence.
  - unfold nnp_dist in E. destruct (Nat.eqb_spec numBins 0); [lia|]. destruct (Nat.eqb_spec numElements 0); [lia|]. cbn [orb] in E.
    destruct (foldo _ _ _) as [d| |] eqn:F; try discriminate.
    + cbn [bindo] in E. destruct (Nat.eqb_spec (d_count d) 0) as [Z|Z]; [|discriminate].
      assert (G : forall l d0 d1, foldo (dist_structure numElements numBins rc false nsort fuel) l d0 = Done d1 -> d_count d1 = (d_count d0 + length l)%nat).
      { clear. induction l as [|s l IH]; intros d0 d1 H; [injection H as <-; cbn; lia|]. cbn [foldo] in H. destruct (dist_structure _ _ _ _ _ _ s d0) as [d2| |] eqn:D; try discriminate.
        cbn [bindo] in H. rewrite (IH _ _ H). unfold dist_structure in D. destruct (calculateNeighborList _ _ _ _ _); [|discriminate]. destruct (fill_atoms _ _ _ _ _) as [(rh, ah)| |]; try discriminate.
        cbn [bindo] in D. destruct (rdf_step _ _ _ _ _ _). injection D as <-. cbn. lia. }
      apply G in F. cbn in F. rewrite Z in F. destruct structures; [congruence | cbn in F; lia].
    + revert F. apply foldo_defined. intros s d0 I. destruct (T fuel ltac:(lia) s I) as (s' & C). unfold dist_structure. rewrite C.
      assert (X : fill_atoms numBins rc false (s_atoms s') (d_rhist d0, d_ahist d0) <> Undefined) by (apply foldo_defined; intros; apply fill_defined).
      destruct (fill_atoms _ _ _ _ _) as [(rh, ah)| |]; cbn [bindo]; try congruence. destruct (rdf_step _ _ _ _ _ _). discriminate.
Qed.

(** ** H, O and H on a line *)
Lemma ho_separations rc a b m v : in_range ho_cell rc a b m -> separation ho_cell a b m v -> norm v = 1 \/ norm v = 2 \/ norm v = 3.
Proof.
  intros (x & y & X & Y & P & N & _) (x' & y' & X' & Y' & ->). rewrite X in X'. rewrite Y in Y'. injection X' as <-. injection Y' as <-.
  rewrite (P eq_refl) in *. assert (NE : a <> b) by congruence.
  assert (D : forall p q e f, displacement ho_cell (fresh_atom e (mkVec p 0 0) 2) (fresh_atom f (mkVec q 0 0) 2) (0, 0, 0)%Z = vsub (mkVec p 0 0) (mkVec q 0 0)).
  { intros p q e f. unfold displacement, position_of_image, lattice. cbn. unfold vsub, vadd, smul. cbn. f_equal; ring. }
  destruct a as [|[|[|a]]]; cbn in X; try (destruct a; discriminate X); injection X as <-;
    (destruct b as [|[|[|b]]]; cbn in Y; try (destruct b; discriminate Y); injection Y as <-; try congruence); rewrite D;
    first [left; apply norm_line; lra | right; left; apply norm_line; lra | right; right; apply norm_line; lra].
Qed.
Lemma ho_readable : readable 2 ho_cell.
Proof. destruct ho_fresh as (A & _ & C). split; auto. Qed.
Lemma ho_none rc : rc <> 1 -> rc <> 2 -> rc <> 3 -> none_at_cutoff ho_cell rc.
Proof. intros R1 R2 R3 a b m v I SP. destruct (ho_separations rc a b m v I SP) as [E|[E|E]]; rewrite E; auto. Qed.
Lemma ho_apart : apart ho_cell.
Proof.
  intros a b m v P N SP. pose proof SP as (x & y & X & Y & ->).
  assert (I : in_range ho_cell (norm (displacement ho_cell x y m)) a b m) by (exists x, y; repeat split; auto; lra).
  destruct (ho_separations _ _ _ _ _ I SP) as [E|[E|E]]; rewrite E; lra.
Qed.
Lemma at_cutoff : exists structures nsort,
  Forall (readable 2) structures /\ Forall apart structures /\ is_sort nsort /\
  exists fuel0, forall fuel, (fuel0 <= fuel)%nat -> nnp_dist 2 100 3 false nsort fuel structures = Thrown.
Proof.
  assert (IS : is_sort (isort nb_lt)) by (apply neighbor_sort, neighbor_sort_exists).
  exists [ho_cell], (isort nb_lt). split; [constructor; auto using ho_readable|]. split; [constructor; auto using ho_apart|]. split; auto.
  destruct (outcomes 2 100 3 (isort nb_lt) [ho_cell]) as (f & H); auto; try lia; try lra; try congruence; [constructor; auto using ho_readable|].
  exists f. intros fuel LF. specialize (H fuel LF). destruct (nnp_dist _ _ _ _ _ _ _); auto; [|destruct H]. exfalso.
  assert (N : norm (displacement ho_cell (fresh_atom 1 (mkVec 1 0 0) 2) (fresh_atom 0 (mkVec (-2) 0 0) 2) (0, 0, 0)%Z) = 3).
  { replace (displacement _ _ _ _) with (vsub (mkVec 1 0 0) (mkVec (-2) 0 0)); [apply norm_line; lra|].
    unfold displacement, position_of_image, lattice. cbn. unfold vsub, vadd, smul. cbn. f_equal; ring. }
  apply (H ho_cell (or_introl eq_refl) 1%nat 2%nat (0, 0, 0)%Z (displacement ho_cell (fresh_atom 1 (mkVec 1 0 0) 2) (fresh_atom 0 (mkVec (-2) 0 0) 2) (0, 0, 0)%Z)); auto.
  - eexists. eexists. split; [reflexivity|]. split; [reflexivity|]. split; auto. split; [intros E; discriminate E|]. lra.
  - eexists. eexists. split; [reflexivity|]. split; reflexivity.
Qed.

(** ** One atom, isolated *)
Definition lone : structure := mkStruct false (mkMat vzero vzero vzero) [fresh_atom 0 (mkVec 0 0 0) 2] 2 false false 0.
Lemma lone_readable : readable 2 lone.
Proof. split; [|split; [intros H; discriminate H | auto]]. intros a [<- | []]. cbn. repeat split; auto. Qed.
Lemma lone_out rc a b m : ~ in_range lone rc a b m.
Proof.
  intros (x & y & X & Y & P & N & _). rewrite (P eq_refl) in N. destruct a as [|a]; [|destruct a; discriminate X]. destruct b as [|b]; [|destruct b; discriminate Y]. congruence.
Qed.
Lemma lone_apart : apart lone.
Proof.
  intros a b m v P N (x & y & X & Y & _). rewrite (P eq_refl) in N. destruct a as [|a]; [|destruct a; discriminate X]. destruct b as [|b]; [|destruct b; discriminate Y]. congruence.
Qed.
Lemma both_suitable : Forall (suitable 2 10 true) [ho_cell; lone].
Proof.
  constructor; [|constructor; auto].
  - split; [apply ho_readable|]. split; [apply ho_none; lra | intros _; apply ho_apart].
  - split; [apply lone_readable|]. split; [intros a b m v I; now apply lone_out in I | intros _; apply lone_apart].
Qed.
Lemma ho_range rc a b : 3 <= rc -> (a < 3)%nat -> (b < 3)%nat -> a <> b -> in_range ho_cell rc a b (0, 0, 0)%Z.
Proof.
  intros R0 LA LB NE.
  destruct (nth_error (s_atoms ho_cell) a) as [x|] eqn:X; [|apply nth_error_None in X; cbn in X; lia].
  destruct (nth_error (s_atoms ho_cell) b) as [y|] eqn:Y; [|apply nth_error_None in Y; cbn in Y; lia].
  exists x, y. split; auto. split; auto. split; auto. split; [congruence|].
  assert (I : in_range ho_cell (norm (displacement ho_cell x y (0, 0, 0)%Z)) a b (0, 0, 0)%Z) by (exists x, y; repeat split; auto; try congruence; lra).
  destruct (ho_separations _ a b (0, 0, 0)%Z (displacement ho_cell x y (0, 0, 0)%Z) I) as [E|[E|E]]; [exists x, y; auto | | |]; rewrite E; lra.
Qed.
Lemma half_integral : exists structures nsort fuel out i j k rows,
  Forall (readable 2) structures /\ Forall (fun s => none_at_cutoff s 10) structures /\ Forall apart structures /\ is_sort nsort /\
  nnp_dist 2 100 10 true nsort fuel structures = Done out /\ In ((i, (j, k)), rows) (o_adf out) /\
  (exists s c, In s structures /\ triples_with s 10 i j k (fun _ => True) c /\ c <> 0%nat) /\
  rsum (map ar_adf rows) * (180 / 100) = 1 / 2.
Proof.
  assert (IS : is_sort (isort nb_lt)) by (apply neighbor_sort, neighbor_sort_exists).
  destruct (files 2 100 10 true (isort nb_lt) [ho_cell; lone] ltac:(lia) ltac:(lia) ltac:(lra) IS ltac:(discriminate) both_suitable) as (f & H).
  destruct (H f (le_n f)) as (out & E & _ & _ & A). destruct (A eq_refl) as (_ & AI & AR).
  assert (I : In (0%nat, (0%nat, 1%nat)) (map fst (o_adf out))) by (apply AI; lia). apply in_map_iff in I. destruct I as ((key, rows) & EK & I). cbn in EK. subst key.
  destruct (AR 0%nat 0%nat 1%nat rows I) as (_ & _ & ts & TS & ET).
  exists [ho_cell; lone], (isort nb_lt), f, out, 0%nat, 0%nat, 1%nat, rows.
  pose proof both_suitable as BS. split; [eapply Forall_impl; [|exact BS]; intros s SU; apply SU|]. split; [eapply Forall_impl; [|exact BS]; intros s SU; apply SU|].
  split; [eapply Forall_impl; [|exact BS]; intros s SU; now apply SU|]. split; auto. split; auto. split; auto.
  inversion TS as [|s1 t1 l1 ts1 T1 TS1]; subst. inversion TS1 as [|s2 t2 l2 ts2 T2 TS2]; subst. inversion TS2; subst.
  assert (Z1 : t1 <> 0%nat).
  { destruct T1 as (L & _ & <- & SP). assert (IL : In (0%nat, (2%nat, (0, 0, 0)%Z), (1%nat, (0, 0, 0)%Z)) L).
    { apply SP. split; [apply ho_range; lra || lia|]. split; [apply ho_range; lra || lia|]. split; [intros X; discriminate X|].
      split; [eexists; split; reflexivity|]. split; [eexists; split; reflexivity|]. split; [eexists; split; reflexivity|].
      eexists. eexists. split; [eexists; eexists; split; [reflexivity|]; split; reflexivity|]. split; [eexists; eexists; split; [reflexivity|]; split; reflexivity | exact Logic.I]. }
    destruct L; [destruct IL | discriminate]. }
  assert (Z2 : t2 = 0%nat).
  { destruct T2 as (L & _ & <- & SP). destruct L as [|((a, (b, m)), (b', m')) L]; auto. exfalso. destruct (proj1 (SP a b m b' m') (or_introl eq_refl)) as (R0 & _). now apply lone_out in R0. }
  split; [exists ho_cell, t1; split; [now left | auto]|].
  cbn [filter length] in ET. subst t2. rewrite (proj2 (Nat.eqb_neq _ _) Z1) in ET. cbn [negb Nat.eqb filter length] in ET.
  replace (INR 100) with 100 in ET by (rewrite INR_IZR_INZ; reflexivity). rewrite ET. cbn. lra.
Qed.

(** ** One atom in a cubic cell *)
Definition cube : structure := mkStruct true (mkMat (mkVec 1 0 0) (mkVec 0 1 0) (mkVec 0 0 1)) [fresh_atom 0 (mkVec 0 0 0) 1] 1 false false 0.
Lemma cube_readable : readable 1 cube.
Proof.
  split; [|split; [|auto]].
  - intros a [<- | []]. cbn. repeat split; auto.
  - intros _. split; [unfold det, dot, cross; cbn; lra|]. intros a [<- | []]. exists (mkVec 0 0 0). split; [repeat split; cbn; lra|]. unfold GeometrySpec.combine, vadd, smul. cbn. f_equal; ring.
Qed.
Lemma cube_norm a b m v : separation cube a b m v -> norm2 v = IZR (fst (fst m) * fst (fst m) + snd (fst m) * snd (fst m) + snd m * snd m).
Proof.
  intros (x & y & X & Y & ->). destruct a as [|a]; [|destruct a; discriminate X]. destruct b as [|b]; [|destruct b; discriminate Y]. injection X as <-. injection Y as <-.
  destruct m as ((m1, m2), m3). unfold displacement, position_of_image, lattice, norm2, vsub, vadd, smul. cbn [fst snd]. cbn. rewrite !plus_IZR, !mult_IZR. ring.
Qed.
Lemma cube_suitable : Forall (suitable 1 (3 / 2) false) [cube].
Proof.
  constructor; auto. split; [apply cube_readable|]. split; [|discriminate]. intros a b m v _ SP EV. apply cube_norm in SP.
  assert (N : norm2 v = 9 / 4).
  { unfold norm in EV. rewrite <- (sqrt_sqrt (norm2 v)) by (unfold norm2; nra). rewrite EV. lra. }
  rewrite N in SP. assert (IZR (4 * (fst (fst m) * fst (fst m) + snd (fst m) * snd (fst m) + snd m * snd m)) = IZR 9) as Z by (rewrite mult_IZR, <- SP; lra). apply eq_IZR in Z. lia.
Qed.
Lemma no_coordination : exists structures nsort fuel out rows row,
  Forall (readable 1) structures /\ Forall (fun s => none_at_cutoff s (3 / 2)) structures /\ is_sort nsort /\
  nnp_dist 1 1 (3 / 2) false nsort fuel structures = Done out /\ In ((0, 0)%nat, rows) (o_rdf out) /\
  nth_error rows 0 = Some row /\ rr_high row = 3 / 2 /\ rr_cn row = Some 0 /\
  forall s, In s structures -> in_range s (3 / 2) 0 0 (1, 0, 0)%Z.
Proof.
  assert (IS : is_sort (isort nb_lt)) by (apply neighbor_sort, neighbor_sort_exists).
  destruct (files 1 1 (3 / 2) false (isort nb_lt) [cube] ltac:(lia) ltac:(lia) ltac:(lra) IS ltac:(discriminate) cube_suitable) as (f & H).
  destruct (H f (le_n f)) as (out & E & (_ & RI & RR) & _).
  assert (I : In (0%nat, 0%nat) (map fst (o_rdf out))) by (apply RI; lia). apply in_map_iff in I. destruct I as ((key, rows) & EK & I). cbn in EK. subst key.
  destruct (RR 0%nat 0%nat rows I) as ((LEN & RW) & _ & (CN & _)). destruct rows as [|row rows]; [discriminate|].
  exists [cube], (isort nb_lt), f, out, (row :: rows), row. split; [constructor; auto using cube_readable|].
  split; [constructor; auto; destruct (proj1 (Forall_forall _ _) cube_suitable cube (or_introl eq_refl)) as (_ & C & _); exact C|]. split; auto. split; auto. split; auto. split; auto.
  destruct (RW 0%nat row eq_refl) as (_ & HI & _). split; [rewrite HI; cbn; lra|]. split.
  - rewrite (CN ltac:(intros s [<- | []]; reflexivity) 0%nat row eq_refl). unfold sumn. reflexivity.
  - intros s [<- | []]. eexists. eexists. split; [reflexivity|]. split; [reflexivity|]. split; [discriminate|]. split; [intros X; discriminate X|].
    set (v := displacement _ _ _ _). assert (SP : separation cube 0 0 (1, 0, 0)%Z v) by (eexists; eexists; split; [reflexivity|]; split; reflexivity).
    apply cube_norm in SP. cbn in SP. unfold norm. rewrite SP. change (IZR 1) with 1. rewrite sqrt_1. lra.
Qed.
