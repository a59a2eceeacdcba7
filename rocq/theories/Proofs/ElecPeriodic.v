(** Charge equilibration of periodic structures. *)
From Coq Require Import Reals ZArith List Bool Arith Lia Lra.
From Coq Require Import List.
From Verif Require Import Base.Vec3 Base.Loop Base.SumR Base.Erf Base.Linear Model.CompactScreening Model.Geometry Model.NeighborList
  Model.Kspace Model.SymFunctions Model.Electrostatics Spec.GeometrySpec Spec.KspaceSpec Spec.ElecSpec Proofs.UnitsProofs Proofs.KspaceProofs
  Proofs.ElecFill Proofs.ElecQeq.
Import ListNotations.
Local Open Scope R_scope.

Section Periodic.
Variables (hardness sigma : nat -> R) (fs : screening_function) (eps : R) (s : cstruct) (W : ewald) (fuel : nat) (L : list vec).
Let P := element_parameters hardness sigma fs eps.
Let N := cnum s.
Let V := calculateVolume (cs_box s).
Hypothesis Heps : 0 < eps.
Hypothesis Hsig : forall e, 0 < sigma e.
Hypothesis Hper : cs_periodic s = true.
Hypothesis Hsrt : cs_sorted s = true.
Hypothesis Hnb : neighbors_valid s.
Hypothesis Hct : counts_valid s.
Hypothesis Hdet : det (cs_box s) <> 0.
Hypothesis Hk : 0 <= ew_kCut W.
Hypothesis HL : NoDup L.
Hypothesis HLin : forall k, In k L <-> reciprocal (cs_box s) k /\ k <> vzero /\ norm k < ew_kCut W.

Lemma ewald_U_sym i j : ewald_U sigma eps V W L s i j = ewald_U sigma eps V W L s j i.
Proof.
  unfold ewald_U. rewrite (Nat.min_comm i j), (Nat.max_comm i j).
  destruct (Nat.eqb_spec i j), (Nat.eqb_spec j i); subst; auto; congruence.
Qed.
Lemma images_in j l n : In n (images_of j l) -> In n l /\ nb_tag n = Z.of_nat j.
Proof. unfold images_of. rewrite filter_In. intros [H E]. apply Z.eqb_eq in E. auto. Qed.
Lemma neighbors_within_in a rc n : In n (neighbors_within a rc) -> In n (a_nbs a).
Proof.
  unfold neighbors_within. generalize (getStoredMinNumNeighbors a rc). intros m H.
  rewrite <- (firstn_skipn m (a_nbs a)). apply in_or_app. auto.
Qed.
Lemma per_val_U g i j : grid_setup fuel (cs_box s) (ew_eta W) (ew_kCut W) grid_init = Some g -> (i < N)%nat -> (j < N)%nat ->
  per_val P s W (kg_kvectors g) (Nat.min i j) (Nat.max i j) = (if Nat.eqb i j then J_of hardness s i else 0) + ewald_U sigma eps V W L s i j.
Proof.
  intros Hg Hi Hj. unfold per_val, ewald_U. cbv zeta. set (a := Nat.min i j). set (b := Nat.max i j).
  assert (Ha : (a < N)%nat) by lia. assert (Hb : (b < N)%nat) by lia.
  assert (E1 : rsum (map (real_val P s W a) (images_of b (neighbors_within (cna s a) (ew_rCut W)))) = ewald_real sigma eps W s a b).
  { unfold ewald_real. apply rsum_ext. intros n Hn. apply images_in in Hn. destruct Hn as [Hn Et]. apply neighbors_within_in in Hn.
    destruct (Hnb a n Ha Hn) as (j' & Hj' & Et' & Ee). assert (j' = b) by lia. subst j'. unfold real_val. rewrite Ee. reflexivity. }
  assert (E2 : recip_val P s (kg_kvectors g) a b = ewald_reciprocal eps V W L s a b).
  { unfold ewald_reciprocal. set (F := fun k => 4 * PI / V * exp (- (ew_eta W * ew_eta W * norm2 k / 2)) / norm2 k * cos (dot k (vsub (cpos s a) (cpos s b))) / eps).
    change (recip_val P s (kg_kvectors g) a b = rsum (map F L)).
    rewrite (grid_sum fuel (cs_box s) (ew_eta W) (ew_kCut W) g Hdet Hk Hg F L HL HLin).
    2:{ intros k. unfold F. rewrite norm2_opp. replace (dot (vopp k) (vsub (cpos s a) (cpos s b))) with (- dot k (vsub (cpos s a) (cpos s b))) by (unfold vopp, dot, smul; simpl; ring).
        rewrite cos_neg. auto. }
    rewrite <- rsum_scal. apply rsum_ext. intros kv Hkv. 
    destruct (grid_sound fuel (cs_box s) (ew_eta W) (ew_kCut W) g Hdet Hk Hg kv Hkv) as (_ & _ & _ & Ec). rewrite Ec. unfold F. simpl ep_eps. unfold V, Rdiv. ring. }
  rewrite E1, E2. destruct (Nat.eqb_spec i j) as [Eij|Hne].
  - assert (Ea : a = i) by lia. assert (Eb : b = i) by lia. rewrite Ea, Eb, Nat.eqb_refl. unfold diag_val, J_of. simpl ep_hardness. simpl ep_sigma. simpl ep_eps. ring.
  - destruct (Nat.eqb_spec a b); [lia|]. ring.
Qed.

(** Screening loop. *)
Definition pair_corr (Q : nat -> R) (i : nat) (n : neighbor) : R :=
  Q i * Q (Z.to_nat (nb_tag n)) * gaussian_coulomb (sigma (cel s i)) (sigma (nb_element n)) eps (nb_d n) * (sc_f fs (nb_d n) - 1).
Definition coded_weight (i : nat) (n : neighbor) : R := if Z.ltb (nb_tag n) (Z.of_nat i) then 0 else 1.
Lemma screening_periodic A Q : calculateScreeningEnergy P s A Q =
  Some (sumn N (fun i => - (1 / 2 * (Q i * Q i / (sqrt PI * sigma (cel s i) * eps))) +
     rsum (map (fun n => coded_weight i n * pair_corr Q i n) (neighbors_within (cna s i) (sc_outer fs))))).
Proof.
  unfold calculateScreeningEnergy. rewrite Hper.
  match goal with |- ofold ?f _ _ = Some (sumn N ?g) => destruct (ofold_seq_inv (fun k E => E = sumn k g) f N 0) as (E & H1 & H2) end.
  - reflexivity.
  - intros i E Hi ->. cbv zeta.
    match goal with |- context [ofold ?f (seq 0 ?m) ?z] => destruct (ofold_seq_inv (fun k E => E = z + rsum (map (fun n => coded_weight i n * pair_corr Q i n) (firstn k (a_nbs (cna s i))))) f m z) as (E' & H1 & H2) end.
    + simpl. ring.
    + intros k E Hkm ->. unfold screening_pair.
      destruct (nth_error (a_nbs (cna s i)) k) as [n|] eqn:En.
      2:{ apply nth_error_None in En. pose proof (proj2 (Hct i Hi) (sc_outer (ep_fs P))). fold P in Hkm. lia. }
      destruct (Hnb i n Hi (nth_error_In _ _ En)) as (j & Hj & Et & Ee). rewrite (tag_index_ok s n j Hj Et).
      rewrite (firstn_snoc _ _ _ En), map_app, rsum_app. cbn [map rsum].
      assert (CW : coded_weight i n = if Nat.ltb j i then 0 else 1).
      { unfold coded_weight. rewrite Et. destruct (Nat.ltb_spec j i), (Z.ltb_spec (Z.of_nat j) (Z.of_nat i)); auto; lia. }
      assert (PC : pair_corr Q i n = Q i * Q j * erf (nb_d n / ep_gamma P (cel s i) (nb_element n)) * (sc_f (ep_fs P) (nb_d n) - 1) / (nb_d n * ep_eps P)).
      { unfold pair_corr. rewrite Et, Nat2Z.id. unfold gaussian_coulomb. simpl ep_gamma. simpl ep_fs. simpl ep_eps. unfold Rdiv. ring. }
      rewrite CW, PC. destruct (Nat.ltb j i); eexists; (split; [reflexivity|]); ring.
    + rewrite H1. eexists. split; [reflexivity|]. rewrite sumn_S. rewrite H2. change (firstn (getStoredMinNumNeighbors (cna s i) (sc_outer (ep_fs P))) (a_nbs (cna s i))) with (neighbors_within (cna s i) (sc_outer fs)).
      assert (X : - Q i * Q i / (2 * ep_sigma P (cel s i) * ep_eps P) = - (1 / 2 * (Q i * Q i / (sqrt PI * sigma (cel s i) * eps)))); [|rewrite X; ring].
      simpl ep_sigma. simpl ep_eps. pose proof (Hsig (cel s i)). assert (0 < sqrt PI) by (apply sqrt_lt_R0, PI_RGT_0). field. repeat split; lra.
  - rewrite <- H2. exact H1.
Qed.
Definition coded_energy (q : nat -> R) : R :=
  1 / 2 * sumn N (fun i => sumn N (fun j => q i * ewald_U sigma eps V W L s i j * q j))
  - sumn N (fun i => 1 / 2 * (q i * q i / (sqrt PI * sigma (cel s i) * eps)))
  + sumn N (fun i => rsum (map (fun n => coded_weight i n * pair_corr q i n) (neighbors_within (cna s i) (sc_outer fs)))).
Theorem periodic_equilibrium_coded solve : exact_solver solve -> (0 < N)%nat -> well_posed N (J_of hardness s) (ewald_U sigma eps V W L s) ->
  (exists g, grid_setup fuel (cs_box s) (ew_eta W) (ew_kCut W) grid_init = Some g) ->
  exists r, calculateElectrostaticEnergy solve fuel W P s = Some r /\
    sumn N (er_Q r) = cs_chargeRef s /\
    (forall i, (i < N)%nat -> electronegativity N (chi_of s) (J_of hardness s) (ewald_U sigma eps V W L s) (er_Q r) i = - er_lambda r) /\
    er_energy r = coded_energy (er_Q r).
Proof.
  intros Hsol HN Hw (g & Hg). unfold calculateElectrostaticEnergy. rewrite Hper, Hsrt, Hg.
  destruct (fill_periodic_entry P s W (kg_kvectors g) Hnb Hct (buf_reset (map (fun a => a_numN (c_atom a)) (cs_atoms s)) 2)) as (A & bf & E & _ & HA0).
  { apply buf_fits_reset. }
  rewrite E. unfold finish. fold N.
  set (b := fun i => if Nat.eqb i N then cs_chargeRef s else - c_chi (cat s i)).
  set (Q := solve (N + 1)%nat (border N A) b).
  assert (HA : forall i j, (i < N)%nat -> (j < N)%nat -> A i j = (if Nat.eqb i j then J_of hardness s i else 0) + ewald_U sigma eps V W L s i j).
  { intros i j Hi Hj. rewrite HA0 by auto. now apply per_val_U. }
  assert (BA : forall i j, (i < N)%nat -> (j < N)%nat -> border N A i j = A i j).
  { intros i j Hi Hj. unfold border. destruct (Nat.eqb_spec i N), (Nat.eqb_spec j N); try lia. auto. }
  assert (S := Hsol (N + 1)%nat (border N A) b (border_nonsingular N (J_of hardness s) (ewald_U sigma eps V W L s) A HA HN Hw)).
  fold Q in S. destruct (border_sol N (J_of hardness s) (ewald_U sigma eps V W L s) A HA (chi_of s) (cs_chargeRef s) Q S) as [S1 S2].
  rewrite screening_periodic. eexists. split; [reflexivity|]. cbn [er_Q er_lambda er_energy]. split; auto. split; auto.
  rewrite (sumn_ext N _ (fun i => sumn N (fun j => Q i * ewald_U sigma eps V W L s i j * Q j))).
  2:{ intros i Hi. apply sumn_ext. intros j Hj. rewrite BA, HA by auto. simpl ep_hardness. unfold J_of. destruct (Nat.eqb i j); ring. }
  unfold coded_energy. rewrite sumn_plus.
  rewrite (sumn_ext N (fun i => - (1 / 2 * (Q i * Q i / (sqrt PI * sigma (cel s i) * eps)))) (fun i => (- (1)) * (1 / 2 * (Q i * Q i / (sqrt PI * sigma (cel s i) * eps))))) by (intros; ring).
  rewrite sumn_scal. ring.
Qed.
(** The energy as it should be, plus the own images counted too often. *)
Definition own_images (i : nat) : list neighbor := images_of i (neighbors_within (cna s i) (sc_outer fs)).
Lemma coded_energy_excess q : coded_energy q = periodic_energy sigma eps V W L fs s q
  + 1 / 2 * sumn N (fun i => rsum (map (pair_corr q i) (own_images i))).
Proof.
  unfold coded_energy, periodic_energy. fold N.
  assert (E : sumn N (fun i => rsum (map (fun n => coded_weight i n * pair_corr q i n) (neighbors_within (cna s i) (sc_outer fs)))) =
    sumn N (fun i => rsum (map (fun n => pair_weight i n * pair_corr q i n) (neighbors_within (cna s i) (sc_outer fs))))
    + 1 / 2 * sumn N (fun i => rsum (map (pair_corr q i) (own_images i)))).
  { rewrite <- sumn_scal, <- sumn_plus. apply sumn_ext. intros i Hi. unfold own_images, images_of.
    rewrite (rsum_filter (fun n => Z.eqb (nb_tag n) (Z.of_nat i)) (pair_corr q i)). rewrite <- rsum_scal, <- rsum_plus. apply rsum_ext. intros n _.
    unfold coded_weight, pair_weight.
    destruct (Z.ltb_spec (nb_tag n) (Z.of_nat i)), (Z.ltb_spec (Z.of_nat i) (nb_tag n)), (Z.eqb_spec (Z.of_nat i) (nb_tag n)), (Z.eqb_spec (nb_tag n) (Z.of_nat i)); try lia; field. }
  rewrite E. unfold pair_corr at 1. fold V. ring.
Qed.
End Periodic.
