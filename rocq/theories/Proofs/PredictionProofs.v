(** Predictions in the units of the structure file (C91). *)
From Coq Require Import Reals Lra ZArith Permutation Bool Arith Lia.
From Coquelicot Require Import Coquelicot.
From Coq Require Import List.
From Verif Require Import Base.Vec3 Base.SumR Model.Strings Model.ElementMap Model.NeuralNetwork Model.Scaling Model.Geometry Model.NeighborList Model.SymFunctions Model.SymCache Model.SymSetup Model.SymGroups
  Model.Forces Model.GroupEvaluation Model.Units Model.StructureFile Model.Prediction
  Spec.NetworkSpec Spec.GeometrySpec Spec.NeighborSpec Spec.SymSpec Spec.SetupSpec Spec.GroupSpec Spec.ForceSpec Spec.EvaluationSpec Spec.UnitsSpec Spec.PredictionSpec
  Proofs.NeighborProofs Proofs.NeighborMore Proofs.GroupApi Proofs.ForceLocal Proofs.ForceProofs Proofs.GroupForces Proofs.UnitsProofs Proofs.SetupProofs Proofs.StructureFileRead.
Import ListNotations.
Local Open Scope R_scope.

(** ** Vectors and sums *)
Lemma smul_1 v : smul 1 v = v.
Proof. destruct v; unfold smul; cbn. f_equal; ring. Qed.
Lemma vdiv_1 v : vdiv v 1 = v.
Proof. destruct v; unfold vdiv, smul; cbn. f_equal; field. Qed.
Lemma sum_counts (o : list R) N : length o = N -> forall (l : list fatom) (per : list nat), length per = N -> (forall a, In a l -> (fa_element a < N)%nat) ->
  (forall e, nth e per 0%nat = length (filter (fun a => Nat.eqb (fa_element a) e) l)) ->
  rsum (map (fun p => INR (fst p) * snd p) (List.combine per o)) = rsum (map (fun a => nth (fa_element a) o 0) l).
Proof.
  intros Lo l per Lp Hl Hc.
  assert (E : rsum (map (fun p => INR (fst p) * snd p) (List.combine per o)) = sumn N (fun e => INR (nth e per 0%nat) * nth e o 0)).
  { rewrite (rsum_nth (0%nat, 0)), combine_length, Lp, Lo, Nat.min_id. apply sumn_ext. intros i Hi. rewrite combine_nth by congruence. reflexivity. }
  rewrite E. rewrite (sumn_ext N _ (fun e => INR (length (filter (fun a => Nat.eqb (fa_element a) e) l)) * nth e o 0)) by (intros; now rewrite Hc).
  clear - Hl. induction l as [|a l IH]; cbn [map filter].
  - apply sumn_zero. intros; cbn. ring.
  - change (rsum (?x :: ?r)) with (x + rsum r). rewrite <- IH by (intros; apply Hl; now right).
    assert (X : sumn N (fun e => if Nat.eqb (fa_element a) e then nth e o 0 else 0) = nth (fa_element a) o 0).
    { rewrite (sumn_single N _ (fa_element a)); [now rewrite Nat.eqb_refl|apply Hl; now left|].
      intros e _ He. destruct (Nat.eqb_spec (fa_element a) e); congruence. }
    rewrite <- X, <- sumn_plus. apply sumn_ext. intros e _. destruct (Nat.eqb (fa_element a) e); cbn [length]; [rewrite S_INR|]; ring.
Qed.

(** ** The conversions *)
Definition prepared (M : pmode) (fs : fstruct) : qstructure :=
  let kL := unit_length M in let kE := unit_energy M in let kQ := if pm_normalize M then pm_cQ M else 1 in let n := INR (fs_numAtoms fs) in
  mkQS (fs_periodic fs) (fs_numAtoms fs) (fs_perElement fs) ((fs_energy fs - n * atom_mean M) * kE) ((fs_energyRef fs - total_offset M fs - n * atom_mean M) * kE)
    (fs_charge fs * kQ) (fs_chargeRef fs * kQ) (fs_volume fs * (kL * kL * kL))
    (if fs_periodic fs then mmap (smul kL) (fs_box fs) else fs_box fs) (if fs_periodic fs then mmap (fun v => vdiv v kL) (fs_invbox fs) else fs_invbox fs)
    (map (fun a => mkQA false false false 0 (0 * kE) (smul kL (fa_r a)) (smul (kE / kL) (fa_f a)) (smul (kE / kL) (fa_fRef a)) (fa_charge a * kQ) (fa_chargeRef a * kQ) [] [] []) (fs_atoms fs)).
Lemma omap_total {A B} (f : A -> option B) (g : A -> B) l : (forall a, In a l -> f a = Some (g a)) -> omap f l = Some (map g l).
Proof. induction l as [|a l IH]; intros H; cbn [omap map]; auto. rewrite (H a) by now left. now rewrite IH by (intros; apply H; now right). Qed.
Lemma mmap_1 f m : (forall v, f v = v) -> mmap f m = m.
Proof. intros H. destruct m. unfold mmap. cbn. now rewrite !H. Qed.

Section Prediction.
Variables (M : pmode) (fs : fstruct).
Hypotheses (HU : proper_units M) (HC : consistent (pm_N M) fs).
Lemma offsets_total q : qs_perElement q = fs_perElement fs -> composition_offset (pm_offsets M) q = total_offset M fs.
Proof.
  intros E. unfold composition_offset, total_offset, offset. rewrite E. destruct HC as (_ & _ & C3 & C4 & C5 & _). destruct HU as [U _].
  apply (sum_counts (pm_offsets M) (pm_N M)); auto. intros a Ha. apply In_nth_error in Ha as (i & Hi). now apply (C5 i a).
Qed.
Lemma offsets_len q : qs_perElement q = fs_perElement fs -> (List.length (pm_offsets M) <= List.length (qs_perElement q))%nat.
Proof. intros ->. destruct HC as (_ & _ & C3 & _). destruct HU as [U _]. lia. Qed.
Lemma shift_plus ref q : qs_perElement q = fs_perElement fs -> addEnergyOffset (pm_offsets M) ref q =
  Some (if ref then set_energies q (qs_energy q) (qs_energyRef q + total_offset M fs) else set_energies q (qs_energy q + total_offset M fs) (qs_energyRef q)).
Proof.
  intros E. unfold addEnergyOffset, shift_energy. rewrite !(offset_loop_spec Rplus 1) by (try (intros; ring); now apply offsets_len).
  rewrite offsets_total by auto. destruct ref; now rewrite Rmult_1_l.
Qed.
Lemma shift_minus q : qs_perElement q = fs_perElement fs -> removeEnergyOffset (pm_offsets M) true q =
  Some (set_energies q (qs_energy q) (qs_energyRef q - total_offset M fs)).
Proof.
  intros E. unfold removeEnergyOffset, shift_energy. rewrite !(offset_loop_spec Rminus (-1)) by (try (intros; ring); now apply offsets_len).
  rewrite offsets_total by auto. do 2 f_equal. ring.
Qed.
Lemma prepare_ok : prepare M fs = Some (prepared M fs).
Proof.
  unfold prepare. rewrite shift_minus by reflexivity. unfold prepared, unit_length, unit_energy, atom_mean. destruct (pm_normalize M).
  - unfold toNormalizedUnits. cbn [set_energies q_of qs_atoms qs_periodic qs_numAtoms qs_perElement qs_energy qs_energyRef qs_charge qs_chargeRef qs_volume qs_box qs_invbox].
    rewrite (omap_total _ (fun a => mkQA false false false 0 (q_energy a * pm_cE M) (smul (pm_cL M) (q_r a)) (smul (pm_cE M / pm_cL M) (q_f a)) (smul (pm_cE M / pm_cL M) (q_fRef a)) (q_charge a * pm_cQ M) (q_chargeRef a * pm_cQ M) [] [] [])).
    + rewrite map_map. reflexivity.
    + intros a Ha. apply in_map_iff in Ha as (b & <- & _). reflexivity.
  - f_equal. unfold set_energies, q_of. cbn [qs_periodic qs_numAtoms qs_perElement qs_energy qs_energyRef qs_charge qs_chargeRef qs_volume qs_box qs_invbox qs_atoms].
    f_equal; try ring.
    + destruct (fs_periodic fs); auto. symmetry. apply mmap_1, smul_1.
    + destruct (fs_periodic fs); auto. symmetry. apply mmap_1, vdiv_1.
    + apply map_ext. intros a. unfold q_of_atom. replace (1 / 1) with 1 by field. rewrite !smul_1. f_equal; ring.
Qed.
Lemma evaluated_ok : evaluated (pm_N M) (map fa_element (fs_atoms fs)) (prepared M fs) = in_model_units M fs.
Proof.
  unfold evaluated, in_model_units, prepared. cbn [qs_periodic qs_box qs_atoms]. f_equal.
  induction (fs_atoms fs) as [|a l IH]; cbn [map List.combine fst snd q_r]; [reflexivity|]. now rewrite IH.
Qed.
(** Converted back. *)
Definition predicted (E : R) (ys : list eatom) : qstructure :=
  let kL := unit_length M in let kE := unit_energy M in let n := INR (fs_numAtoms fs) in
  mkQS (fs_periodic fs) (fs_numAtoms fs) (fs_perElement fs) (E / kE + n * atom_mean M + total_offset M fs) (fs_energyRef fs)
    (fs_charge fs) (fs_chargeRef fs) (fs_volume fs) (fs_box fs) (fs_invbox fs)
    (map (fun p => mkQA false false false 0 (e_energy (snd p) / kE) (fa_r (fst p)) (vdiv (e_f (snd p)) (kE / kL)) (fa_fRef (fst p)) (fa_charge (fst p)) (fa_chargeRef (fst p)) [] [] [])
         (List.combine (fs_atoms fs) ys)).
Lemma combine_map_l {A B C} (f : A -> B) (l : list A) : forall m : list C, List.combine (map f l) m = map (fun p => (f (fst p), snd p)) (List.combine l m).
Proof. induction l as [|a l IH]; intros [|c m]; cbn; auto. now rewrite IH. Qed.
Lemma predict_ok ev E ys : ev (in_model_units M fs) = Some (E, ys) -> predict M ev fs = Some (predicted E ys).
Proof.
  intros Ev. unfold predict. rewrite prepare_ok, evaluated_ok, Ev.
  assert (X : (if pm_normalize M then toPhysicalUnits (pm_mean M) (pm_cE M) (pm_cL M) (pm_cQ M) (with_results (prepared M fs) E ys) else Some (with_results (prepared M fs) E ys)) =
    Some (set_energies (predicted E ys) (E / unit_energy M + INR (fs_numAtoms fs) * atom_mean M) (fs_energyRef fs - total_offset M fs))).
  { unfold with_results, prepared, predicted, unit_length, unit_energy, atom_mean. destruct HU as [_ U]. destruct (pm_normalize M).
    - destruct (U eq_refl) as (U1 & U2 & U3). assert (U1' : pm_cL M <> 0) by lra.
      unfold toPhysicalUnits. cbn [set_energies qs_atoms qs_periodic qs_numAtoms qs_perElement qs_energy qs_energyRef qs_charge qs_chargeRef qs_volume qs_box qs_invbox].
      rewrite combine_map_l, map_map.
      rewrite (omap_total _ (fun a => mkQA false false false 0 (q_energy a / pm_cE M) (vdiv (q_r a) (pm_cL M)) (vdiv (q_f a) (pm_cE M / pm_cL M)) (vdiv (q_fRef a) (pm_cE M / pm_cL M)) (q_charge a / pm_cQ M) (q_chargeRef a / pm_cQ M) [] [] [])).
      + rewrite map_map. apply (f_equal (@Some qstructure)). apply qs_eq; cbn [set_energies qs_atoms qs_periodic qs_numAtoms qs_perElement qs_energy qs_energyRef qs_charge qs_chargeRef qs_volume qs_box qs_invbox]; try (field; auto; fail); try reflexivity.
        * destruct (fs_periodic fs); auto. apply mmap_inv. intros v. now apply vdiv_smul.
        * destruct (fs_periodic fs); auto. apply mmap_inv. intros v. now apply smul_vdiv.
        * apply map_ext. intros p. cbn [fst snd q_energy q_r q_f q_fRef q_charge q_chargeRef].
          rewrite vdiv_smul by auto. rewrite (vdiv_smul (pm_cE M / pm_cL M)) by (apply div_nz; auto). f_equal; field; auto.
      + intros a Ha. apply in_map_iff in Ha as (b & <- & _). reflexivity.
    - f_equal. cbn [set_energies qs_atoms qs_periodic qs_numAtoms qs_perElement qs_energy qs_energyRef qs_charge qs_chargeRef qs_volume qs_box qs_invbox].
      apply qs_eq; cbn [set_energies qs_atoms qs_periodic qs_numAtoms qs_perElement qs_energy qs_energyRef qs_charge qs_chargeRef qs_volume qs_box qs_invbox]; try (field; fail); try reflexivity.
      + destruct (fs_periodic fs); auto. apply mmap_1, smul_1.
      + destruct (fs_periodic fs); auto. apply mmap_1, vdiv_1.
      + rewrite combine_map_l, map_map. apply map_ext. intros p. cbn [fst snd q_hasNL q_hasSFD q_chargeNeuron q_numSF q_r q_fRef q_charge q_chargeRef q_dEdG q_dGdr q_nbs].
        replace (1 / 1) with 1 by field. rewrite !smul_1, vdiv_1. f_equal; field. }
  rewrite X. rewrite shift_plus by reflexivity. cbn iota. rewrite shift_plus by reflexivity. f_equal. unfold predicted, set_energies.
  cbn [qs_atoms qs_periodic qs_numAtoms qs_perElement qs_energy qs_energyRef qs_charge qs_chargeRef qs_volume qs_box qs_invbox]. f_equal. ring.
Qed.
End Prediction.

(** ** The structure handed to the evaluation *)
Lemma mapi_map {A B C} (f : nat -> B -> C) (g : A -> B) l : mapi f (map g l) = mapi (fun i a => f i (g a)) l.
Proof.
  unfold mapi. rewrite map_length. generalize (seq 0 (length l)) as k. induction l as [|a l IH]; intros [|i k]; cbn; auto. now rewrite IH.
Qed.
Lemma map_mapi {A B C} (g : B -> C) (f : nat -> A -> B) l : map g (mapi f l) = mapi (fun i a => g (f i a)) l.
Proof. unfold mapi. now rewrite map_map. Qed.
Lemma moved_model M u t fs : in_model_units M (moved u t fs) = displaced (fun i => smul (unit_length M) (u i)) t (in_model_units M fs).
Proof.
  unfold displaced, in_model_units, moved, set_atoms. cbn [fs_periodic fs_box fs_atoms set_fatoms s_periodic s_box s_atoms s_numElements s_hasNL s_sorted s_maxrc].
  f_equal. rewrite mapi_map, map_mapi. unfold mapi. apply map_ext. intros [i a]. cbn [fst snd fa_element fa_r fresh_atom a_element a_r a_hasNL a_sorted a_numN a_numU a_perEl a_unique a_nbs a_cutoffs].
  unfold fresh_atom. f_equal. destruct (fa_r a), (u i); unfold vadd, smul; cbn. f_equal; ring.
Qed.
Lemma det_scaled k b : det (mkMat (smul k (m0 b)) (smul k (m1 b)) (smul k (m2 b))) = k * k * k * det b.
Proof. unfold det, dot, cross, smul. cbn. ring. Qed.
Lemma model_unprocessed M rc fs : proper_units M -> consistent (pm_N M) fs -> (fs_periodic fs = true -> det (fs_box fs) <> 0) -> 0 <= rc ->
  unprocessed rc (in_model_units M fs).
Proof.
  intros [_ U] (_ & _ & _ & _ & C5 & C6) Hd Hrc.
  assert (K : 0 < unit_length M) by (unfold unit_length; destruct (pm_normalize M); [apply U; auto|lra]).
  assert (Hin : forall a, In a (s_atoms (in_model_units M fs)) -> exists b, In b (fs_atoms fs) /\ a = fresh_atom (fa_element b) (smul (unit_length M) (fa_r b)) (pm_N M) /\ (fa_element b < pm_N M)%nat).
  { intros a Ha. cbn [in_model_units s_atoms] in Ha. apply in_map_iff in Ha as (b & <- & Hb). exists b. split; auto. split; auto.
    apply In_nth_error in Hb as (i & Hi). now apply (C5 i). }
  split; [|split; [|split; [|split]]].
  - intros a Ha. destruct (Hin a Ha) as (b & _ & -> & Hb). cbn. rewrite repeat_length. auto 8.
  - intros a Ha. destruct (Hin a Ha) as (b & _ & -> & Hb). reflexivity.
  - intros a Ha. destruct (Hin a Ha) as (b & _ & -> & Hb). reflexivity.
  - intros P. cbn [in_model_units s_periodic] in P. cbn [in_model_units s_box]. rewrite P. split.
    + rewrite det_scaled. repeat apply Rmult_integral_contrapositive_currified; try lra. auto.
    + intros a Ha. destruct (Hin a Ha) as (b & Hb & -> & _). destruct (C6 P b Hb) as (c & Hc & Er). exists c. split; auto. cbn [fresh_atom a_r]. rewrite Er.
      unfold GeometrySpec.combine, vadd, smul. cbn. f_equal; ring.
  - cbn. lra.
Qed.

(** ** Result *)
Definition good_result (P : potential) (rc : R) (s : structure) (E : R) (ys : list eatom) : Prop :=
  has_energy P rc s E /\ length ys = length (s_atoms s) /\ E = rsum (map e_energy ys) /\
  (everywhere P rc s smooth_at -> regular_networks P rc s -> (no_self_image s rc \/ forall e f, In f (p_fs P e) -> radial (sf_kind f)) ->
   forall u Ef, (forall t, has_energy P rc (displaced u t s) (Ef t)) ->
     is_derive Ef 0 (- rsum (map (fun iy => dot (e_f (snd iy)) (u (fst iy))) (List.combine (seq 0 (length ys)) ys)))).
Lemma map_combine_fst {A B C} (f : A -> C) (l : list A) : forall m : list B, length m = length l -> map (fun p => f (fst p)) (List.combine l m) = map f l.
Proof. induction l as [|a l IH]; intros [|b m] L; cbn in *; try lia; auto. now rewrite IH by lia. Qed.
Lemma map_combine_snd {A B C} (f : B -> C) (l : list A) : forall m : list B, length m = length l -> map (fun p => f (snd p)) (List.combine l m) = map f m.
Proof. induction l as [|a l IH]; intros [|b m] L; cbn in *; try lia; auto. now rewrite IH by lia. Qed.
Lemma mean_sum M fs n : n = length (fs_atoms fs) -> rsum (map (fun a => atom_mean M + offset M (fa_element a)) (fs_atoms fs)) = INR n * atom_mean M + total_offset M fs.
Proof. intros ->. rewrite rsum_plus, rsum_const. reflexivity. Qed.
Lemma energy_in_units M P rc fs E : file_energy M P rc fs E <-> exists E0, has_energy P rc (in_model_units M fs) E0 /\
  E = E0 / unit_energy M + rsum (map (fun a => atom_mean M + offset M (fa_element a)) (fs_atoms fs)).
Proof. reflexivity. Qed.

Lemma prediction_good M P rc fs E ys : proper_units M -> consistent (pm_N M) fs -> good_result P rc (in_model_units M fs) E ys ->
  good_prediction M P rc fs (predicted M fs E ys).
Proof.
  intros HU HC (HE & Ly & Es & _). assert (Hn : fs_numAtoms fs = length (fs_atoms fs)) by apply HC.
  assert (Ly' : length ys = length (fs_atoms fs)). { rewrite Ly. cbn [in_model_units s_atoms]. apply map_length. }
  assert (Q : qs_energy (predicted M fs E ys) = E / unit_energy M + rsum (map (fun a => atom_mean M + offset M (fa_element a)) (fs_atoms fs))).
  { cbn [predicted qs_energy]. rewrite (mean_sum M fs _ Hn). ring. }
  split; [exists E; auto|]. split. { intros E' (E0 & H0 & ->). rewrite Q. now rewrite (energy_unique P rc _ E0 E H0 HE). }
  split. { unfold energyRow. unfold getEnergyOffset. rewrite (offset_loop_spec Rplus 1) by (try (intros; ring); apply (offsets_len M fs HU HC); reflexivity).
    rewrite (offsets_total M fs HU HC) by reflexivity. cbn [predicted qs_energyRef qs_numAtoms]. rewrite Hn. rewrite Rplus_0_l, Rmult_1_l. reflexivity. }
  split. { rewrite Q, (mean_sum M fs _ Hn), Hn. unfold atomRows. cbn [predicted qs_atoms]. rewrite !map_map. cbn [snd q_energy].
    rewrite (map_combine_snd (fun y => e_energy y / unit_energy M)) by auto. unfold Rdiv. rewrite rsum_scal_r, <- Es. ring. }
  split. { unfold atomRows. cbn [predicted qs_atoms]. rewrite !map_map. cbn [fst q_chargeRef]. now rewrite (map_combine_fst fa_chargeRef) by auto. }
  split. { unfold atomRows. cbn [predicted qs_atoms]. rewrite !map_length, combine_length. lia. }
  split. { unfold forceRows. cbn [predicted qs_atoms]. rewrite !map_map. cbn [fst q_fRef]. now rewrite (map_combine_fst fa_fRef) by auto. }
  cbn [predicted qs_box qs_invbox qs_volume qs_atoms]. split; auto. split; auto. split; auto. rewrite map_map. cbn [q_r]. now rewrite (map_combine_fst fa_r) by auto.
Qed.
Lemma combine_map_r {A B C} (f : B -> C) (l : list A) : forall m, List.combine l (map f m) = map (fun p => (fst p, f (snd p))) (List.combine l m).
Proof. induction l as [|a l IH]; intros [|c m]; cbn; auto. now rewrite IH. Qed.
Lemma forces_good M P rc fs E ys : proper_units M -> consistent (pm_N M) fs -> good_result P rc (in_model_units M fs) E ys ->
  everywhere P rc (in_model_units M fs) smooth_at -> regular_networks P rc (in_model_units M fs) ->
  (no_self_image (in_model_units M fs) rc \/ forall e f, In f (p_fs P e) -> radial (sf_kind f)) ->
  good_forces M P rc fs (predicted M fs E ys).
Proof.
  intros HU HC (HE & Ly & Es & G) H1 H2 H3 u Ef HEf. specialize (G H1 H2 H3).
  assert (Ly' : length ys = length (fs_atoms fs)). { rewrite Ly. cbn [in_model_units s_atoms]. apply map_length. }
  assert (KL : unit_length M <> 0) by (unfold unit_length; destruct HU as [_ U]; destruct (pm_normalize M); [destruct (U eq_refl); lra|lra]).
  assert (KE : unit_energy M <> 0) by (unfold unit_energy; destruct HU as [_ U]; destruct (pm_normalize M); [destruct (U eq_refl) as (_ & ? & _); auto|lra]).
  set (c := rsum (map (fun a => atom_mean M + offset M (fa_element a)) (fs_atoms fs))).
  assert (Hc : forall t, rsum (map (fun a => atom_mean M + offset M (fa_element a)) (fs_atoms (moved u t fs))) = c).
  { intros t. unfold c. cbn [moved set_fatoms fs_atoms]. rewrite map_mapi. unfold mapi. cbn [fa_element].
    rewrite (map_combine_snd (fun a => atom_mean M + offset M (fa_element a))) by (now rewrite seq_length). reflexivity. }
  assert (HG : forall t, has_energy P rc (displaced (fun i => smul (unit_length M) (u i)) t (in_model_units M fs)) (unit_energy M * (Ef t - c))).
  { intros t. destruct (HEf t) as (E0 & H0 & ->). rewrite Hc. rewrite moved_model in H0. replace (unit_energy M * (E0 / unit_energy M + c - c)) with E0 by (field; auto). exact H0. }
  specialize (G _ _ HG).
  apply (is_derive_ext (fun t => / unit_energy M * (unit_energy M * (Ef t - c)) + c)); [intros t; match goal with |- ?a = ?b => change (@eq R a b) end; field; auto|].
  evar_last. { apply (is_derive_plus (V := R_NormedModule)); [apply is_derive_scal; exact G|apply is_derive_const]. }
  unfold plus, zero; cbn. rewrite Rplus_0_r. rewrite Ropp_mult_distr_r_reverse. f_equal.
  unfold forceRows. cbn [predicted qs_atoms]. rewrite map_map, combine_map_r, map_map. cbn [fst snd q_f].
  rewrite <- rsum_scal, Ly'.
  assert (X : forall (k : list nat) (l : list fatom) (m : list eatom), length m = length l -> length k = length l ->
    rsum (map (fun x => / unit_energy M * dot (e_f (snd x)) (smul (unit_length M) (u (fst x)))) (List.combine k m)) =
    rsum (map (fun x => dot (vdiv (e_f (snd (snd x))) (unit_energy M / unit_length M)) (u (fst x))) (List.combine k (List.combine l m)))).
  { induction k as [|i k IH]; intros [|a l] [|b m] L1 L2; cbn in L1, L2 |- *; try lia; auto. f_equal; [|apply IH; lia].
    unfold dot, vdiv, smul. cbn. field. auto. }
  apply X; auto. now rewrite seq_length.
Qed.
Lemma plain_result N rc P s nsort fuel s' : sensible N rc P -> 0 <= rc -> s_numElements s = N -> unprocessed rc s -> is_sort nsort ->
  calculateNeighborList nsort fuel rc false s = Some s' -> everywhere P rc s evaluable ->
  exists E ys, evaluateNNP nsort fuel (p_weight P) (setupMemoryAll N (map (p_fs P) (seq 0 N))) (p_net P) rc s = Some (E, ys) /\ good_result P rc s E ys.
Proof.
  intros H1 H2 H3 H4 H5 H6 H7. destruct (evaluation N rc P s nsort fuel s' H1 H2 H3 H4 H5 H6 H7) as (E & ys & Ev & A & B & C & _ & D).
  exists E, ys. split; auto. split; auto.
Qed.
