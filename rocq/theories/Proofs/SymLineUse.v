(** The functions can be evaluated (C72). *)
From Coq Require Import Reals ZArith Ascii String Bool Arith Lia Lra Permutation Sorted.
From Flocq Require Import Core.
From Coq Require Import List.
From Verif Require Import Base.AssocMap Model.Strings Model.Printf Model.ElementMap Model.CoreFunction Model.CutoffFunction
  Model.CompactScreening Model.Scaling Model.SymFunctions Model.SymSetup Model.SymLines Spec.StringSpec Spec.ElementSpec Spec.CompactSpec
  Spec.SymSpec Spec.SetupSpec Spec.ForceSpec Spec.SymLineSpec Proofs.StringProofs Proofs.ElementMapProofs Proofs.SetupProofs Proofs.UnitProofs
  Proofs.SymLineProofs Proofs.SymLineSetup Proofs.SymLineMode Proofs.SymLineFinal Proofs.SymLineResult.
Import ListNotations.
Local Open Scope R_scope.

(** A double of absolute value at least one half is a multiple of 2^-53. *)
Lemma double_grid x : / 2 <= Rabs (round64 x) -> exists m : Z, round64 x = IZR m * bpow radix2 (-53).
Proof.
  intros H. set (z := round64 x) in *.
  assert (G : generic_format radix2 (FLT_exp (-1074) 53) z).
  { assert (Ve : Valid_exp (FLT_exp (-1074) 53)) by (apply FLT_exp_valid; reflexivity). apply generic_format_round; auto with typeclass_instances. }
  assert (Z0 : z <> 0). { intros E. rewrite E, Rabs_R0 in H. lra. }
  unfold generic_format in G. set (e := cexp radix2 (FLT_exp (-1074) 53) z) in *.
  assert (E : (-53 <= e)%Z).
  { unfold e, cexp, FLT_exp. assert (0 <= mag radix2 z)%Z; [|lia].
    assert (B : (-1 < mag radix2 z)%Z); [|lia]. apply (lt_bpow radix2). eapply Rle_lt_trans; [|apply bpow_mag_gt].
    change (bpow radix2 (-1)) with (/ 2). exact H. }
  exists (Ztrunc (scaled_mantissa radix2 (FLT_exp (-1074) 53) z) * 2 ^ (e + 53))%Z.
  rewrite G at 1. unfold F2R. cbn [Fnum Fexp]. fold e. rewrite mult_IZR, Rmult_assoc. f_equal.
  change (IZR (2 ^ (e + 53))) with (IZR (Zpower radix2 (e + 53))). rewrite IZR_Zpower by lia. rewrite <- bpow_plus. f_equal. lia.
Qed.
Lemma exponent_use x zi use : ordinary_exponent (round64 x) -> exponent (round64 x) zi use ->
  (- 2 ^ 31 + 1 < zi < 2 ^ 31)%Z /\ (use = true -> round64 x = IZR zi).
Proof.
  intros (O1 & O2) (-> & B & U). set (z := round64 x) in *.
  assert (Ab : Rabs (z - IZR (ZnearestA z)) <= / 2) by apply Znearest_half.
  apply Rabs_le_inv in Ab. split.
  - split; [|lia]. apply lt_IZR. change (IZR (- 2 ^ 31 + 1)) with (-2147483647). apply Rabs_lt_inv in O2. simpl in O2. lra.
  - intros Us. apply U in Us. destruct (Z.eq_dec (ZnearestA z) 0) as [E0|E0].
    + rewrite E0 in *. rewrite Rminus_0_r in Us. destruct O1 as [O1|O1]; [exact O1|lra].
    + assert (H2 : / 2 <= Rabs z).
      { assert (1 <= Rabs (IZR (ZnearestA z))). { rewrite <- abs_IZR. apply IZR_le. lia. }
        unfold Rabs in *. destruct (Rcase_abs z), (Rcase_abs (IZR (ZnearestA z))); lra. }
      destruct (double_grid x H2) as (m & E). fold z in E.
      set (q := ZnearestA z) in *. assert (Eq : IZR q = IZR (q * 2 ^ 53) * bpow radix2 (-53)).
      { rewrite mult_IZR. change (IZR (2 ^ 53)) with (bpow radix2 53). rewrite Rmult_assoc, <- bpow_plus. simpl. lra. }
      rewrite E, Eq in Us. rewrite <- Rmult_minus_distr_r, <- minus_IZR, Rabs_mult in Us.
      rewrite (Rabs_pos_eq (bpow radix2 (-53))) in Us by apply bpow_ge_0.
      assert (D : dbl_min < bpow radix2 (-53)).
      { unfold dbl_min. replace (/ 2 ^ 1022) with (bpow radix2 (-1022)).
        - apply bpow_lt. lia.
        - change (-1022)%Z with (- (1022))%Z. rewrite bpow_opp. f_equal.
          rewrite <- (IZR_Zpower radix2) by lia. change 1022%Z with (Z.of_nat 1022). rewrite <- Zpower_nat_Z. cbn [radix_val radix2]. 
          rewrite Zpower_nat_Z. rewrite <- pow_IZR. reflexivity. }
      assert (M : (m - q * 2 ^ 53 = 0)%Z).
      { assert (L : Rabs (IZR (m - q * 2 ^ 53)) < 1).
        { apply Rmult_lt_reg_r with (bpow radix2 (-53)); [apply bpow_gt_0|]. rewrite Rmult_1_l. lra. }
        rewrite <- abs_IZR in L. apply lt_IZR in L. lia. }
      rewrite E, Eq. do 2 f_equal. lia.
Qed.

Lemma doc_admissible em t alpha ws n k : documented_kind em t alpha ws n k -> ordinary k -> admissible k.
Proof.
  intros H O. inversion H; subst; cbn in O |- *; unfold cutoff_setup, compact_setup, zeta_setup; cbn; eauto 8.
  all: destruct O as (O1 & O2); split; [eauto|].
  all: match goal with N : num _ _ ?z, X : exponent ?z _ _ |- _ => destruct N as (w & _ & ->) end; now apply (exponent_use (decimal_value w) _ use).
Qed.
Lemma describes_admissible em t alpha v ec k : describes em t alpha v ec k -> ordinary k -> admissible k.
Proof. intros (ws & n & _ & _ & _ & D). eapply doc_admissible; eauto. Qed.

(** ** Values and use of the functions made *)
Theorem made_value em normalize conv t alpha v f k : 0 < conv -> made_from em normalize conv t alpha v f ->
  describes em t alpha (fst v) (lf_ec f) k -> ordinary k ->
  admissible (lf_kind f) /\
  forall Z e, sf_value Z (lf_kind f) (if normalize then scaled conv e else e) = sf_value Z k e.
Proof.
  intros Hc (_ & _ & k' & D' & U) D O. destruct (describes_unique _ _ _ _ _ _ _ _ D D') as (_ & ->).
  pose proof (describes_admissible _ _ _ _ _ _ D O) as A. unfold in_unit in U. destruct normalize; [|subst; auto].
  destruct (units_kind conv Hc k A) as (k2 & E & (A' & _ & V & _)). rewrite U in E. injection E as <-. auto.
Qed.
Theorem made_usable em normalize conv t alpha sort values fss rmax : registered em -> 0 < conv -> sorts lf_lt sort ->
  setupSymmetryFunctions sort em normalize conv t alpha values = Done (fss, rmax) ->
  (forall v ec k, In v values -> describes em t alpha (fst v) ec k -> ordinary k) ->
  forall fs, In fs fss -> fs <> [] -> usable rmax (map lf_sf fs).
Proof.
  intros HR Hc S H O fs Hfs Hne. destruct (functions em normalize conv t alpha HR Hc sort values fss rmax S H) as (_ & (vss & P & F) & _ & Nb & Rm & _).
  split; [now destruct fs|]. split. { rewrite Forall_forall in Nb. now apply Nb. }
  intros f Hf. apply in_map_iff in Hf. destruct Hf as (g & <- & Hg). destruct (F2_in_r _ _ _ _ F Hfs) as (vs & Hvs & F').
  destruct (F2_in_r _ _ _ _ F' Hg) as (v & Hv & Mf).
  assert (Hin : In v values). { apply Permutation_in with (concat vss); auto. apply in_concat. eauto. }
  pose proof Mf as (_ & (U1 & U2) & k & D & U).
  split; [intros e; rewrite U1; reflexivity|]. split; [now apply (made_value em normalize conv t alpha v g k Hc Mf D (O v _ k Hin D))|].
  split; [left; rewrite U2; split; reflexivity|]. exact (Rm fs g Hfs Hg).
Qed.
