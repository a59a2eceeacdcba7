From Coq Require Import Reals List Arith Bool Lia Lra String Ascii.
From Coq Require Import List.
From Verif Require Import Base.Vec3 Base.SumR Model.Strings Model.Settings Model.SymFunctions Model.Units Spec.UnitsSpec Proofs.UnitsProofs
  Model.Normalization Spec.NormalizationSpec.
Import ListNotations.
Local Open Scope R_scope.

(** ** Mean and deviation under affine maps *)
Lemma mean_affine m c l : l <> [] -> mean (map (fun x => (x - m) * c) l) = (mean l - m) * c.
Proof.
  intros H. unfold mean. rewrite map_length, (rsum_scal_r (fun x => x - m)), (rsum_minus (fun x => x) (fun _ => m)), map_id, rsum_const.
  field. apply not_0_INR. destruct l; [congruence|discriminate].
Qed.
Lemma deviation_affine m c l : deviation (map (fun x => (x - m) * c) l) = Rabs c * deviation l.
Proof.
  destruct l as [|a l'] eqn:El.
  { unfold deviation. cbn [map rsum fold_right]. unfold Rdiv. rewrite Rmult_0_l, sqrt_0. ring. }
  rewrite <- El. assert (Ne : l <> []) by (rewrite El; discriminate). clear El a l'.
  unfold deviation. rewrite (mean_affine m c l Ne), map_map, map_length.
  rewrite (rsum_ext _ (fun x => c ^ 2 * (x - mean l) ^ 2)) by (intros; ring). rewrite rsum_scal.
  replace (c ^ 2 * rsum (map (fun x => (x - mean l) ^ 2) l) / (INR (List.length l) - 1)) with
    (Rsqr c * (rsum (map (fun x => (x - mean l) ^ 2) l) / (INR (List.length l) - 1))) by (unfold Rsqr, Rdiv; ring).
  rewrite sqrt_mult_alt by apply Rle_0_sqr. now rewrite sqrt_Rsqr_abs.
Qed.
Lemma deviation_nonneg l : 0 <= deviation l.
Proof. apply sqrt_pos. Qed.
Lemma deviation_nonempty l : deviation l <> 0 -> l <> [].
Proof. intros H ->. apply H. unfold deviation. cbn [map rsum fold_right]. unfold Rdiv. now rewrite Rmult_0_l, sqrt_0. Qed.

(** ** Accumulation *)
Definition tot_atoms (ss : list qstructure) : nat := list_sum (map qs_numAtoms ss).
Definition fsum (v : vec) : R := vx v + vy v + vz v.
Definition sq3 (m : R) (v : vec) : R := (vx v - m) * (vx v - m) + (vy v - m) * (vy v - m) + (vz v - m) * (vz v - m).

Lemma first_inner l : forall c, fold_left (fun c a => mkNAcc (na_atoms c) (na_structures c) (na_eRef c) (na_eNnp c)
                                 (na_fRef c + (vx (q_fRef a) + vy (q_fRef a) + vz (q_fRef a)))
                                 (na_fNnp c + (vx (q_f a) + vy (q_f a) + vz (q_f a)))) l c =
  mkNAcc (na_atoms c) (na_structures c) (na_eRef c) (na_eNnp c)
    (na_fRef c + rsum (map (fun a => fsum (q_fRef a)) l)) (na_fNnp c + rsum (map (fun a => fsum (q_f a)) l)).
Proof.
  induction l as [|a l IH]; intros c; cbn [fold_left map rsum fold_right].
  - destruct c; cbn. now rewrite !Rplus_0_r.
  - rewrite IH. cbn [na_atoms na_structures na_eRef na_eNnp na_fRef na_fNnp].
    change (fold_right Rplus 0 (map ?f l)) with (rsum (map f l)). unfold fsum. f_equal; ring.
Qed.
Lemma firstPass_spec ss : firstPass ss =
  mkNAcc (tot_atoms ss) (List.length ss) (rsum (map (fun s => qs_energyRef s / INR (qs_numAtoms s)) ss))
    (rsum (map (fun s => qs_energy s / INR (qs_numAtoms s)) ss))
    (rsum (map (fun s => rsum (map (fun a => fsum (q_fRef a)) (qs_atoms s))) ss))
    (rsum (map (fun s => rsum (map (fun a => fsum (q_f a)) (qs_atoms s))) ss)).
Proof.
  assert (K : forall c, fold_left (fun c s =>
    let n := INR (qs_numAtoms s) in
    let c := mkNAcc (na_atoms c + qs_numAtoms s) (S (na_structures c)) (na_eRef c + qs_energyRef s / n) (na_eNnp c + qs_energy s / n)
                    (na_fRef c) (na_fNnp c) in
    fold_left (fun c a => mkNAcc (na_atoms c) (na_structures c) (na_eRef c) (na_eNnp c)
                                 (na_fRef c + (vx (q_fRef a) + vy (q_fRef a) + vz (q_fRef a)))
                                 (na_fNnp c + (vx (q_f a) + vy (q_f a) + vz (q_f a)))) (qs_atoms s) c) ss c =
   mkNAcc (na_atoms c + tot_atoms ss) (na_structures c + List.length ss) (na_eRef c + rsum (map (fun s => qs_energyRef s / INR (qs_numAtoms s)) ss))
    (na_eNnp c + rsum (map (fun s => qs_energy s / INR (qs_numAtoms s)) ss))
    (na_fRef c + rsum (map (fun s => rsum (map (fun a => fsum (q_fRef a)) (qs_atoms s))) ss))
    (na_fNnp c + rsum (map (fun s => rsum (map (fun a => fsum (q_f a)) (qs_atoms s))) ss))).
  { induction ss as [|s ss IH]; intros c.
    - cbn. destruct c; cbn. rewrite !Nat.add_0_r, !Rplus_0_r. reflexivity.
    - cbn [fold_left]. cbv zeta. rewrite first_inner, IH. cbn [na_atoms na_structures na_eRef na_eNnp na_fRef na_fNnp].
      unfold tot_atoms. cbn [map list_sum rsum fold_right List.length]. f_equal; try apply Rplus_assoc; [|lia]. symmetry. apply Nat.add_assoc. }
  unfold firstPass. rewrite K. cbn [nacc0 na_atoms na_structures na_eRef na_eNnp na_fRef na_fNnp]. rewrite !Rplus_0_l. reflexivity.
Qed.
Lemma second_inner m l : forall c, fold_left (fun c a =>
      let dr0 := vx (q_fRef a) - na_fRef m in let dn0 := vx (q_f a) - na_fNnp m in
      let dr1 := vy (q_fRef a) - na_fRef m in let dn1 := vy (q_f a) - na_fNnp m in
      let dr2 := vz (q_fRef a) - na_fRef m in let dn2 := vz (q_f a) - na_fNnp m in
      mkNAcc 0 0 (na_eRef c) (na_eNnp c)
        (na_fRef c + dr0 * dr0 + dr1 * dr1 + dr2 * dr2) (na_fNnp c + dn0 * dn0 + dn1 * dn1 + dn2 * dn2)) l (mkNAcc 0 0 (na_eRef c) (na_eNnp c) (na_fRef c) (na_fNnp c)) =
  mkNAcc 0 0 (na_eRef c) (na_eNnp c)
    (na_fRef c + rsum (map (fun a => sq3 (na_fRef m) (q_fRef a)) l)) (na_fNnp c + rsum (map (fun a => sq3 (na_fNnp m) (q_f a)) l)).
Proof.
  induction l as [|a l IH]; intros c; cbn [fold_left map rsum fold_right].
  - now rewrite !Rplus_0_r.
  - cbv zeta. cbn [na_atoms na_structures na_eRef na_eNnp na_fRef na_fNnp].
    match goal with |- fold_left ?f l ?c' = _ => specialize (IH c'); cbn [na_atoms na_structures na_eRef na_eNnp na_fRef na_fNnp] in IH; rewrite IH end.
    change (fold_right Rplus 0 (map ?f l)) with (rsum (map f l)). unfold sq3. f_equal; ring.
Qed.
Lemma secondPass_spec m ss : secondPass m ss =
  mkNAcc 0 0 (rsum (map (fun s => (qs_energyRef s / INR (qs_numAtoms s) - na_eRef m) ^ 2) ss))
    (rsum (map (fun s => (qs_energy s / INR (qs_numAtoms s) - na_eNnp m) ^ 2) ss))
    (rsum (map (fun s => rsum (map (fun a => sq3 (na_fRef m) (q_fRef a)) (qs_atoms s))) ss))
    (rsum (map (fun s => rsum (map (fun a => sq3 (na_fNnp m) (q_f a)) (qs_atoms s))) ss)).
Proof.
  unfold secondPass.
  match goal with |- fold_left ?f ss nacc0 = _ => set (step := f) end.
  assert (K : forall c, fold_left step ss (mkNAcc 0 0 (na_eRef c) (na_eNnp c) (na_fRef c) (na_fNnp c)) =
   mkNAcc 0 0 (na_eRef c + rsum (map (fun s => (qs_energyRef s / INR (qs_numAtoms s) - na_eRef m) ^ 2) ss))
    (na_eNnp c + rsum (map (fun s => (qs_energy s / INR (qs_numAtoms s) - na_eNnp m) ^ 2) ss))
    (na_fRef c + rsum (map (fun s => rsum (map (fun a => sq3 (na_fRef m) (q_fRef a)) (qs_atoms s))) ss))
    (na_fNnp c + rsum (map (fun s => rsum (map (fun a => sq3 (na_fNnp m) (q_f a)) (qs_atoms s))) ss))).
  { induction ss as [|s l IH]; intros c.
    - cbn. now rewrite !Rplus_0_r.
    - cbn [fold_left]. unfold step at 2. cbv zeta. cbn [na_atoms na_structures na_eRef na_eNnp na_fRef na_fNnp].
      match goal with |- fold_left step l (fold_left _ _ ?c') = _ =>
        pose proof (second_inner m (qs_atoms s) c') as E; cbn [na_atoms na_structures na_eRef na_eNnp na_fRef na_fNnp] in E; cbv zeta in E; rewrite E; clear E end.
      match goal with |- fold_left step l ?c' = _ => specialize (IH c'); cbn [na_atoms na_structures na_eRef na_eNnp na_fRef na_fNnp] in IH; rewrite IH end.
      cbn [map rsum fold_right]. change (fold_right Rplus 0 ?l) with (rsum l). f_equal; try ring. }
  exact (eq_trans (K nacc0) ltac:(cbn [nacc0 na_eRef na_eNnp na_fRef na_fNnp]; now rewrite !Rplus_0_l)).
Qed.
Lemma rsum_fsum_comp (f : qatom -> vec) ss : rsum (map (fun s => rsum (map (fun a => fsum (f a)) (qs_atoms s))) ss) =
  rsum (flat_map (fun s => flat_map (fun a => components (f a)) (qs_atoms s)) ss).
Proof.
  rewrite rsum_flat_map. apply rsum_ext. intros s _. rewrite rsum_flat_map. apply rsum_ext. intros a _.
  unfold fsum, components. cbn. ring.
Qed.
Lemma rsum_sq3_comp m (f : qatom -> vec) ss : rsum (map (fun s => rsum (map (fun a => sq3 m (f a)) (qs_atoms s))) ss) =
  rsum (map (fun x => (x - m) ^ 2) (flat_map (fun s => flat_map (fun a => components (f a)) (qs_atoms s)) ss)).
Proof.
  assert (F : forall (g : R -> R) (l : list qatom), map g (flat_map (fun a => components (f a)) l) = flat_map (fun a => map g (components (f a))) l).
  { intros g l. induction l; cbn; [reflexivity|]. now rewrite IHl. }
  assert (G : forall (g : R -> R) l, map g (flat_map (fun s => flat_map (fun a => components (f a)) (qs_atoms s)) l) =
     flat_map (fun s => flat_map (fun a => map g (components (f a))) (qs_atoms s)) l).
  { intros g l. induction l; [reflexivity|]. cbn [flat_map]. rewrite map_app, IHl, F. reflexivity. }
  rewrite G, rsum_flat_map. apply rsum_ext. intros s _. rewrite rsum_flat_map. apply rsum_ext. intros a _.
  unfold sq3, components. cbn [map rsum fold_right]. ring.
Qed.
Lemma length_comp (f : qatom -> vec) ss : (forall s, In s ss -> counted s) ->
  List.length (flat_map (fun s => flat_map (fun a => components (f a)) (qs_atoms s)) ss) = (3 * tot_atoms ss)%nat.
Proof.
  intros H. induction ss as [|s ss IH]; [reflexivity|].
  cbn [flat_map]. rewrite app_length, IH by (intros; apply H; now right).
  assert (E : List.length (flat_map (fun a => components (f a)) (qs_atoms s)) = (3 * List.length (qs_atoms s))%nat).
  { induction (qs_atoms s); cbn [flat_map]; [reflexivity|]. rewrite app_length, IHl. cbn. lia. }
  rewrite E. destruct (H s (or_introl eq_refl)) as [C _]. unfold tot_atoms. cbn [map list_sum fold_right]. fold (list_sum (map qs_numAtoms ss)). lia.
Qed.
Lemma rsum_procs {A} (f : A -> R) (procs : list (list A)) : rsum (map (fun ss => rsum (map f ss)) procs) = rsum (map f (concat procs)).
Proof. induction procs as [|p l IH]; [reflexivity|]. cbn [concat map rsum fold_right]. rewrite map_app, rsum_app. now rewrite <- IH. Qed.
Lemma list_sum_procs {A} (f : A -> nat) (procs : list (list A)) : list_sum (map (fun ss => list_sum (map f ss)) procs) = list_sum (map f (concat procs)).
Proof. induction procs as [|p l IH]; [reflexivity|]. cbn [concat map]. rewrite map_app, list_sum_app, <- IH. reflexivity. Qed.
Lemma length_procs {A} (procs : list (list A)) : list_sum (map (@List.length A) procs) = List.length (concat procs).
Proof. induction procs as [|p l IH]; [reflexivity|]. cbn [concat map list_sum fold_right]. rewrite app_length. now rewrite <- IH. Qed.

Lemma reduce_first procs : reduceFirst (map firstPass procs) = firstPass (concat procs).
Proof.
  rewrite firstPass_spec. unfold reduceFirst. rewrite !map_map.
  f_equal.
  - unfold tot_atoms. rewrite <- list_sum_procs. f_equal. apply map_ext. intros ss. now rewrite firstPass_spec.
  - rewrite <- length_procs. f_equal. apply map_ext. intros ss. now rewrite firstPass_spec.
  - rewrite <- rsum_procs. apply rsum_ext. intros ss _. now rewrite firstPass_spec.
  - rewrite <- rsum_procs. apply rsum_ext. intros ss _. now rewrite firstPass_spec.
  - rewrite <- rsum_procs. apply rsum_ext. intros ss _. now rewrite firstPass_spec.
  - rewrite <- rsum_procs. apply rsum_ext. intros ss _. now rewrite firstPass_spec.
Qed.
Lemma list_sum_zero {A} (l : list A) : list_sum (map (fun _ => 0%nat) l) = 0%nat.
Proof. induction l; auto. Qed.
Lemma reduce_second m procs : reduceFirst (map (secondPass m) procs) = secondPass m (concat procs).
Proof.
  rewrite secondPass_spec. unfold reduceFirst. rewrite !map_map. f_equal.
  - rewrite <- (list_sum_zero procs). f_equal. apply map_ext. intros ss. now rewrite secondPass_spec.
  - rewrite <- (list_sum_zero procs). f_equal. apply map_ext. intros ss. now rewrite secondPass_spec.
  - rewrite <- rsum_procs. apply rsum_ext. intros ss _. now rewrite secondPass_spec.
  - rewrite <- rsum_procs. apply rsum_ext. intros ss _. now rewrite secondPass_spec.
  - rewrite <- rsum_procs. apply rsum_ext. intros ss _. now rewrite secondPass_spec.
  - rewrite <- rsum_procs. apply rsum_ext. intros ss _. now rewrite secondPass_spec.
Qed.

Lemma epa_counted (f : qstructure -> R) ss : (forall s, In s ss -> counted s) ->
  map (fun s => f s / INR (List.length (qs_atoms s))) ss = map (fun s => f s / INR (qs_numAtoms s)) ss.
Proof. intros H. apply map_ext_in. intros s Hs. destruct (H s Hs) as [E _]. now rewrite E. Qed.
Lemma minus_one n : (0 < n)%nat -> INR (n - 1) = INR n - 1.
Proof. intros H. rewrite minus_INR by lia. reflexivity. Qed.

Theorem statistics_spec procs m s : concat procs <> [] -> (forall x, In x (concat procs) -> counted x) -> statistics procs = (m, s) ->
  let all := concat procs in
  na_eRef m = mean (energies_ref all) /\ na_eNnp m = mean (energies_nnp all) /\
  na_fRef m = mean (forces_ref all) /\ na_fNnp m = mean (forces_nnp all) /\
  na_eRef s = deviation (energies_ref all) /\ na_eNnp s = deviation (energies_nnp all) /\
  na_fRef s = deviation (forces_ref all) /\ na_fNnp s = deviation (forces_nnp all).
Proof.
  intros Ne Hc H all. unfold statistics in H. rewrite reduce_first, firstPass_spec in H. fold all in H, Ne, Hc.
  assert (L1 : (0 < List.length all)%nat) by (destruct all; [congruence|cbn; lia]).
  assert (L2 : (0 < tot_atoms all)%nat).
  { destruct all as [|x l]; [congruence|]. destruct (Hc x (or_introl eq_refl)) as [E1 E2]. unfold tot_atoms. cbn [map list_sum fold_right].
    destruct (qs_atoms x); [congruence|]. cbn in E1. lia. }
  set (m1 := means _) in H. injection H as <- <-.
  assert (M1 : na_eRef m1 = mean (energies_ref all)).
  { unfold mean, energies_ref. rewrite map_length, (epa_counted qs_energyRef all Hc). reflexivity. }
  assert (M2 : na_eNnp m1 = mean (energies_nnp all)).
  { unfold mean, energies_nnp. rewrite map_length, (epa_counted qs_energy all Hc). reflexivity. }
  assert (M3 : na_fRef m1 = mean (forces_ref all)).
  { unfold mean, forces_ref. rewrite (length_comp q_fRef all Hc), <- rsum_fsum_comp. reflexivity. }
  assert (M4 : na_fNnp m1 = mean (forces_nnp all)).
  { unfold mean, forces_nnp. rewrite (length_comp q_f all Hc), <- rsum_fsum_comp. reflexivity. }
  do 4 (split; [assumption|]). rewrite reduce_second, secondPass_spec. fold all. unfold sigmas. cbn [na_eRef na_eNnp na_fRef na_fNnp].
  rewrite M1, M2, M3, M4.
  assert (A1 : na_structures m1 = List.length all) by reflexivity. assert (A2 : na_atoms m1 = tot_atoms all) by reflexivity.
  rewrite A1, A2, (minus_one (List.length all)), (minus_one (3 * tot_atoms all)) by lia.
  unfold deviation. repeat split.
  - generalize (mean (energies_ref all)). intros mu. unfold energies_ref. rewrite map_length, (epa_counted qs_energyRef all Hc), map_map. reflexivity.
  - generalize (mean (energies_nnp all)). intros mu. unfold energies_nnp. rewrite map_length, (epa_counted qs_energy all Hc), map_map. reflexivity.
  - generalize (mean (forces_ref all)). intros mu. unfold forces_ref. rewrite (length_comp q_fRef all Hc), rsum_sq3_comp. reflexivity.
  - generalize (mean (forces_nnp all)). intros mu. unfold forces_nnp. rewrite (length_comp q_f all Hc), rsum_sq3_comp. reflexivity.
Qed.

(** ** Conversion *)
Lemma atom_force cE cL cQ a a' : atom_toNormalized cE cL cQ a = Some a' -> q_fRef a' = smul (cE / cL) (q_fRef a).
Proof. unfold atom_toNormalized. destruct (convert_own _ _ _ a) as [[e g]|]; [|discriminate]. destruct (convert_nbs _ _ _ _ _). intros H. injection H as <-. reflexivity. Qed.
Lemma omap_Forall2 {A B} (f : A -> option B) l : forall l', omap f l = Some l' -> Forall2 (fun a b => f a = Some b) l l'.
Proof.
  induction l as [|a l IH]; intros l' H; cbn in H.
  - injection H as <-. constructor.
  - destruct (f a) eqn:E; [|discriminate]. fold (@omap A B f) in H. destruct (omap f l) eqn:E2; [|discriminate]. injection H as <-. constructor; auto.
Qed.
Lemma F2_length {A B} (P : A -> B -> Prop) l l' : Forall2 P l l' -> List.length l = List.length l'.
Proof. induction 1; cbn; auto. Qed.
Lemma conv_structure m cE cL cQ s s' : counted s -> toNormalizedUnits m cE cL cQ s = Some s' ->
  counted s' /\ qs_energyRef s' / INR (List.length (qs_atoms s')) = (qs_energyRef s / INR (List.length (qs_atoms s)) - m) * cE /\
  flat_map (fun a => components (q_fRef a)) (qs_atoms s') = map (fun x => (x - 0) * (cE / cL)) (flat_map (fun a => components (q_fRef a)) (qs_atoms s)).
Proof.
  intros [C1 C2] H. unfold toNormalizedUnits in H. destruct (omap _ _) as [atoms|] eqn:E; [|discriminate]. injection H as <-.
  apply omap_Forall2 in E. cbn [qs_atoms qs_numAtoms qs_energyRef counted].
  pose proof (F2_length _ _ _ E) as L. split; [|split].
  - split; [cbn [qs_numAtoms qs_atoms]; lia|]. cbn [qs_atoms]. intros ->. destruct (qs_atoms s); [congruence|discriminate].
  - rewrite <- L, C1. field. apply not_0_INR. destruct (qs_atoms s); [congruence|discriminate].
  - clear - E. induction E as [|a b l l' X _ IH]; [reflexivity|]. cbn [flat_map]. rewrite map_app, IH. f_equal.
    apply atom_force in X. rewrite X. unfold components. cbn [map]. unfold smul. cbn [vx vy vz]. repeat (f_equal; try ring).
Qed.
Lemma conv_all m cE cL cQ all all' : (forall s, In s all -> counted s) -> datasetToNormalized m cE cL cQ all = Some all' ->
  energies_ref all' = map (fun x => (x - m) * cE) (energies_ref all) /\
  forces_ref all' = map (fun x => (x - 0) * (cE / cL)) (forces_ref all).
Proof.
  intros Hc H. apply omap_Forall2 in H. induction H as [|s s' l l' X _ IH]; [split; reflexivity|].
  destruct (conv_structure m cE cL cQ s s' (Hc s (or_introl eq_refl)) X) as (_ & A & B).
  destruct IH as [I1 I2]; [intros; apply Hc; now right|]. split.
  - unfold energies_ref in *. cbn [map]. now rewrite A, I1.
  - unfold forces_ref in *. cbn [flat_map]. now rewrite map_app, B, I2.
Qed.
Lemma forces_nonempty all : all <> [] -> (forall s, In s all -> counted s) -> forces_ref all <> [].
Proof.
  intros Ne Hc. destruct all as [|s l]; [congruence|]. destruct (Hc s (or_introl eq_refl)) as [_ C]. unfold forces_ref. cbn [flat_map].
  destruct (qs_atoms s); [congruence|]. discriminate.
Qed.

Theorem normalized_ref procs useForces m cE cL cQ all' : let all := concat procs in
  all <> [] -> (forall x, In x all -> counted x) -> deviation (energies_ref all) <> 0 ->
  (useForces = true -> deviation (forces_ref all) <> 0) ->
  dataSetNormalization (lit "ref") useForces procs = Convert m cE cL ->
  datasetToNormalized m cE cL cQ all = Some all' ->
  mean (energies_ref all') = 0 /\ deviation (energies_ref all') = 1 /\
  (useForces = true -> deviation (forces_ref all') = 1) /\ (useForces = false -> cL = 1).
Proof.
  intros all Ne Hc D1 D2 H C. unfold dataSetNormalization in H. destruct (statistics procs) as [mm ss] eqn:St.
  destruct (statistics_spec procs mm ss Ne Hc St) as (S1 & _ & _ & _ & S5 & _ & S7 & _). fold all in S1, S5, S7.
  change (str_eqb (lit "ref") (lit "stats-only")) with false in H. change (str_eqb (lit "ref") (lit "ref")) with true in H. cbv iota in H.
  injection H as <- <- HL. destruct (conv_all _ _ _ _ _ _ Hc C) as [E F].
  assert (NeE : energies_ref all <> []) by (unfold energies_ref; destruct all; [congruence|discriminate]).
  pose proof (deviation_nonneg (energies_ref all)). pose proof (deviation_nonneg (forces_ref all)).
  rewrite E, F, mean_affine, !deviation_affine, S1, S5 by exact NeE.
  assert (P : 0 < deviation (energies_ref all)) by lra. repeat split.
  - ring.
  - rewrite Rabs_pos_eq; [field; lra|]. unfold Rdiv. rewrite Rmult_1_l. left. now apply Rinv_0_lt_compat.
  - intros ->. specialize (D2 eq_refl). rewrite S7, S5 in HL. subst cL.
    assert (Q : 0 < deviation (forces_ref all)) by lra.
    replace (1 / deviation (energies_ref all) / (deviation (forces_ref all) / deviation (energies_ref all))) with (/ deviation (forces_ref all)) by (field; lra).
    rewrite Rabs_pos_eq; [field; lra|]. left. now apply Rinv_0_lt_compat.
  - intros ->. now symmetry.
Qed.
Theorem normalized_force procs m cE cL cQ all' : let all := concat procs in
  all <> [] -> (forall x, In x all -> counted x) -> deviation (forces_ref all) <> 0 -> deviation (forces_nnp all) <> 0 ->
  dataSetNormalization (lit "force") true procs = Convert m cE cL ->
  datasetToNormalized m cE cL cQ all = Some all' ->
  mean (energies_ref all') = 0 /\ deviation (forces_ref all') = 1.
Proof.
  intros all Ne Hc D1 D2 H C. unfold dataSetNormalization in H. destruct (statistics procs) as [mm ss] eqn:St.
  destruct (statistics_spec procs mm ss Ne Hc St) as (S1 & _ & _ & _ & S5 & _ & S7 & S8). fold all in S1, S5, S7, S8.
  change (str_eqb (lit "force") (lit "stats-only")) with false in H. change (str_eqb (lit "force") (lit "ref")) with false in H.
  change (str_eqb (lit "force") (lit "force")) with true in H. cbv iota in H. cbn [negb] in H.
  injection H as <- <- <-. destruct (conv_all _ _ _ _ _ _ Hc C) as [E F].
  assert (NeE : energies_ref all <> []) by (unfold energies_ref; destruct all; [congruence|discriminate]).
  pose proof (deviation_nonneg (forces_ref all)). pose proof (deviation_nonneg (forces_nnp all)).
  rewrite E, F, mean_affine, !deviation_affine, S1, S7, S8 by exact NeE.
  split; [ring|].
  replace (deviation (forces_nnp all) / deviation (forces_ref all) / deviation (forces_nnp all)) with (/ deviation (forces_ref all)) by (field; lra).
  rewrite Rabs_pos_eq; [field; lra|]. left. apply Rinv_0_lt_compat. lra.
Qed.
