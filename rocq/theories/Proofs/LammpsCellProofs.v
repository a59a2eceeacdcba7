(** Cells and charges in the LAMMPS interface (C102). *)
From Coq Require Import Reals Lra ZArith List Lia Bool Arith.
From Verif Require Import Base.Loop Base.Vec3 Model.Geometry Model.NeighborList Model.LammpsInterface Model.LammpsCell
  Spec.GeometrySpec Spec.LammpsSpec Spec.LammpsCellSpec Proofs.GeometryProofs Proofs.LammpsProofs Proofs.LammpsExamples.
Import ListNotations.
Local Open Scope R_scope.

Lemma scale_unit I v : scaleRow I v = smul (length_unit I) v.
Proof. unfold scaleRow, length_unit. destruct (if_normalize I); vring. Qed.
Lemma box_points I c s0 s : combine (lc_box (setBoxVectors I c s0)) s = smul (length_unit I) (combine (lammps_cell c) s).
Proof. cbn [setBoxVectors lc_box]. rewrite !scale_unit. unfold combine, lammps_cell, rawBox. cbn [m0 m1 m2]. vring. Qed.
Lemma box_det I c s0 : det (lc_box (setBoxVectors I c s0)) = length_unit I * length_unit I * length_unit I *
  ((vx (bc_hi c) - vx (bc_lo c)) * (vy (bc_hi c) - vy (bc_lo c)) * (vz (bc_hi c) - vz (bc_lo c))).
Proof. cbn [setBoxVectors lc_box]. rewrite !scale_unit. unfold det, dot, cross, smul, rawBox. cbn. ring. Qed.
Lemma det_pos I c s0 : 0 < length_unit I -> proper c -> 0 < det (lc_box (setBoxVectors I c s0)).
Proof. intros U (A & B & C). rewrite box_det. set (u := length_unit I) in *. clearbody u. repeat apply Rmult_lt_0_compat; lra. Qed.
Lemma cell_ok I c s0 : 0 < length_unit I -> proper c ->
  let s := setBoxVectors I c s0 in
  lc_periodic s = true /\
  (forall f, combine (lc_box s) f = smul (length_unit I) (combine (lammps_cell c) f)) /\
  (forall f, matvec (lc_invbox s) (smul (length_unit I) (combine (lammps_cell c) f)) = f) /\
  lc_volume s = length_unit I * length_unit I * length_unit I *
    ((vx (bc_hi c) - vx (bc_lo c)) * (vy (bc_hi c) - vy (bc_lo c)) * (vz (bc_hi c) - vz (bc_lo c))).
Proof.
  intros U P s. assert (D := det_pos I c s0 U P). split; [reflexivity|]. split; [intros f; apply box_points|]. split.
  - intros f. unfold s. rewrite <- (box_points I c s0). apply inv_left. cbn [setBoxVectors lc_box] in D |- *. lra.
  - unfold s. transitivity (Rabs (det (lc_box (setBoxVectors I c s0)))); [apply volume_det|].
    rewrite Rabs_right by lra. apply box_det.
Qed.
Lemma images_ok I c s0 x y m : 0 < length_unit I ->
  norm (vsub (vsub (smul (length_unit I) x) (smul (length_unit I) y)) (lattice (lc_box (setBoxVectors I c s0)) m)) =
  length_unit I * norm (vsub (vsub x y) (lattice (lammps_cell c) m)).
Proof.
  intros U. destruct m as [[a b] d]. unfold lattice. rewrite box_points.
  set (w := combine _ _). replace (vsub (vsub (smul (length_unit I) x) (smul (length_unit I) y)) (smul (length_unit I) w))
    with (smul (length_unit I) (vsub (vsub x y) w)) by vring.
  rewrite norm_smul, Rabs_right by lra. reflexivity.
Qed.

Lemma above_iff a b : above a b = true <-> b < a.
Proof. unfold above. destruct (Rlt_dec b a); split; intros; auto; discriminate. Qed.
Lemma smallest_pos : 0 < smallest_normal.
Proof. apply powerRZ_lt. lra. Qed.
Lemma seems_iff c : seemsTriclinic (rawBox c) = true <-> tilted_forward c.
Proof.
  unfold seemsTriclinic, rawBox, tilted_forward. cbn [m0 m1 m2 vx vy vz]. rewrite !orb_true_iff, !above_iff.
  pose proof smallest_pos. fold smallest_normal. intuition lra.
Qed.
Lemma triclinic_ok I calls : forall s0, lc_triclinic (fold_left (fun s c => setBoxVectors I c s) calls s0) = true <->
  lc_triclinic s0 = true \/ exists c, In c calls /\ tilted_forward c.
Proof.
  induction calls as [|c calls IH]; intros s0; cbn [fold_left].
  - split; [now left|]. intros [H|(c & [] & _)]. exact H.
  - rewrite IH. cbn [setBoxVectors lc_triclinic].
    destruct (seemsTriclinic (rawBox c)) eqn:E.
    + split; intros _; [right; exists c; split; [now left|now apply seems_iff]|now left].
    + assert (N : ~ tilted_forward c) by (intros X; apply seems_iff in X; congruence).
      split; intros [H|(d & Hd & T)]; auto.
      * right. exists d. split; [now right|exact T].
      * destruct Hd as [<-|Hd]; [contradiction|]. right. exists d. auto.
Qed.

Definition unit_corner : vec := mkVec 1 1 1.
Definition sheared : box_call := mkBoxCall vzero unit_corner (- (1/2)) 0 0.
Definition straight : box_call := mkBoxCall vzero unit_corner 0 0 0.
Definition forward : box_call := mkBoxCall vzero unit_corner (1/2) 0 0.
Definition start : lcell := mkLCell false false 0 (mkMat vzero vzero vzero) (mkMat vzero vzero vzero).
Lemma proper_unit xy xz yz : proper (mkBoxCall vzero unit_corner xy xz yz).
Proof. unfold proper, unit_corner, vzero. cbn. lra. Qed.
Lemma small_half : powerRZ 2 (-1022) < 1/2.
Proof.
  assert (E : powerRZ 2 (-1022) = powerRZ 2 (-1) * powerRZ 2 (-1021)) by (rewrite <- powerRZ_add by lra; reflexivity).
  rewrite E. assert (Eh : powerRZ 2 (-1) = 1/2) by (unfold powerRZ; change (Pos.to_nat 1) with 1%nat; rewrite pow_1; lra). rewrite Eh.
  assert (L : powerRZ 2 (-1021) < 1).
  { change (powerRZ 2 (-1021)) with (/ 2 ^ Pos.to_nat 1021). rewrite <- Rinv_1. apply Rinv_lt_contravar.
    - rewrite Rmult_1_l. apply pow_lt. lra.
    - apply Rlt_pow_R1; [lra|]. lia. }
  lra.
Qed.
Lemma not_forward_sheared : ~ tilted_forward sheared.
Proof. assert (H := smallest_pos). unfold smallest_normal in H. unfold tilted_forward, sheared. cbn [bc_xy bc_xz bc_yz]. lra. Qed.
Lemma flag_wrong : (exists I c, 0 < length_unit I /\ proper c /\ oblique c /\ lc_triclinic (setBoxVectors I c start) = false) /\
  (exists I c d, 0 < length_unit I /\ proper c /\ proper d /\ ~ oblique d /\
     lc_triclinic (setBoxVectors I d (setBoxVectors I c start)) = true).
Proof.
  assert (U : 0 < length_unit mixed).
  { destruct mixed_configured as (A & _ & B & _). unfold length_unit. destruct (if_normalize mixed); [|lra].
    apply Rmult_lt_0_compat; auto. now apply B. }
  split.
  - exists mixed, sheared. split; [exact U|]. split; [apply proper_unit|]. split.
    + left. unfold dot, lammps_cell, sheared, unit_corner, vzero. cbn. lra.
    + apply not_true_is_false. intros H. apply (triclinic_ok mixed [sheared] start) in H.
      destruct H as [H|(c & [<-|[]] & T)]; [discriminate H|exact (not_forward_sheared T)].
  - exists mixed, forward, straight. split; [exact U|]. split; [apply proper_unit|]. split; [apply proper_unit|]. split.
    + unfold oblique, dot, lammps_cell, straight, unit_corner, vzero. cbn. lra.
    + apply (triclinic_ok mixed [forward; straight] start). right. exists forward. split; [now left|]. left. exact small_half.
Qed.

Lemma put_spec charges : forall i q k, putCharges i charges q k =
  if (Nat.leb i k && Nat.ltb k (i + length charges))%bool then nth (k - i) charges 0 else q k.
Proof.
  induction charges as [|c r IH]; intros i q k; cbn [putCharges length].
  - destruct (Nat.leb_spec i k); destruct (Nat.ltb_spec k (i + 0)); cbn [andb]; auto; lia.
  - rewrite IH. unfold upd. destruct (Nat.leb_spec (S i) k); destruct (Nat.ltb_spec k (S i + length r)); cbn [andb];
    destruct (Nat.leb_spec i k); destruct (Nat.ltb_spec k (i + S (length r))); cbn [andb]; try lia;
    first [ (replace (k - i)%nat with (S (k - S i)) by lia; reflexivity)
          | (destruct (Nat.eqb_spec k i); [lia|reflexivity])
          | (assert (k = i) by lia; subst k; rewrite Nat.eqb_refl, Nat.sub_diag; reflexivity) ].
Qed.
Lemma charges_ok I types nlocal nall N charges q : configured I types nlocal nall N ->
  (forall i, (i < nlocal)%nat -> active I types i = true) ->
  exists s, setLocalAtoms I nlocal types = Some s /\ (length charges = length (ls_atoms s) ->
  exists q', getCharges true charges (Some q) = Some q' /\
    (forall p a, nth_error (ls_atoms s) p = Some a -> nth_error charges p = Some (q' (la_index a))) /\
    (forall i, (i < nlocal)%nat -> exists p a, nth_error (ls_atoms s) p = Some a /\ la_index a = i) /\
    (forall k, (nlocal <= k)%nat -> q' k = q k)).
Proof.
  intros HC Ha. destruct (locals_ok I types nlocal nall N HC) as (s & E & A & _). exists s. split; [exact E|]. intros L.
  eexists. split; [reflexivity|].
  assert (F : filter (active I types) (seq 0 nlocal) = seq 0 nlocal) by (apply (act_all I types nlocal); auto).
  rewrite F in A. assert (La : length (ls_atoms s) = nlocal) by (rewrite A, map_length, seq_length; reflexivity).
  assert (Hat : forall p a, nth_error (ls_atoms s) p = Some a -> la_index a = p /\ (p < nlocal)%nat).
  { intros p a Hp. assert (Hlt : (p < nlocal)%nat) by (rewrite <- La; apply nth_error_Some; congruence). split; auto.
    rewrite A in Hp. rewrite (map_nth_error _ p (seq 0 nlocal) (d := p)) in Hp.
    - injection Hp as <-. reflexivity.
    - rewrite (nth_error_nth' _ 0%nat) by (now rewrite seq_length). now rewrite seq_nth. }
  split; [|split].
  - intros p a Hp. destruct (Hat p a Hp) as [-> Hlt]. rewrite put_spec. cbn [Nat.leb Nat.add andb].
    destruct (Nat.ltb_spec p (length charges)); [|lia]. rewrite Nat.sub_0_r. apply nth_error_nth'. lia.
  - intros i Hi. destruct (nth_error (ls_atoms s) i) as [a|] eqn:Ei.
    + exists i, a. split; auto. now apply Hat.
    + apply nth_error_None in Ei. lia.
  - intros k Hk. rewrite put_spec. destruct (Nat.ltb_spec k (0 + length charges)); [lia|]. now rewrite andb_false_r.
Qed.
Lemma charges_wrong : exists I types s a q', configured I types 2 4 2 /\ setLocalAtoms I 2 types = Some s /\ ls_atoms s = [a] /\
  getCharges true [5] (Some (fun _ => 0)) = Some q' /\ active I types 0 = false /\ q' 0%nat = 5 /\ la_index a = 1%nat /\ q' 1%nat = 0.
Proof.
  exists mixed, mixed_types. eexists. eexists. eexists. split; [exact mixed_configured|]. split; [reflexivity|]. split; [reflexivity|].
  split; [reflexivity|]. repeat split; reflexivity.
Qed.
Lemma cell_example : 0 < length_unit mixed /\ proper sheared /\ oblique sheared /\ tilted_forward forward.
Proof.
  split; [|split; [apply proper_unit|split]].
  - destruct mixed_configured as (A & _ & B & _). unfold length_unit. destruct (if_normalize mixed); [|lra].
    apply Rmult_lt_0_compat; auto. now apply B.
  - left. unfold dot, lammps_cell, sheared, unit_corner, vzero. cbn. lra.
  - left. exact small_half.
Qed.
