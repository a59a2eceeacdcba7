From Coq Require Import Reals Lra ZArith List Lia Bool.
From Verif Require Import Base.Vec3 Model.Geometry Spec.GeometrySpec.
Import ListNotations.
Local Open Scope R_scope.

Ltac vsimp := unfold combine, det, vadd, vsub, smul, matvec, cross, dot, calculateInverseBox, vzero in *; simpl in *.

(** ** Inverse box *)
Lemma det_expand box : det box =
  vx (m0 box) * vy (m1 box) * vz (m2 box) + vx (m1 box) * vy (m2 box) * vz (m0 box)
  + vx (m2 box) * vy (m0 box) * vz (m1 box) - vx (m2 box) * vy (m1 box) * vz (m0 box)
  - vx (m0 box) * vy (m2 box) * vz (m1 box) - vx (m1 box) * vy (m0 box) * vz (m2 box).
Proof. unfold det, dot, cross; simpl; ring. Qed.
Lemma matvec_combine A v : matvec A v = combine A v.
Proof. unfold combine. vring. Qed.
Lemma inv_left box : det box <> 0 -> forall s, matvec (calculateInverseBox box) (combine box s) = s.
Proof.
  intros H s. rewrite det_expand in H. destruct box as [[a b c] [d e f] [g h i]], s as [x y z]. simpl in H.
  apply vec_eq; vsimp; field; auto.
Qed.
Lemma inv_right box : det box <> 0 -> forall r, combine box (matvec (calculateInverseBox box) r) = r.
Proof.
  intros H r. rewrite det_expand in H. destruct box as [[a b c] [d e f] [g h i]], r as [x y z]. simpl in H.
  apply vec_eq; vsimp; field; auto.
Qed.
Lemma volume_det box : calculateVolume box = Rabs (det box).
Proof. reflexivity. Qed.
Lemma combine_inj box : det box <> 0 -> forall s t, combine box s = combine box t -> s = t.
Proof. intros H s t E. rewrite <- (inv_left box H s), <- (inv_left box H t). now rewrite E. Qed.

(** ** Truncation *)
Lemma Int_part_spec x : IZR (Int_part x) <= x < IZR (Int_part x) + 1.
Proof. pose proof (base_Int_part x). lra. Qed.
Lemma Int_part_unique x z : IZR z <= x < IZR z + 1 -> Int_part x = z.
Proof.
  intros [H1 H2]. pose proof (Int_part_spec x) as [H3 H4].
  assert (A : (z < Int_part x + 1)%Z) by (apply lt_IZR; rewrite plus_IZR; lra).
  assert (B : (Int_part x < z + 1)%Z) by (apply lt_IZR; rewrite plus_IZR; lra). lia.
Qed.
Lemma to_int_defined x : Rabs x < 2147483648 -> exists t, to_int x = Some t /\ t = trunc x.
Proof.
  intros H. exists (trunc x). split; auto. unfold to_int.
  assert (B : (-2147483648 <= trunc x <= 2147483647)%Z).
  { apply Rabs_def2 in H. unfold trunc. destruct (Rle_dec 0 x).
    - pose proof (Int_part_spec x). split.
      + apply le_IZR. destruct (Z_lt_le_dec (Int_part x) 0) as [C|C]; [|apply IZR_le in C; lra].
        assert (C' : (Int_part x <= -1)%Z) by lia. apply IZR_le in C'. lra.
      + assert ((Int_part x < 2147483648)%Z); [|lia]. apply lt_IZR. lra.
    - pose proof (Int_part_spec (- x)). split.
      + assert ((- 2147483648 < - Int_part (- x))%Z); [|lia]. apply lt_IZR. rewrite !opp_IZR. lra.
      + assert ((- Int_part (- x) < 1)%Z); [|lia]. apply lt_IZR. rewrite opp_IZR.
        assert ((-1 < Int_part (-x))%Z). { apply lt_IZR. lra. } assert (C : (0 <= Int_part (-x))%Z) by lia. apply IZR_le in C. lra. }
  destruct B as [B1 B2]. apply Z.leb_le in B1, B2. rewrite B1, B2. reflexivity.
Qed.
Lemma remap1_spec f : Rabs f < 2147483648 ->
  exists g z, remap1 f = Some g /\ 0 <= g < 1 /\ g = f + IZR z.
Proof.
  intros H. unfold remap1. destruct (Rlt_dec 1 f) as [H1|H1].
  - destruct (to_int_defined f H) as (t & -> & ->). unfold trunc. destruct (Rle_dec 0 f) as [_|]; [|lra].
    pose proof (Int_part_spec f). destruct (Rlt_dec (f - IZR (Int_part f)) 0); [lra|].
    destruct (Req_EM_T (f - IZR (Int_part f)) 1); [lra|].
    exists (f - IZR (Int_part f)), (- Int_part f)%Z. split; auto. split; [lra|]. rewrite opp_IZR. ring.
  - destruct (Rlt_dec f 0) as [H2|H2].
    + destruct (to_int_defined f H) as (t & -> & ->). unfold trunc. destruct (Rle_dec 0 f) as [|_]; [lra|].
      pose proof (Int_part_spec (- f)). rewrite opp_IZR.
      destruct (Req_EM_T (f + (1 - - IZR (Int_part (- f)))) 1) as [E|E].
      * exists 0, (Int_part (- f)). split; auto. split; lra.
      * exists (f + (1 - - IZR (Int_part (- f)))), (Int_part (- f) + 1)%Z. split; auto. rewrite plus_IZR. split; lra.
    + destruct (Req_EM_T f 1) as [E|E].
      * exists 0, (-1)%Z. split; auto. split; lra.
      * exists f, 0%Z. split; auto. split; lra.
Qed.
Lemma remap1_fixed f : 0 <= f < 1 -> remap1 f = Some f.
Proof.
  intros H. unfold remap1. destruct (Rlt_dec 1 f); [lra|]. destruct (Rlt_dec f 0); [lra|].
  destruct (Req_EM_T f 1); [lra|reflexivity].
Qed.
Lemma remap_frac box inv r : remap box inv r =
  match remap1 (vx (matvec inv r)), remap1 (vy (matvec inv r)), remap1 (vz (matvec inv r)) with
  | Some f0, Some f1, Some f2 => Some (combine box (mkVec f0 f1 f2)) | _, _, _ => None end.
Proof. rewrite matvec_combine. reflexivity. Qed.
Lemma remap_correct box r : det box <> 0 -> int_range (matvec (calculateInverseBox box) r) ->
  exists r', remap box (calculateInverseBox box) r = Some r' /\
    (exists s, in_cell s /\ r' = combine box s) /\
    (exists m, r' = vadd r (lattice box m)) /\
    remap box (calculateInverseBox box) r' = Some r'.
Proof.
  intros Hd (Hx & Hy & Hz). set (inv := calculateInverseBox box) in *.
  destruct (remap1_spec _ Hx) as (g0 & z0 & E0 & R0 & S0).
  destruct (remap1_spec _ Hy) as (g1 & z1 & E1 & R1 & S1).
  destruct (remap1_spec _ Hz) as (g2 & z2 & E2 & R2 & S2).
  rewrite remap_frac, E0, E1, E2. exists (combine box (mkVec g0 g1 g2)). split; auto. split.
  { exists (mkVec g0 g1 g2). unfold in_cell; simpl. auto. }
  split.
  - exists (z0, z1, z2). unfold lattice. rewrite <- (inv_right box Hd r) at 1. fold inv. rewrite S0, S1, S2.
    unfold combine. vring.
  - rewrite remap_frac. unfold inv. rewrite (inv_left box Hd). simpl. rewrite !remap1_fixed by auto. reflexivity.
Qed.
(** A point of the cell stays where it is. *)
Lemma remap_in_cell box s : det box <> 0 -> in_cell s -> remap box (calculateInverseBox box) (combine box s) = Some (combine box s).
Proof.
  intros Hd (A & B & C). rewrite remap_frac, (inv_left box Hd). rewrite !remap1_fixed by auto.
  destruct s; reflexivity.
Qed.

(** ** Projections and copies *)
Lemma det_cyc1 box : dot (m1 box) (cross (m0 box) (m2 box)) = - det box.
Proof. unfold det, dot, cross; simpl; ring. Qed.
Lemma det_cyc2 box : dot (m2 box) (cross (m0 box) (m1 box)) = det box.
Proof. unfold det, dot, cross; simpl; ring. Qed.
Lemma cross_nonzero box : det box <> 0 ->
  0 < norm (cross (m1 box) (m2 box)) /\ 0 < norm (cross (m0 box) (m2 box)) /\ 0 < norm (cross (m0 box) (m1 box)).
Proof.
  intros H. repeat split; apply norm_pos; intros E; apply H.
  - unfold det. rewrite E. unfold dot; simpl; ring.
  - replace (det box) with (- dot (m1 box) (cross (m0 box) (m2 box))) by (rewrite det_cyc1; ring).
    rewrite E. unfold dot; simpl; ring.
  - rewrite <- det_cyc2. rewrite E. unfold dot; simpl; ring.
Qed.
Lemma projections_eq box : det box <> 0 -> projections box =
  (Rabs (det box) / norm (cross (m1 box) (m2 box)), Rabs (det box) / norm (cross (m0 box) (m2 box)),
   Rabs (det box) / norm (cross (m0 box) (m1 box))).
Proof.
  intros H. destruct (cross_nonzero box H) as (A & B & C). unfold projections. rewrite !dot_normalize, det_cyc1, det_cyc2.
  fold (det box). unfold Rdiv. rewrite !Rabs_mult, Rabs_Ropp, !Rabs_inv.
  rewrite !(Rabs_right (norm _)) by lra. reflexivity.
Qed.
Lemma projections_pos box : det box <> 0 ->
  let '(pa, pb, pc) := projections box in 0 < pa /\ 0 < pb /\ 0 < pc.
Proof.
  intros H. rewrite projections_eq by auto. destruct (cross_nonzero box H) as (A & B & C).
  pose proof (Rabs_pos_lt _ H). repeat split; apply Rdiv_lt_0_compat; auto.
Qed.
(** Fractional coordinates are bounded by distance over plane spacing. *)
Lemma frac_bound box s : det box <> 0 ->
  let '(pa, pb, pc) := projections box in
  Rabs (vx s) * pa <= norm (combine box s) /\ Rabs (vy s) * pb <= norm (combine box s) /\
  Rabs (vz s) * pc <= norm (combine box s).
Proof.
  intros H. rewrite projections_eq by auto. destruct (cross_nonzero box H) as (A & B & C).
  assert (G : forall v c t, 0 < norm c -> Rabs (dot v c) = Rabs t * Rabs (det box) -> Rabs t * (Rabs (det box) / norm c) <= norm v).
  { intros v c t Hc E. replace (Rabs t * (Rabs (det box) / norm c)) with (Rabs t * Rabs (det box) / norm c) by (unfold Rdiv; ring).
    rewrite <- E. apply (Rmult_le_reg_r (norm c)); auto. unfold Rdiv. rewrite Rmult_assoc, Rinv_l, Rmult_1_r by lra.
    apply cauchy_schwarz. }
  repeat split; apply G; auto.
  - rewrite <- Rabs_mult. f_equal. unfold combine, det, dot, cross, vadd, smul; simpl; ring.
  - rewrite <- (Rabs_Ropp (det box)), <- Rabs_mult. f_equal. unfold combine, det, dot, cross, vadd, smul; simpl; ring.
  - rewrite <- Rabs_mult. f_equal. unfold combine, det, dot, cross, vadd, smul; simpl; ring.
Qed.
Lemma copies_loop_spec fuel : forall n proj rc k, copies_loop fuel n proj rc = Some k ->
  (n <= k)%nat /\ rc < INR k * proj /\ (forall i, (n <= i < k)%nat -> INR i * proj <= rc).
Proof.
  induction fuel; simpl; intros n proj rc k H; [discriminate|].
  destruct (Rle_dec (INR n * proj) rc) as [Hle|Hle].
  - apply IHfuel in H. destruct H as (A & B & C). split; [lia|]. split; auto.
    intros i Hi. destruct (Nat.eq_dec i n) as [->|]; [auto|apply C; lia].
  - injection H as <-. split; [lia|]. split; [lra|]. intros; lia.
Qed.
Lemma copies_loop_terminates proj rc : 0 < proj -> forall n, exists fuel k, copies_loop fuel n proj rc = Some k.
Proof.
  intros Hp. destruct (archimed (rc / proj)) as [Ha _].
  assert (Hb : exists M : nat, rc < INR M * proj).
  { exists (Z.to_nat (up (rc / proj))). apply (Rmult_lt_reg_r (/ proj)); [now apply Rinv_0_lt_compat|].
    rewrite Rmult_assoc, Rinv_r, Rmult_1_r by lra. fold (rc / proj).
    destruct (Z_le_gt_dec 0 (up (rc / proj))) as [Hz|Hz].
    - rewrite INR_IZR_INZ, Z2Nat.id by auto. lra.
    - assert (Hz' : (up (rc / proj) <= 0)%Z) by lia. apply IZR_le in Hz'. pose proof (pos_INR (Z.to_nat (up (rc / proj)))). lra. }
  destruct Hb as [M HM]. intros n.
  assert (G : forall d n, (M <= n + d)%nat -> exists fuel k, copies_loop fuel n proj rc = Some k).
  { induction d; intros n' Hd.
    - exists 1%nat. simpl. destruct (Rle_dec (INR n' * proj) rc) as [Hle|]; [|eauto].
      exfalso. assert (HMn : (M <= n')%nat) by lia. apply le_INR in HMn. nra.
    - destruct (IHd (S n') ltac:(lia)) as (fuel & k & E). exists (S fuel). cbn [copies_loop].
      destruct (Rle_dec (INR n' * proj) rc); eauto. }
  apply (G M). lia.
Qed.
Lemma copies_loop_more fuel fuel' n proj rc k : copies_loop fuel n proj rc = Some k -> (fuel <= fuel')%nat ->
  copies_loop fuel' n proj rc = Some k.
Proof.
  revert fuel' n. induction fuel; simpl; intros fuel' n H Hf; [discriminate|].
  destruct fuel' as [|fuel']; [lia|]. simpl. destruct (Rle_dec (INR n * proj) rc); [|auto].
  apply IHfuel; auto. lia.
Qed.
Lemma copies_terminate box rc : det box <> 0 -> exists fuel, forall fuel', (fuel <= fuel')%nat ->
  exists c, calculatePbcCopies fuel' box rc = Some c /\ calculatePbcCopies fuel box rc = Some c.
Proof.
  intros H. pose proof (projections_pos box H) as P. unfold calculatePbcCopies.
  destruct (projections box) as [[pa pb] pc]. destruct P as (A & B & C).
  destruct (copies_loop_terminates pa rc A 0) as (fa & a & Ea).
  destruct (copies_loop_terminates pb rc B 0) as (fb & b & Eb).
  destruct (copies_loop_terminates pc rc C 0) as (fc & c & Ec).
  exists (fa + fb + fc)%nat. intros f Hf.
  exists (a, b, c). split; [rewrite (copies_loop_more _ f _ _ _ _ Ea), (copies_loop_more _ f _ _ _ _ Eb), (copies_loop_more _ f _ _ _ _ Ec) by lia; reflexivity|].
  rewrite (copies_loop_more _ (fa + fb + fc) _ _ _ _ Ea), (copies_loop_more _ (fa + fb + fc) _ _ _ _ Eb), (copies_loop_more _ (fa + fb + fc) _ _ _ _ Ec) by lia. reflexivity.
Qed.
Lemma copies_zero_projection rc fuel n : 0 <= rc -> copies_loop fuel n 0 rc = None.
Proof.
  intros H. revert n. induction fuel; intros n; simpl; auto. destruct (Rle_dec (INR n * 0) rc) as [|Hn]; auto. exfalso; apply Hn; lra.
Qed.

Lemma bound_int (x t p : R) (k : nat) (z : Z) : 0 < p -> -1 < t < 1 -> Rabs (t + IZR z) * p <= x -> x < INR k * p ->
  (- Z.of_nat k <= z <= Z.of_nat k)%Z.
Proof.
  intros Hp Ht H1 H2. assert (H : Rabs (t + IZR z) < INR k) by (apply (Rmult_lt_reg_r p); lra).
  apply Rabs_def2 in H. rewrite INR_IZR_INZ in H.
  assert (A : (z < Z.of_nat k + 1)%Z) by (apply lt_IZR; rewrite plus_IZR; lra).
  assert (B : (- Z.of_nat k - 1 < z)%Z) by (apply lt_IZR; rewrite minus_IZR, opp_IZR; lra). lia.
Qed.
Lemma copies_suffice box rc fuel c s m : det box <> 0 -> calculatePbcCopies fuel box rc = Some c ->
  close_frac s -> norm (vadd (combine box s) (lattice box m)) <= rc -> searched c m.
Proof.
  intros Hd Hc (Cx & Cy & Cz) Hn. unfold calculatePbcCopies in Hc.
  pose proof (projections_pos box Hd) as P.
  destruct m as [[x y] z].
  set (s' := mkVec (vx s + IZR x) (vy s + IZR y) (vz s + IZR z)).
  assert (E : vadd (combine box s) (lattice box (x, y, z)) = combine box s').
  { unfold lattice, combine, s'. vring. }
  rewrite E in Hn. pose proof (frac_bound box s' Hd) as F.
  destruct (projections box) as [[pa pb] pc]. destruct P as (A & B & C). destruct F as (Fa & Fb & Fc).
  destruct (copies_loop fuel 0 pa rc) as [a|] eqn:Ea; [|discriminate].
  destruct (copies_loop fuel 0 pb rc) as [b|] eqn:Eb; [|discriminate].
  destruct (copies_loop fuel 0 pc rc) as [d|] eqn:Ec; [|discriminate]. injection Hc as <-.
  apply copies_loop_spec in Ea, Eb, Ec. destruct Ea as (_ & Ea & _), Eb as (_ & Eb & _), Ec as (_ & Ec & _).
  unfold searched, s' in *; simpl in *. repeat split.
  all: first [ apply (bound_int rc (vx s) pa a x); auto; lra | apply (bound_int rc (vy s) pb b y); auto; lra
             | apply (bound_int rc (vz s) pc d z); auto; lra ].
Qed.

(** ** Minimum image convention *)
Lemma c_round_close x z : Rabs (x - IZR z) < / 2 -> c_round x = z.
Proof.
  intros H. apply Rabs_def2 in H. unfold c_round. destruct (Rle_dec 0 x).
  - apply Int_part_unique. lra.
  - assert (E : Int_part (- x + / 2) = (- z)%Z) by (apply Int_part_unique; rewrite opp_IZR; lra). rewrite E. lia.
Qed.
Lemma c_round_half x : Rabs (x - IZR (c_round x)) <= / 2.
Proof.
  unfold c_round. destruct (Rle_dec 0 x).
  - pose proof (Int_part_spec (x + / 2)). apply Rabs_le. lra.
  - pose proof (Int_part_spec (- x + / 2)). apply Rabs_le. rewrite opp_IZR. lra.
Qed.
Lemma can_mic box rc : canMinimumImageConventionBeApplied box rc = true ->
  let '(pa, pb, pc) := projections box in rc < pa / 2 /\ rc < pb / 2 /\ rc < pc / 2.
Proof.
  unfold canMinimumImageConventionBeApplied. destruct (projections box) as [[pa pb] pc].
  destruct (Rlt_dec rc _) as [H|]; [intros _|discriminate].
  assert (Rmin pa (Rmin pb pc) <= pa) by apply Rmin_l.
  assert (Rmin pa (Rmin pb pc) <= pb) by (eapply Rle_trans; [apply Rmin_r|apply Rmin_l]).
  assert (Rmin pa (Rmin pb pc) <= pc) by (eapply Rle_trans; [apply Rmin_r|apply Rmin_r]). lra.
Qed.
Lemma small_frac (t p rc : R) : 0 < p -> Rabs t * p <= rc -> rc < p / 2 -> Rabs t < / 2.
Proof. intros. apply (Rmult_lt_reg_r p); lra. Qed.
Lemma mic_unique box rc dr m : det box <> 0 -> canMinimumImageConventionBeApplied box rc = true ->
  norm (vadd dr (lattice box m)) <= rc ->
  applyMinimumImageConvention box (calculateInverseBox box) dr = vadd dr (lattice box m).
Proof.
  intros Hd Hcan Hn. apply can_mic in Hcan. destruct m as [[x y] z].
  set (s := matvec (calculateInverseBox box) dr).
  assert (Edr : dr = combine box s) by (symmetry; apply inv_right; auto).
  set (s' := mkVec (vx s + IZR x) (vy s + IZR y) (vz s + IZR z)).
  assert (E : vadd dr (lattice box (x, y, z)) = combine box s').
  { rewrite Edr at 1. unfold lattice, combine, s'. vring. }
  rewrite E in *. pose proof (frac_bound box s' Hd) as F. pose proof (projections_pos box Hd) as P.
  destruct (projections box) as [[pa pb] pc]. destruct F as (Fa & Fb & Fc), Hcan as (Ca & Cb & Cc), P as (Pa & Pb & Pc).
  unfold applyMinimumImageConvention. fold s. rewrite matvec_combine. f_equal.
  assert (G : forall t p k, 0 < p -> Rabs (t + IZR k) * p <= norm (combine box s') -> rc < p / 2 -> c_round t = (- k)%Z).
  { intros t p k Hp H1 H2. apply c_round_close. rewrite opp_IZR. replace (t - - IZR k) with (t + IZR k) by ring.
    apply (small_frac _ p rc); auto. lra. }
  unfold s' in Fa, Fb, Fc; simpl in Fa, Fb, Fc. unfold s'.
  rewrite (G (vx s) pa x), (G (vy s) pb y), (G (vz s) pc z) by auto. rewrite !opp_IZR. unfold vsub; simpl. f_equal; ring.
Qed.
Lemma mic_image box dr : det box <> 0 -> exists m s,
  applyMinimumImageConvention box (calculateInverseBox box) dr = vadd dr (lattice box m) /\
  applyMinimumImageConvention box (calculateInverseBox box) dr = combine box s /\
  Rabs (vx s) <= / 2 /\ Rabs (vy s) <= / 2 /\ Rabs (vz s) <= / 2.
Proof.
  intros Hd. unfold applyMinimumImageConvention. set (s := matvec (calculateInverseBox box) dr).
  exists (- c_round (vx s), - c_round (vy s), - c_round (vz s))%Z.
  exists (vsub s (mkVec (IZR (c_round (vx s))) (IZR (c_round (vy s))) (IZR (c_round (vz s))))).
  rewrite matvec_combine. split; [|split; [reflexivity|]].
  - rewrite <- (inv_right box Hd dr) at 1. fold s. unfold lattice, combine. rewrite !opp_IZR. vring.
  - unfold vsub; simpl. repeat split; apply c_round_half.
Qed.
Lemma mic_at_most_one box rc dr m m' : det box <> 0 -> canMinimumImageConventionBeApplied box rc = true ->
  norm (vadd dr (lattice box m)) <= rc -> norm (vadd dr (lattice box m')) <= rc -> m = m'.
Proof.
  intros Hd Hc H1 H2. pose proof (mic_unique box rc dr m Hd Hc H1) as E1. pose proof (mic_unique box rc dr m' Hd Hc H2) as E2.
  rewrite E1 in E2. destruct m as [[x y] z], m' as [[x' y'] z']. unfold lattice in E2.
  assert (E : combine box (mkVec (IZR x) (IZR y) (IZR z)) = combine box (mkVec (IZR x') (IZR y') (IZR z'))).
  { assert (G : forall a b c, vadd a b = vadd a c -> b = c).
    { intros a b c Eq. replace b with (vsub (vadd a b) a) by vring. rewrite Eq. vring. }
    apply (G dr). exact E2. }
  apply combine_inj in E; auto. injection E as A B C.
  apply eq_IZR in A, B, C. subst. reflexivity.
Qed.
(** Outside the accepted range the result need not be the shortest image. *)
Definition skew_box : mat := mkMat (mkVec 1 0 0) (mkVec (9/10) 1 0) (mkVec 0 0 10).
Lemma skew_det : det skew_box <> 0.
Proof. unfold det, skew_box, dot, cross; simpl. lra. Qed.
Lemma mic_not_shortest : exists box dr m, det box <> 0 /\
  norm (vadd dr (lattice box m)) < norm (applyMinimumImageConvention box (calculateInverseBox box) dr).
Proof.
  set (s := mkVec (45/100) (45/100) 0).
  exists skew_box, (combine skew_box s), (-1, 0, 0)%Z. split; [apply skew_det|].
  unfold applyMinimumImageConvention. rewrite (inv_left _ skew_det).
  assert (Ea : c_round (45/100) = 0%Z) by (apply c_round_close; rewrite Rabs_right; lra).
  assert (Eb : c_round 0 = 0%Z) by (apply c_round_close; rewrite Rabs_right; lra).
  unfold s. cbn [vx vy vz]. rewrite Ea, Eb, matvec_combine.
  unfold norm. apply sqrt_lt_1_alt. unfold norm2, combine, lattice, skew_box, vsub, vadd, smul; simpl.
  unfold combine, vadd, smul; simpl. lra.
Qed.
Lemma remap_far : exists box r, det box <> 0 /\ remap box (calculateInverseBox box) r = None.
Proof.
  exists (mkMat (mkVec 1 0 0) (mkVec 0 1 0) (mkVec 0 0 1)), (mkVec 3000000000 0 0).
  assert (Hd : det (mkMat (mkVec 1 0 0) (mkVec 0 1 0) (mkVec 0 0 1)) <> 0) by (unfold det, dot, cross; simpl; lra).
  split; auto. rewrite remap_frac.
  assert (E : vx (matvec (calculateInverseBox (mkMat (mkVec 1 0 0) (mkVec 0 1 0) (mkVec 0 0 1))) (mkVec 3000000000 0 0)) = 3000000000).
  { unfold matvec, calculateInverseBox, smul; simpl. field. }
  rewrite E. unfold remap1. destruct (Rlt_dec 1 3000000000) as [_|]; [|lra].
  unfold to_int, trunc. destruct (Rle_dec 0 3000000000) as [_|]; [|lra].
  rewrite (Int_part_unique 3000000000 3000000000) by lra. reflexivity.
Qed.
