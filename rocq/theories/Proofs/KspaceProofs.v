(** Proofs for C43 and C44. *)
From Coq Require Import Reals Lra ZArith List Bool Arith Lia Permutation.
From Verif Require Import Base.Vec3 Base.SumR Base.Erf Model.Geometry Model.NeighborList Model.Kspace
  Spec.GeometrySpec Spec.KspaceSpec Proofs.GeometryProofs Proofs.NeighborProofs.
Import ListNotations.
Local Open Scope R_scope.

(** ** Index triples *)
Lemma in_zupto n z : In z (zupto n) <-> (0 <= z <= Z.of_nat n)%Z.
Proof.
  unfold zupto. rewrite in_map_iff. split.
  - intros (k & <- & Hk). apply in_seq in Hk. lia.
  - intros H. exists (Z.to_nat z). split; [lia|]. apply in_seq. lia.
Qed.
Lemma NoDup_zupto n : NoDup (zupto n).
Proof. unfold zupto. apply NoDup_map_inj; [|apply seq_NoDup]. intros; lia. Qed.
Lemma NoDup_zrange' n : NoDup (zrange n).
Proof. unfold zrange. apply NoDup_map_inj; [|apply seq_NoDup]. intros; lia. Qed.
Lemma NoDup_flat_map' {A B} (f : A -> list B) l : NoDup l -> (forall x, In x l -> NoDup (f x)) ->
  (forall x y z, In x l -> In y l -> In z (f x) -> In z (f y) -> x = y) -> NoDup (flat_map f l).
Proof.
  induction l as [|a l IH]; intros Hn Hf Hd; simpl; [constructor|].
  inversion Hn; subst.
  assert (NoDup (flat_map f l)). { apply IH; auto. intros; apply Hf; right; auto. intros; eapply Hd; eauto; right; auto. }
  assert (NoDup (f a)) by (apply Hf; left; auto).
  assert (D : forall z, In z (f a) -> ~ In z (flat_map f l)).
  { intros z Hz Hc. apply in_flat_map in Hc. destruct Hc as (y & Hy & Hzy). apply H1.
    rewrite (Hd a y z); auto. left; auto. right; auto. }
  clear IH Hd Hf Hn H1 H2. induction (f a) as [|b r IHr]; simpl; auto.
  inversion H0; subst. constructor.
  - rewrite in_app_iff. intros [C|C]; auto. apply (D b); simpl; auto.
  - apply IHr; auto. intros z Hz. apply D. right; auto.
Qed.
(** The half of the lattice that is kept. *)
Definition upper (m : Z * Z * Z) : Prop :=
  let '(i, j, k) := m in (0 < i)%Z \/ (i = 0 /\ 0 < j)%Z \/ (i = 0 /\ j = 0 /\ 0 < k)%Z.
Definition zneg (m : Z * Z * Z) : Z * Z * Z := let '(i, j, k) := m in (- i, - j, - k)%Z.
Lemma upper_cases m : m <> (0, 0, 0)%Z -> (upper m /\ ~ upper (zneg m)) \/ (upper (zneg m) /\ ~ upper m).
Proof.
  destruct m as [[i j] k]. intros H. unfold upper, zneg.
  destruct (Z.eq_dec i 0), (Z.eq_dec j 0), (Z.eq_dec k 0); subst; try congruence; lia.
Qed.
Lemma in_half_triples n m : In m (half_triples n) <-> searched n m /\ upper m.
Proof.
  destruct n as [[n0 n1] n2], m as [[i j] k]. unfold half_triples, searched, upper. split.
  - intros H. apply in_flat_map in H. destruct H as (i' & Hi & H). apply in_flat_map in H. destruct H as (j' & Hj & H).
    apply in_flat_map in H. destruct H as (k' & Hk & H). apply in_zupto in Hi.
    destruct (Z.eqb_spec i' 0), (Z.eqb_spec j' 0), (Z.eqb_spec k' 0); simpl in *; try contradiction;
    destruct H as [[= <- <- <-]|[]]; rewrite ?in_zupto, ?in_zrange in *; lia.
  - intros [(H0 & H1 & H2) H]. apply in_flat_map. exists i. split. { apply in_zupto. lia. }
    apply in_flat_map. exists j. split. { destruct (Z.eqb_spec i 0); [apply in_zupto|apply in_zrange]; lia. }
    apply in_flat_map. exists k. split.
    { destruct (Z.eqb_spec i 0), (Z.eqb_spec j 0); simpl; rewrite ?in_zupto, ?in_zrange; lia. }
    destruct (Z.eqb_spec i 0), (Z.eqb_spec j 0), (Z.eqb_spec k 0); simpl; auto. lia.
Qed.
Lemma NoDup_half n : NoDup (half_triples n).
Proof.
  destruct n as [[n0 n1] n2]. unfold half_triples.
  assert (S : forall (i j k : Z) (p : Z * Z * Z), In p (if (Z.eqb i 0 && Z.eqb j 0 && Z.eqb k 0)%bool then [] else [(i, j, k)]) -> p = (i, j, k)).
  { intros i j k p. destruct (_ && _ && _)%bool; simpl; [tauto|]. intros [<-|[]]; auto. }
  apply NoDup_flat_map'; [apply NoDup_zupto| |].
  - intros i Hi. apply NoDup_flat_map'.
    + destruct (Z.eqb i 0); [apply NoDup_zupto|apply NoDup_zrange'].
    + intros j Hj. apply NoDup_flat_map'.
      * destruct (_ && _)%bool; [apply NoDup_zupto|apply NoDup_zrange'].
      * intros k Hk. destruct (_ && _ && _)%bool; repeat constructor; simpl; tauto.
      * intros k k' p _ _ A B. apply S in A, B. congruence.
    + intros j j' p _ _ A B. apply in_flat_map in A, B. destruct A as (k & _ & A), B as (k' & _ & B). apply S in A, B. congruence.
  - intros i i' p _ _ A B. apply in_flat_map in A, B. destruct A as (j & _ & A), B as (j' & _ & B).
    apply in_flat_map in A, B. destruct A as (k & _ & A), B as (k' & _ & B). apply S in A, B. congruence.
Qed.

(** ** Reciprocal lattice *)
Definition kbox_of (box : mat) : mat :=
  let pre := 2 * PI / Rabs (det box) in
  mkMat (smul pre (cross (m1 box) (m2 box))) (smul pre (cross (m2 box) (m0 box))) (smul pre (cross (m0 box) (m1 box))).
Lemma kbox_det box : det box <> 0 -> det (kbox_of box) <> 0.
Proof.
  intros H. assert (E : det (kbox_of box) = (2 * PI / Rabs (det box)) ^ 3 * (det box * det box)).
  { unfold kbox_of. set (p := 2 * PI / Rabs (det box)). clearbody p. unfold det, dot, cross, smul; simpl. ring. }
  rewrite E. assert (0 < Rabs (det box)) by (now apply Rabs_pos_lt). pose proof PI_RGT_0.
  assert (0 < 2 * PI / Rabs (det box)) by (apply Rdiv_lt_0_compat; lra).
  apply Rmult_integral_contrapositive_currified; [apply pow_nonzero; lra|].
  now apply Rmult_integral_contrapositive_currified.
Qed.
Definition sg (box : mat) : Z := if Rlt_dec (det box) 0 then (-1)%Z else 1%Z.
Lemma sg_sq box : (sg box * sg box = 1)%Z.
Proof. unfold sg. destruct (Rlt_dec _ _); reflexivity. Qed.
Lemma pre_det box : det box <> 0 -> 2 * PI / Rabs (det box) * det box = 2 * PI * IZR (sg box).
Proof.
  intros H. unfold sg. destruct (Rlt_dec (det box) 0).
  - rewrite Rabs_left by auto. field. auto.
  - rewrite Rabs_right by lra. field. auto.
Qed.
Lemma kbox_dots box s : 
  dot (combine (kbox_of box) s) (m0 box) = vx s * (2 * PI / Rabs (det box) * det box) /\
  dot (combine (kbox_of box) s) (m1 box) = vy s * (2 * PI / Rabs (det box) * det box) /\
  dot (combine (kbox_of box) s) (m2 box) = vz s * (2 * PI / Rabs (det box) * det box).
Proof.
  unfold kbox_of. set (p := 2 * PI / Rabs (det box)). clearbody p.
  unfold combine, det, dot, cross, vadd, smul; simpl. repeat split; ring.
Qed.
Lemma dual_basis box k : det box <> 0 ->
  k = smul (/ det box) (vadd (vadd (smul (dot k (m0 box)) (cross (m1 box) (m2 box)))
     (smul (dot k (m1 box)) (cross (m2 box) (m0 box)))) (smul (dot k (m2 box)) (cross (m0 box) (m1 box)))).
Proof.
  intros H. rewrite det_expand in *. destruct box as [[a b c] [d e f] [g h i]], k as [x y z]. simpl in H.
  apply vec_eq; unfold dot, cross, vadd, smul; simpl; field; auto.
Qed.
Lemma rescale d q a b c p s v1 v2 v3 : d * q = p * s ->
  smul d (vadd (vadd (smul (q * a) v1) (smul (q * b) v2)) (smul (q * c) v3)) =
  vadd (vadd (smul (a * s) (smul p v1)) (smul (b * s) (smul p v2))) (smul (c * s) (smul p v3)).
Proof.
  intros E. transitivity (smul (d * q) (vadd (vadd (smul a v1) (smul b v2)) (smul c v3))); [vring|]. rewrite E. vring.
Qed.
Lemma reciprocal_lattice box k : det box <> 0 -> reciprocal box k <-> exists m, k = lattice (kbox_of box) m.
Proof.
  intros H. pose proof PI_RGT_0. split.
  - intros (a & b & c & Ha & Hb & Hc). exists ((a * sg box)%Z, (b * sg box)%Z, (c * sg box)%Z).
    rewrite (dual_basis box k H), Ha, Hb, Hc. unfold lattice, combine, kbox_of.
    assert (E : / det box * (2 * PI) = 2 * PI / Rabs (det box) * IZR (sg box)).
    { pose proof (pre_det box H) as P. apply (Rmult_eq_reg_r (det box)); [|auto].
      replace (2 * PI / Rabs (det box) * IZR (sg box) * det box) with (2 * PI / Rabs (det box) * det box * IZR (sg box)) by ring.
      rewrite P. replace (2 * PI * IZR (sg box) * IZR (sg box)) with (2 * PI * IZR (sg box * sg box)) by (rewrite mult_IZR; ring).
      rewrite sg_sq. field. auto. }
    rewrite !mult_IZR. cbn [m0 m1 m2 vx vy vz]. now apply rescale.
  - intros ([[a b] c] & ->). exists (a * sg box)%Z, (b * sg box)%Z, (c * sg box)%Z.
    unfold lattice. destruct (kbox_dots box (mkVec (IZR a) (IZR b) (IZR c))) as (-> & -> & ->).
    rewrite (pre_det box H), !mult_IZR. simpl. repeat split; ring.
Qed.
Lemma lattice_inj box m m' : det box <> 0 -> lattice box m = lattice box m' -> m = m'.
Proof.
  intros H E. destruct m as [[a b] c], m' as [[a' b'] c']. unfold lattice in E. apply combine_inj in E; auto.
  injection E as E1 E2 E3. apply eq_IZR in E1, E2, E3. congruence.
Qed.
Lemma lattice_neg box m : vopp (lattice box m) = lattice box (zneg m).
Proof. destruct m as [[a b] c]. unfold lattice, zneg, combine. simpl. rewrite !opp_IZR. vring. Qed.
Lemma lattice_0 box : lattice box (0, 0, 0)%Z = vzero.
Proof. unfold lattice, combine. vring. Qed.
Lemma norm_lt_iff a c : 0 <= c -> (norm2 a < c * c <-> norm a < c).
Proof. intros Hc. pose proof (norm_nonneg a). rewrite <- norm_sq. split; intros; nra. Qed.

(** ** The grid *)
Section Grid.
Variables (fuel : nat) (box : mat) (eta kCut : R) (g : kspace_grid).
Hypothesis Hd : det box <> 0.
Hypothesis Hk : 0 <= kCut.
Hypothesis Hg : grid_setup fuel box eta kCut grid_init = Some g.
Let ks := map kv_k (kg_kvectors g).
Lemma grid_shape : exists n, calculatePbcCopies fuel (kbox_of box) kCut = Some n /\
  kg_kvectors g = flat_map (fun m => let kv := lattice (kbox_of box) m in
      if Rlt_dec (norm2 kv) (kCut * kCut)
      then [mkKvec kv (norm2 kv) (exp (- (1 / 2) * eta * eta * norm2 kv) * 2 * (2 * PI / Rabs (det box)) / norm2 kv)] else [])
    (half_triples n).
Proof.
  unfold grid_setup in Hg. change (dot (m0 box) (cross (m1 box) (m2 box))) with (det box) in Hg.
  fold (kbox_of box) in Hg.
  destruct (calculatePbcCopies fuel (kbox_of box) kCut) as [n|] eqn:E; [|discriminate]. injection Hg as <-. exists n. split; auto.
  cbn [kg_kvectors grid_init app]. apply flat_map_ext. intros [[i j] k]. reflexivity.
Qed.
Lemma in_ks k : In k ks <-> exists m, upper m /\ k = lattice (kbox_of box) m /\ norm k < kCut.
Proof.
  destruct grid_shape as (n & Hn & E). unfold ks. rewrite E. rewrite in_map_iff. split.
  - intros (kv & <- & H). apply in_flat_map in H. destruct H as (m & Hm & H). apply in_half_triples in Hm.
    cbv zeta in H. destruct (Rlt_dec (norm2 (lattice (kbox_of box) m)) (kCut * kCut)) as [Hlt|]; [|destruct H]. destruct H as [<-|[]]. exists m. cbn [kv_k]. repeat split; [tauto|].
    now apply norm_lt_iff.
  - intros (m & Hu & -> & Hlt). eexists. split; [|apply in_flat_map; exists m; split].
    2:{ apply in_half_triples. split; auto.
        apply (copies_suffice (kbox_of box) kCut fuel n vzero m); auto. now apply kbox_det. unfold close_frac; simpl; lra.
        replace (combine (kbox_of box) vzero) with vzero by (unfold combine; vring). rewrite vadd_0_l. lra. }
    2:{ cbv zeta. destruct (Rlt_dec (norm2 (lattice (kbox_of box) m)) (kCut * kCut)) as [|Hn']. left; reflexivity. exfalso. apply Hn'. now apply norm_lt_iff. }
    reflexivity.
Qed.
Lemma ks_nodup : NoDup ks.
Proof.
  destruct grid_shape as (n & Hn & E). unfold ks. rewrite E. clear E.
  assert (G : forall l, NoDup l -> NoDup (map kv_k (flat_map (fun m => let kv := lattice (kbox_of box) m in
      if Rlt_dec (norm2 kv) (kCut * kCut)
      then [mkKvec kv (norm2 kv) (exp (- (1 / 2) * eta * eta * norm2 kv) * 2 * (2 * PI / Rabs (det box)) / norm2 kv)] else []) l))).
  { induction l as [|a l IH]; intros Hl; simpl; [constructor|]. inversion Hl; subst.
    destruct (Rlt_dec (norm2 (lattice (kbox_of box) a)) (kCut * kCut)); [|apply IH; auto]. simpl. constructor; [|apply IH; auto].
    intros C. apply in_map_iff in C. destruct C as (kv & E & C). apply in_flat_map in C. destruct C as (m & Hm & C).
    cbv zeta in C. destruct (Rlt_dec (norm2 (lattice (kbox_of box) m)) (kCut * kCut)); [|destruct C]. destruct C as [<-|[]]. simpl in E.
    apply lattice_inj in E; [|now apply kbox_det]. subst. auto. }
  apply G. apply NoDup_half.
Qed.
Lemma grid_sound kv : In kv (kg_kvectors g) ->
  reciprocal box (kv_k kv) /\ kv_k kv <> vzero /\ norm (kv_k kv) < kCut /\
  kv_coeff kv = 4 * PI / calculateVolume box * exp (- (eta * eta * norm2 (kv_k kv) / 2)) / norm2 (kv_k kv).
Proof.
  intros H. assert (Hin : In (kv_k kv) ks) by (now apply in_map).
  apply in_ks in Hin. destruct Hin as (m & Hu & Em & Hlt). split; [|split; [|split; auto]].
  - apply reciprocal_lattice; auto. eauto.
  - rewrite Em. rewrite <- (lattice_0 (kbox_of box)). intros C. apply lattice_inj in C; [|now apply kbox_det]. subst m. simpl in Hu. lia.
  - destruct grid_shape as (n & Hn & E). rewrite E in H. apply in_flat_map in H. destruct H as (m' & _ & H).
    cbv zeta in H. destruct (Rlt_dec (norm2 (lattice (kbox_of box) m')) (kCut * kCut)); [|destruct H]. destruct H as [<-|[]]. cbn [kv_k kv_coeff].
    unfold calculateVolume. change (dot (m0 box) (cross (m1 box) (m2 box))) with (det box).
    replace (- (1 / 2) * eta * eta * norm2 (lattice (kbox_of box) m')) with (- (eta * eta * norm2 (lattice (kbox_of box) m') / 2)) by field.
    unfold Rdiv. ring.
Qed.
Lemma grid_complete k : reciprocal box k -> k <> vzero -> norm k < kCut ->
  (In k ks /\ ~ In (vopp k) ks) \/ (In (vopp k) ks /\ ~ In k ks).
Proof.
  intros Hr Hz Hlt. apply reciprocal_lattice in Hr; auto. destruct Hr as (m & ->).
  assert (Hm : m <> (0, 0, 0)%Z). { intros ->. apply Hz. apply lattice_0. }
  rewrite lattice_neg, !in_ks.
  assert (Hk' := kbox_det box Hd).
  destruct (upper_cases m Hm) as [[U1 U2]|[U1 U2]]; [left|right]; split.
  - eauto.
  - intros (m' & Hu & E & _). apply lattice_inj in E; auto. subst. auto.
  - exists (zneg m). repeat split; auto. rewrite <- lattice_neg, norm_opp. auto.
  - intros (m' & Hu & E & _). apply lattice_inj in E; auto. subst. auto.
Qed.
Lemma grid_sum (F : vec -> R) L : NoDup L -> (forall k, In k L <-> reciprocal box k /\ k <> vzero /\ norm k < kCut) ->
  (forall k, F (vopp k) = F k) -> rsum (map F L) = 2 * rsum (map (fun kv => F (kv_k kv)) (kg_kvectors g)).
Proof.
  intros HL HI HF.
  assert (P : Permutation L (ks ++ map vopp ks)).
  { assert (Hn := ks_nodup). assert (Inj : forall x y, vopp x = vopp y -> x = y).
    { intros x y E. rewrite <- (vopp_invol x), E. apply vopp_invol. }
    assert (G : forall k, In k ks -> reciprocal box k /\ k <> vzero /\ norm k < kCut).
    { intros k Hin. unfold ks in Hin. apply in_map_iff in Hin. destruct Hin as (kv & <- & Hin). apply grid_sound in Hin. tauto. }
    assert (R : forall k, reciprocal box k -> reciprocal box (vopp k)).
    { intros k (a & b & c & A & B & C). exists (- a)%Z, (- b)%Z, (- c)%Z. rewrite !opp_IZR. unfold vopp. rewrite !dot_smul_l, A, B, C. repeat split; ring. }
    assert (Z0 : forall k, k <> vzero -> vopp k <> vzero).
    { intros k Hk0 E. apply Hk0. apply Inj. rewrite E. vring. }
    assert (X : forall k, In k ks -> ~ In (vopp k) ks).
    { intros k Hin. destruct (G k Hin) as (A & B & C). destruct (grid_complete k A B C); tauto. }
    apply NoDup_Permutation; auto.
    - assert (Hn2 : NoDup (map vopp ks)) by (apply NoDup_map_inj; auto).
      assert (D : forall z, In z ks -> ~ In z (map vopp ks)).
      { intros z Hz C. apply in_map_iff in C. destruct C as (y & <- & Hy). apply (X y); auto. }
      now apply NoDup_app'.
    - intros k. rewrite HI, in_app_iff, in_map_iff. split.
      + intros (A & B & C). destruct (grid_complete k A B C) as [[D _]|[D _]]; auto. right. exists (vopp k). split; auto. apply vopp_invol.
      + intros [H|(y & <- & H)]; auto. destruct (G y H) as (A & B & C). repeat split; auto. now rewrite norm_opp. }
  rewrite (rsum_perm _ _ (Permutation_map F P)), map_app, rsum_app. unfold ks.
  rewrite !map_map. rewrite (rsum_ext (fun x => F (vopp (kv_k x))) (fun x => F (kv_k x))) by (intros; apply HF). ring.
Qed.
End Grid.
Lemma grid_terminates box eta kCut : det box <> 0 -> exists fuel, forall fuel', (fuel <= fuel')%nat ->
  exists g, grid_setup fuel' box eta kCut grid_init = Some g.
Proof.
  intros H. destruct (copies_terminate (kbox_of box) kCut (kbox_det box H)) as (fuel & F). exists fuel. intros fuel' Hf.
  destruct (F fuel' Hf) as (c & E & _). unfold grid_setup. change (dot (m0 box) (cross (m1 box) (m2 box))) with (det box).
  fold (kbox_of box). rewrite E. eauto.
Qed.

(** ** The buffer *)
Lemma set_nth_same {A} (l : list A) i v : (i < length l)%nat -> nth_error (set_nth l i v) i = Some v.
Proof. revert i. induction l; intros [|i] H; simpl in *; auto; try lia. apply IHl. lia. Qed.
Lemma set_nth_other {A} (l : list A) i j v : j <> i -> nth_error (set_nth l i v) j = nth_error l j.
Proof. revert i j. induction l; intros [|i] [|j] H; simpl; auto; try congruence. Qed.
Definition slot_value (before : list query) (a n v : nat) : R :=
  match find (same_slot (mkQuery a n v 0)) before with Some p => erfc (qu_x p) | None => - (1) end.
Definition buf_ok (numN : list nat) (vpp : nat) (before : list query) (b : erfcbuf) : Prop :=
  eb_num b = vpp /\ forall a n v, in_space numN vpp (mkQuery a n v 0) ->
    exists row, nth_error (eb_f b) a = Some row /\ nth_error row (n * vpp + v) = Some (slot_value before a n v).
Lemma find_app_snoc {A} (f : A -> bool) l x : find f (l ++ [x]) =
  match find f l with Some y => Some y | None => if f x then Some x else None end.
Proof. induction l; simpl; auto. destruct (f a); auto. Qed.
Lemma buf_reset_ok numN vpp : buf_ok numN vpp [] (buf_reset numN vpp).
Proof.
  split; auto. intros a n v [(k & Hk & Hn) Hv]. simpl in *. unfold buf_reset; simpl.
  exists (repeat (- (1)) (k * vpp)). split. { now apply (map_nth_error (fun m => repeat (- (1)) (m * vpp))). }
  unfold slot_value; simpl. apply nth_error_repeat. nia.
Qed.
Lemma slot_inj vpp n v n' v' : (v < vpp)%nat -> (v' < vpp)%nat -> (n * vpp + v = n' * vpp + v')%nat -> n = n' /\ v = v'.
Proof. intros H H' E. assert (n = n') by nia. subst. lia. Qed.
Lemma buf_getf_ok numN vpp before b q : buf_ok numN vpp before b -> in_space numN vpp q ->
  exists b', buf_getf (qu_atom q) (qu_neigh q) (qu_val q) (qu_x q) b =
    Some (match find (same_slot q) before with Some p => erfc (qu_x p) | None => erfc (qu_x q) end, b') /\
  buf_ok numN vpp (before ++ [q]) b'.
Proof.
  intros (Hnum & Hb) Hq. destruct q as [a n v x]. cbn [qu_atom qu_neigh qu_val qu_x].
  destruct (Hb a n v Hq) as (row & Hrow & Hval). unfold buf_getf. rewrite Hnum, Hrow.
  assert (FE : find (same_slot (mkQuery a n v 0)) before = find (same_slot (mkQuery a n v x)) before) by reflexivity.
  assert (SV : forall a' n' v', slot_value (before ++ [mkQuery a n v x]) a' n' v' =
     match find (same_slot (mkQuery a' n' v' 0)) before with Some p => erfc (qu_x p)
     | None => if (Nat.eqb a' a && Nat.eqb n' n && Nat.eqb v' v)%bool then erfc x else - (1) end).
  { intros. unfold slot_value. rewrite find_app_snoc. destruct (find (same_slot (mkQuery a' n' v' 0)) before); [reflexivity|]. unfold same_slot; cbn [qu_atom qu_neigh qu_val].
    destruct (Nat.eqb a' a), (Nat.eqb n' n), (Nat.eqb v' v); reflexivity. }
  unfold slot_value in Hval, Hb. rewrite FE in Hval. rewrite Hval.
  destruct (find (same_slot (mkQuery a n v x)) before) as [p|] eqn:F.
  - destruct (Req_EM_T (erfc (qu_x p)) (- (1))) as [C|_]. { pose proof (erfc_gt (qu_x p)). lra. }
    exists b. split; auto. split; auto. intros a' n' v' H'. destruct (Hb a' n' v' H') as (row' & R1 & R2).
    exists row'. split; auto. rewrite R2, SV. f_equal.
    destruct (find (same_slot (mkQuery a' n' v' 0)) before) eqn:F'; auto.
    destruct (_ && _ && _)%bool eqn:C; auto. exfalso.
    apply andb_true_iff in C. destruct C as [C C3]. apply andb_true_iff in C. destruct C as [C1 C2].
    apply Nat.eqb_eq in C1, C2, C3. subst. congruence.
  - destruct (Req_EM_T (- (1)) (- (1))) as [_|]; [|congruence].
    eexists. split; [reflexivity|]. split; auto. cbn [eb_f eb_num]. intros a' n' v' H'.
    destruct (Hb a' n' v' H') as (row' & R1 & R2). rewrite SV.
    assert (L1 : (a < length (eb_f b))%nat) by (apply nth_error_Some; congruence).
    assert (L2 : (n * vpp + v < length row)%nat) by (apply nth_error_Some; congruence).
    destruct (Nat.eq_dec a' a) as [->|Hne].
    + rewrite set_nth_same by auto. eexists. split; [reflexivity|]. rewrite Hrow in R1. injection R1 as <-.
      destruct (Nat.eq_dec (n' * vpp + v') (n * vpp + v)) as [E|Hne'].
      * destruct Hq as [_ Hv], H' as [_ Hv']. simpl in Hv, Hv'. destruct (slot_inj vpp n' v' n v Hv' Hv E) as [-> ->].
        rewrite set_nth_same by auto. f_equal.
        rewrite FE.
        rewrite !Nat.eqb_refl. auto.
      * rewrite set_nth_other by auto. rewrite R2. f_equal. destruct (find (same_slot (mkQuery a n' v' 0)) before); auto.
        destruct (Nat.eqb_spec n' n), (Nat.eqb_spec v' v); subst; try congruence; rewrite ?andb_false_r; auto.
    + rewrite set_nth_other by auto. exists row'. split; auto. rewrite R2. f_equal. destruct (find (same_slot (mkQuery a' n' v' 0)) before); auto.
      destruct (Nat.eqb_spec a' a); [congruence|]. auto.
Qed.
Lemma ask_ok numN vpp l : forall before b, buf_ok numN vpp before b -> Forall (in_space numN vpp) l ->
  exists b', ask l b = Some (answers before l, b').
Proof.
  induction l as [|q l IH]; intros before b Hb Hl; cbn [ask answers]; [eauto|].
  inversion Hl; subst. destruct (buf_getf_ok _ _ _ _ q Hb H1) as (b1 & E & Hb1). rewrite E.
  destruct (IH _ _ Hb1 H2) as (b2 & E2). rewrite E2. eauto.
Qed.
Lemma buffer_answers numN vpp l : Forall (in_space numN vpp) l ->
  exists b, ask l (buf_reset numN vpp) = Some (answers [] l, b).
Proof. apply ask_ok. apply buf_reset_ok. Qed.
Lemma answers_consistent l : forall before,
  (forall p q, In p (before ++ l) -> In q (before ++ l) -> same_slot p q = true -> qu_x p = qu_x q) ->
  answers before l = map (fun q => erfc (qu_x q)) l.
Proof.
  induction l as [|q l IH]; intros before H; simpl; auto. f_equal.
  - destruct (find (same_slot q) before) as [p|] eqn:F; auto. apply find_some in F. destruct F as [F1 F2].
    rewrite (H q p); auto; apply in_app_iff; [right; left; auto|left; auto].
  - apply IH. intros p r Hp Hr. rewrite <- app_assoc in Hp, Hr. apply H; auto.
Qed.
Lemma buffer_transparent numN vpp l : Forall (in_space numN vpp) l ->
  (forall p q, In p l -> In q l -> same_slot p q = true -> qu_x p = qu_x q) ->
  exists b, ask l (buf_reset numN vpp) = Some (map (fun q => erfc (qu_x q)) l, b).
Proof.
  intros H1 H2. destruct (buffer_answers numN vpp l H1) as (b & E). exists b. rewrite E. f_equal. f_equal. now apply answers_consistent.
Qed.

(** ** Examples *)
(** Cubic cell of edge 2 pi: the reciprocal lattice consists of the integer vectors. *)
Definition ex_cell : mat := mkMat (mkVec (2 * PI) 0 0) (mkVec 0 (2 * PI) 0) (mkVec 0 0 (2 * PI)).
Lemma ex_cell_det : det ex_cell <> 0.
Proof.
  unfold det, ex_cell, dot, cross; simpl. pose proof PI_RGT_0.
  match goal with |- ?x <> _ => replace x with ((2 * PI) * (2 * PI) * (2 * PI)) by ring end.
  assert (0 < 2 * PI) by lra. assert (0 < 2 * PI * (2 * PI)) by nra. assert (0 < 2 * PI * (2 * PI) * (2 * PI)) by nra. lra.
Qed.
Lemma ex_cell_k : reciprocal ex_cell (mkVec 1 0 0) /\ mkVec 1 0 0 <> vzero /\ norm (mkVec 1 0 0) < 3 / 2.
Proof.
  split; [|split].
  - exists 1%Z, 0%Z, 0%Z. unfold dot, ex_cell; simpl. repeat split; ring.
  - intros [=]. lra.
  - unfold norm. replace (norm2 (mkVec 1 0 0)) with 1 by (unfold norm2, dot; simpl; ring). rewrite sqrt_1. lra.
Qed.
Lemma grid_twice : exists fuel box eta kCut g1 g2, det box <> 0 /\ 0 <= kCut /\ grid_setup fuel box eta kCut grid_init = Some g1 /\
  grid_setup fuel box eta kCut g1 = Some g2 /\ ~ NoDup (map kv_k (kg_kvectors g2)).
Proof.
  destruct (grid_terminates ex_cell 1 (3 / 2) ex_cell_det) as (fuel & F). destruct (F fuel (le_n _)) as (g1 & E).
  exists fuel, ex_cell, 1, (3 / 2), g1. 
  assert (S : exists g2, grid_setup fuel ex_cell 1 (3 / 2) g1 = Some g2 /\ kg_kvectors g2 = kg_kvectors g1 ++ kg_kvectors g1).
  { unfold grid_setup in *. destruct (calculatePbcCopies _ _ _) as [n|]; [|discriminate]. injection E as <-. cbn [kg_kvectors grid_init app].
    eexists. split; reflexivity. }
  destruct S as (g2 & E2 & K). exists g2. split; [apply ex_cell_det|]. split; [lra|]. split; auto. split; auto.
  rewrite K, map_app. intros C.
  destruct ex_cell_k as (A & B & D).
  destruct (grid_complete fuel ex_cell 1 (3 / 2) g1 ex_cell_det ltac:(lra) E _ A B D) as [[H _]|[H _]];
  clear -C H; apply in_split in H; destruct H as (l1 & l2 & H); rewrite H in C; rewrite <- app_assoc in C; simpl in C;
  apply NoDup_remove_2 in C; apply C; apply in_or_app; right; apply in_or_app; right; apply in_or_app; right; left; auto.
Qed.
(** The cutoff sphere is finite. *)
Lemma sphere_enumerable box kCut : det box <> 0 -> 0 <= kCut ->
  exists L, NoDup L /\ forall k, In k L <-> reciprocal box k /\ k <> vzero /\ norm k < kCut.
Proof.
  intros Hd Hk. destruct (grid_terminates box 1 kCut Hd) as (fuel & F). destruct (F fuel (le_n _)) as (g & Hg).
  set (ks := map kv_k (kg_kvectors g)).
  assert (Inj : forall x y, vopp x = vopp y -> x = y).
  { intros x y E. rewrite <- (vopp_invol x), E. apply vopp_invol. }
  assert (G : forall k, In k ks -> reciprocal box k /\ k <> vzero /\ norm k < kCut).
  { intros k Hin. unfold ks in Hin. apply in_map_iff in Hin. destruct Hin as (kv & <- & Hin). eapply grid_sound in Hin; eauto. tauto. }
  assert (R : forall k, reciprocal box k -> reciprocal box (vopp k)).
  { intros k (a & b & c & A & B & C). exists (- a)%Z, (- b)%Z, (- c)%Z. rewrite !opp_IZR. unfold vopp. rewrite !dot_smul_l, A, B, C. repeat split; ring. }
  assert (Z0 : forall k, k <> vzero -> vopp k <> vzero).
  { intros k Hk0 E. apply Hk0. apply Inj. rewrite E. vring. }
  assert (C : forall k, reciprocal box k -> k <> vzero -> norm k < kCut -> (In k ks /\ ~ In (vopp k) ks) \/ (In (vopp k) ks /\ ~ In k ks)).
  { intros. eapply grid_complete; eauto. }
  exists (ks ++ map vopp ks). split.
  - assert (Hn : NoDup ks) by (eapply ks_nodup; eauto).
    assert (Hn2 : NoDup (map vopp ks)) by (apply NoDup_map_inj; auto).
    apply NoDup_app'; auto. intros z Hz Hc. apply in_map_iff in Hc. destruct Hc as (y & <- & Hy).
    destruct (G y Hy) as (A & B & D). destruct (C y A B D); tauto.
  - intros k. rewrite in_app_iff, in_map_iff. split.
    + intros [H|(y & <- & H)]; auto. destruct (G y H) as (A & B & D). repeat split; auto. now rewrite norm_opp.
    + intros (A & B & D). destruct (C k A B D) as [[H _]|[H _]]; auto. right. exists (vopp k). split; auto. apply vopp_invol.
Qed.
