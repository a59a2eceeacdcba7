(** Entries of the charge equilibration matrix. *)
From Coq Require Import Reals ZArith List Bool Arith Lia Lra Permutation FunctionalExtensionality.
From Coq Require Import List.
From Verif Require Import Base.Vec3 Base.Loop Base.SumR Base.Erf Base.Linear Model.CompactScreening Model.Geometry Model.NeighborList
  Model.Kspace Model.SymFunctions Model.Electrostatics Spec.GeometrySpec Spec.KspaceSpec Spec.ElecSpec Proofs.UnitsProofs Proofs.KspaceProofs.
Import ListNotations.
Local Open Scope R_scope.

Lemma ofold_seq_inv {S} (P : nat -> S -> Prop) (f : nat -> S -> option S) n s : P 0%nat s ->
  (forall k s, (k < n)%nat -> P k s -> exists s', f k s = Some s' /\ P (Datatypes.S k) s') ->
  exists s', ofold f (seq 0 n) s = Some s' /\ P n s'.
Proof.
  intros H0 HS. induction n.
  - exists s. auto.
  - destruct IHn as (s1 & E & HP). { intros; apply HS; auto. }
    destruct (HS n s1 (Nat.lt_succ_diag_r n) HP) as (s2 & E2 & HP2). exists s2. split; auto.
    rewrite seq_S, ofold_app, E. cbn [ofold]. rewrite Nat.add_0_l, E2. auto.
Qed.
Lemma mat_set_same A i j v : mat_set A i j v i j = v.
Proof. unfold mat_set. now rewrite !Nat.eqb_refl. Qed.
Lemma mat_set_other A i j v a b : a <> i \/ b <> j -> mat_set A i j v a b = A a b.
Proof. intros H. unfold mat_set. destruct (Nat.eqb_spec a i), (Nat.eqb_spec b j); simpl; auto. lia. Qed.
Lemma mat_set_get A i j v a b : mat_set A i j v a b = if (Nat.eqb a i && Nat.eqb b j)%bool then v else A a b.
Proof. reflexivity. Qed.

(** ** Isolated structures *)
Section Isolated.
Variables (P : epar) (s : cstruct).
Let N := cnum s.
Definition iso_val (i j : nat) : R :=
  if Nat.eqb i j then ep_hardness P (cel s i) + 1 / (ep_sigma P (cel s i) * ep_eps P)
  else erf (distance s i j / ep_gamma P (cel s i) (cel s j)) / (distance s i j * ep_eps P).
Lemma fill_isolated_entry i j : (i < N)%nat -> (j < N)%nat ->
  fill_isolated P s i j = iso_val (Nat.min i j) (Nat.max i j).
Proof.
  intros Hi Hj. unfold fill_isolated. fold N.
  match goal with |- for_up N ?f ?z i j = _ =>
    pose proof (for_up_inv (fun i0 (A : matrix) => forall a b, (a < N)%nat -> (b < N)%nat -> (Nat.min a b < i0)%nat -> A a b = iso_val (Nat.min a b) (Nat.max a b)) N f z) as H end.
  apply H; clear H; auto; [intros; lia| |lia].
  intros i0 A Hi0 HA a b Ha Hb Hm.
  match goal with |- for_range _ _ ?f ?z a b = _ =>
    pose proof (for_range_inv (fun j0 (B : matrix) => forall a b, (a < N)%nat -> (b < N)%nat ->
       (Nat.min a b < i0)%nat \/ (Nat.min a b = i0 /\ (Nat.max a b < j0)%nat) -> B a b = iso_val (Nat.min a b) (Nat.max a b)) (i0 + 1) N f z) as H end.
  refine (H _ _ _ a b Ha Hb _); clear H; [lia| | |lia]; clear a b Ha Hb Hm.
  - intros a b Ha Hb [Hm|[Hm Hx]].
    + rewrite mat_set_other by lia. apply HA; auto.
    + assert (Ea : a = i0) by lia. assert (Eb : b = i0) by lia. rewrite Ea, Eb, mat_set_same. rewrite Nat.min_id, Nat.max_id.
      unfold iso_val. rewrite Nat.eqb_refl. auto.
  - intros j0 B Hj0 HB a b Ha Hb Hc. cbv zeta.
    destruct (Nat.eq_dec (Nat.min a b) i0) as [E|E].
    + destruct (Nat.eq_dec (Nat.max a b) j0) as [E'|E'].
      * assert (V : forall v B', mat_set (mat_set B' i0 j0 v) j0 i0 v a b = v).
        { intros v B'. rewrite mat_set_get. destruct (Nat.eqb_spec a j0); [destruct (Nat.eqb_spec b i0); [reflexivity|]|]; simpl; rewrite mat_set_get;
          destruct (Nat.eqb_spec a i0), (Nat.eqb_spec b j0); simpl; auto; lia. }
        rewrite mat_set_same, V, E, E'. unfold iso_val. destruct (Nat.eqb_spec i0 j0); [lia|]. reflexivity.
      * rewrite !mat_set_other by lia. apply HB; auto. right. lia.
    + rewrite !mat_set_other by lia. apply HB; auto. left. lia.
Qed.
End Isolated.
Lemma distance_sym s i j : distance s i j = distance s j i.
Proof. unfold distance. rewrite <- norm_opp. f_equal. vring. Qed.
Lemma gaussian_sym s1 s2 eps r : gaussian_coulomb s1 s2 eps r = gaussian_coulomb s2 s1 eps r.
Proof. unfold gaussian_coulomb. do 5 f_equal. ring. Qed.
Lemma isolated_U_sym sigma eps s i j : isolated_U sigma eps s i j = isolated_U sigma eps s j i.
Proof.
  unfold isolated_U. destruct (Nat.eqb_spec i j), (Nat.eqb_spec j i); subst; auto; try congruence.
  rewrite distance_sym. apply gaussian_sym.
Qed.
Lemma fill_isolated_U hardness sigma fs eps s i j : (i < cnum s)%nat -> (j < cnum s)%nat ->
  fill_isolated (element_parameters hardness sigma fs eps) s i j =
  (if Nat.eqb i j then J_of hardness s i else 0) + isolated_U sigma eps s i j.
Proof.
  intros Hi Hj. rewrite fill_isolated_entry by auto. unfold iso_val.
  destruct (Nat.eqb_spec i j) as [->|Hne].
  - rewrite Nat.min_id, Nat.max_id, Nat.eqb_refl. unfold isolated_U. rewrite Nat.eqb_refl. reflexivity.
  - destruct (Nat.eqb_spec (Nat.min i j) (Nat.max i j)); [lia|]. rewrite Rplus_0_l.
    assert (H : forall a b, a <> b -> erf (distance s a b / ep_gamma (element_parameters hardness sigma fs eps) (cel s a) (cel s b)) /
       (distance s a b * ep_eps (element_parameters hardness sigma fs eps)) = isolated_U sigma eps s a b).
    { intros a b Hab. unfold isolated_U. destruct (Nat.eqb_spec a b); [congruence|]. reflexivity. }
    rewrite H by lia. destruct (Nat.min_spec i j) as [[L E]|[L E]]; rewrite E.
    + replace (Nat.max i j) with j by lia. auto.
    + replace (Nat.max i j) with i by lia. apply isolated_U_sym.
Qed.

(** ** The buffer when every entry is always queried with the same argument *)
Definition buf_fits (numN : list nat) (arg : nat -> nat -> nat -> R) (b : erfcbuf) : Prop :=
  eb_num b = 2%nat /\ forall a n v, (exists m, nth_error numN a = Some m /\ (n < m)%nat) -> (v < 2)%nat ->
    exists row x, nth_error (eb_f b) a = Some row /\ nth_error row (n * 2 + v) = Some x /\ (x = - (1) \/ x = erfc (arg a n v)).
Lemma buf_fits_reset numN arg : buf_fits numN arg (buf_reset numN 2).
Proof.
  split; auto. intros a n v (m & Hm & Hn) Hv. unfold buf_reset; cbn [eb_f].
  exists (repeat (- (1)) (m * 2)), (- (1)). split; [now apply (map_nth_error (fun m => repeat (- (1)) (m * 2)))|]. split; auto.
  apply nth_error_repeat. lia.
Qed.
Lemma buf_fits_get numN arg b a n v m : buf_fits numN arg b -> nth_error numN a = Some m -> (n < m)%nat -> (v < 2)%nat ->
  exists b', buf_getf a n v (arg a n v) b = Some (erfc (arg a n v), b') /\ buf_fits numN arg b'.
Proof.
  intros (Hnum & Hb) Hm Hn Hv. destruct (Hb a n v) as (row & x & Hr & Hx & Hc); eauto.
  unfold buf_getf. rewrite Hnum, Hr, Hx. destruct (Req_EM_T x (- (1))) as [->|Hne].
  2:{ exists b. split; [|split; auto]. destruct Hc as [Hc|Hc]; [congruence|]. now rewrite Hc. }
  eexists. split; [reflexivity|]. split; auto. cbn [eb_f]. intros a' n' v' (m' & Hm' & Hn') Hv'.
  destruct (Hb a' n' v') as (row' & x' & Hr' & Hx' & Hc'); eauto.
  assert (L1 : (a < length (eb_f b))%nat) by (apply nth_error_Some; congruence).
  assert (L2 : (n * 2 + v < length row)%nat) by (apply nth_error_Some; congruence).
  destruct (Nat.eq_dec a' a) as [->|Hne].
  - rewrite set_nth_same by auto. rewrite Hr in Hr'. injection Hr' as <-. exists (set_nth row (n * 2 + v) (erfc (arg a n v))).
    destruct (Nat.eq_dec (n' * 2 + v') (n * 2 + v)) as [E|Hne'].
    + assert (n' = n /\ v' = v) as [-> ->] by lia. eexists. split; [reflexivity|]. rewrite set_nth_same by auto. split; [reflexivity|]. auto.
    + exists x'. split; [reflexivity|]. rewrite set_nth_other by auto. split; auto.
  - rewrite set_nth_other by auto. eauto 6.
Qed.

Lemma firstn_snoc {A} (l : list A) k x : nth_error l k = Some x -> firstn (S k) l = firstn k l ++ [x].
Proof. revert k. induction l; intros [|k] H; simpl in *; try discriminate; auto; [congruence|]. f_equal. now apply IHl. Qed.

(** ** Periodic structures *)
Section Periodic.
Variables (P : epar) (s : cstruct) (W : ewald) (grid : list kvector).
Let N := cnum s.
Let se := sqrt 2 * ew_eta W.
Hypothesis Hnb : neighbors_valid s.
Hypothesis Hct : counts_valid s.
Definition numNs := map (fun a => a_numN (c_atom a)) (cs_atoms s).
Definition garg (i k v : nat) : R :=
  match nth_error (a_nbs (cna s i)) k with
  | Some n => match v with O => nb_d n / se | _ => nb_d n / ep_gamma P (cel s i) (nb_element n) end
  | None => 0
  end.
Lemma numNs_nth i : (i < N)%nat -> nth_error numNs i = Some (length (a_nbs (cna s i))).
Proof.
  intros Hi. unfold numNs. rewrite <- (proj1 (Hct i Hi)).
  apply (map_nth_error (fun a => a_numN (c_atom a))). unfold cat. apply nth_error_nth'. auto.
Qed.
Definition real_val (i : nat) (n : neighbor) : R :=
  (erfc (nb_d n / se) - erfc (nb_d n / ep_gamma P (cel s i) (nb_element n))) / (nb_d n * ep_eps P).
Lemma tag_index_ok n j : (j < N)%nat -> nb_tag n = Z.of_nat j -> tag_index N n = Some j.
Proof.
  intros H E. unfold tag_index. rewrite E. destruct (Z.leb_spec 0 (Z.of_nat j)); [|lia]. destruct (Z.ltb_spec (Z.of_nat j) (Z.of_nat N)); [|lia].
  simpl. now rewrite Nat2Z.id.
Qed.
Lemma fill_real_sum i A buf m : (i < N)%nat -> (m <= length (a_nbs (cna s i)))%nat -> buf_fits numNs garg buf ->
  exists A' buf', ofold (fill_real P s W i) (seq 0 m) (A, buf) = Some (A', buf') /\ buf_fits numNs garg buf' /\
    forall a b, A' a b = if (Nat.eqb a i && Nat.leb i b)%bool
                then A a b + rsum (map (real_val i) (images_of b (firstn m (a_nbs (cna s i))))) else A a b.
Proof.
  intros Hi Hm Hb.
  destruct (ofold_seq_inv (fun k (st : matrix * erfcbuf) => buf_fits numNs garg (snd st) /\
     forall a b, fst st a b = if (Nat.eqb a i && Nat.leb i b)%bool
                then A a b + rsum (map (real_val i) (images_of b (firstn k (a_nbs (cna s i))))) else A a b)
     (fill_real P s W i) m (A, buf)) as ((A' & buf') & E & H1 & H2).
  - split; auto. intros a b. cbn [fst]. simpl. destruct (_ && _)%bool; ring.
  - intros k (B & bf) Hk [Hbf HB]. cbn [fst snd] in *. unfold fill_real. fold se. fold N.
    destruct (nth_error (a_nbs (cna s i)) k) as [n|] eqn:En; [|apply nth_error_None in En; lia].
    destruct (Hnb i n Hi (nth_error_In _ _ En)) as (j & Hj & Etag & Eel).
    rewrite (tag_index_ok n j Hj Etag).
    assert (IM : forall b, images_of b (firstn (S k) (a_nbs (cna s i))) =
      images_of b (firstn k (a_nbs (cna s i))) ++ (if Nat.eqb b j then [n] else [])).
    { intros b. rewrite (firstn_snoc _ _ _ En). unfold images_of. rewrite filter_app. f_equal. simpl. rewrite Etag.
      destruct (Nat.eqb_spec b j) as [->|Hne]. { now rewrite Z.eqb_refl. }
      destruct (Z.eqb_spec (Z.of_nat j) (Z.of_nat b)); auto. lia. }
    destruct (Nat.ltb_spec j i) as [Hlt|Hge].
    + eexists. split; [reflexivity|]. cbn [fst snd]. split; auto. intros a b. rewrite HB, IM.
      destruct (Nat.eqb_spec a i), (Nat.leb_spec i b), (Nat.eqb_spec b j); cbn [andb]; subst; auto; try lia; rewrite app_nil_r; auto.
    + assert (G0 : nb_d n / se = garg i k 0) by (unfold garg; now rewrite En).
      assert (G1 : nb_d n / ep_gamma P (cel s i) (nb_element n) = garg i k 1) by (unfold garg; now rewrite En).
      assert (Hkm : (k < length (a_nbs (cna s i)))%nat) by lia.
      rewrite G0. destruct (buf_fits_get numNs garg bf i k 0 _ Hbf (numNs_nth i Hi) Hkm) as (b1 & E1 & F1); [lia|]. rewrite E1.
      rewrite G1. destruct (buf_fits_get numNs garg b1 i k 1 _ F1 (numNs_nth i Hi) Hkm) as (b2 & E2 & F2); [lia|]. rewrite E2.
      eexists. split; [reflexivity|]. cbn [fst snd]. split; auto. intros a b. rewrite IM, mat_set_get.
      rewrite <- G0, <- G1. fold (real_val i n).
      destruct (Nat.eqb_spec a i), (Nat.leb_spec i b), (Nat.eqb_spec b j); cbn [andb]; subst; try lia; rewrite HB.
      all: repeat match goal with |- context [Nat.eqb ?x ?y] => destruct (Nat.eqb_spec x y); [|try lia]; try lia
                  | |- context [Nat.leb ?x ?y] => destruct (Nat.leb_spec x y); try lia end; cbn [andb];
           rewrite ?map_app, ?rsum_app; cbn [map rsum]; try ring; try congruence.
  - exists A', buf'. auto.
Qed.
Definition recip_val (i j : nat) : R :=
  rsum (map (fun gv => 2 * kv_coeff gv * cos (dot (kv_k gv) (vsub (cpos s i) (cpos s j))) / ep_eps P) grid).
Lemma fill_reciprocal_entry i j A a b : fill_reciprocal P s grid i j A a b =
  if ((Nat.eqb a i && Nat.eqb b j) || (Nat.eqb a j && Nat.eqb b i))%bool then A i j + recip_val i j else A a b.
Proof.
  unfold fill_reciprocal, recip_val.
  match goal with |- context [fold_left ?f grid A] => assert (H : forall l A a b, fold_left f l A a b =
     if (Nat.eqb a i && Nat.eqb b j)%bool then A i j + rsum (map (fun gv => 2 * kv_coeff gv * cos (dot (kv_k gv) (vsub (cpos s i) (cpos s j))) / ep_eps P) l) else A a b) end.
  { clear a b A. induction l as [|gv l IH]; intros A a b; simpl.
    - destruct (Nat.eqb_spec a i), (Nat.eqb_spec b j); subst; simpl; ring.
    - rewrite IH. rewrite mat_set_same. rewrite !mat_set_get. destruct (Nat.eqb a i && Nat.eqb b j)%bool; [ring|]. auto. }
  cbv zeta. rewrite mat_set_get, !H, !Nat.eqb_refl. cbn [andb].
  destruct (Nat.eqb_spec a i), (Nat.eqb_spec b j), (Nat.eqb_spec a j), (Nat.eqb_spec b i); subst; cbn [andb orb]; auto; try congruence.
Qed.
Definition diag_val (i : nat) : R := ep_hardness P (cel s i) + (1 / ep_sigma P (cel s i) - 2 / (se * sqrt PI)) / ep_eps P.
Definition per_val (i j : nat) : R :=
  (if Nat.eqb i j then diag_val i else 0) + rsum (map (real_val i) (images_of j (neighbors_within (cna s i) (ew_rCut W)))) + recip_val i j.
Lemma fill_row_entry i A buf : (i < N)%nat -> buf_fits numNs garg buf ->
  (forall b, (i <= b)%nat -> (b < N)%nat -> A i b = 0) ->
  exists A' buf', fill_row P s W grid i (A, buf) = Some (A', buf') /\ buf_fits numNs garg buf' /\
    forall a b, (a < N)%nat -> (b < N)%nat ->
      A' a b = if ((Nat.eqb a i && Nat.leb i b) || (Nat.eqb b i && Nat.leb i a))%bool then per_val i (Nat.max a b) else A a b.
Proof.
  intros Hi Hb H0. unfold fill_row. fold se. fold (diag_val i). fold N.
  destruct (fill_real_sum i (mat_set A i i (A i i + diag_val i)) buf (getStoredMinNumNeighbors (cna s i) (ew_rCut W)) Hi) as (A1 & b1 & E1 & F1 & H1); auto.
  { apply (proj2 (Hct i Hi)). }
  rewrite E1. do 2 eexists. split; [reflexivity|]. split; auto.
  fold (neighbors_within (cna s i) (ew_rCut W)) in H1.
  set (rl := fun b => rsum (map (real_val i) (images_of b (neighbors_within (cna s i) (ew_rCut W))))) in *.
  assert (V : forall b, (i <= b)%nat -> (b < N)%nat -> A1 i b + recip_val i b = per_val i b).
  { intros b Hib HbN. rewrite H1. rewrite Nat.eqb_refl. destruct (Nat.leb_spec i b); [|lia]. cbn [andb]. rewrite mat_set_get, Nat.eqb_refl.
    unfold per_val. fold (rl b). destruct (Nat.eqb_spec b i), (Nat.eqb_spec i b); subst; cbn [andb]; try lia; rewrite H0; auto; ring. }
  assert (Oth : forall a b, a <> i -> A1 a b = A a b).
  { intros a b Ha. rewrite H1. destruct (Nat.eqb_spec a i); [congruence|]. cbn [andb]. now rewrite mat_set_other by lia. }
  assert (Oth2 : forall b, (b < i)%nat -> A1 i b = A i b).
  { intros b Hlt. rewrite H1. rewrite Nat.eqb_refl. destruct (Nat.leb_spec i b); [lia|]. cbn [andb]. now rewrite mat_set_other by lia. }
  pose proof (for_range_inv (fun j0 (B : matrix) => forall a b, (a < N)%nat -> (b < N)%nat ->
     B a b = if (((Nat.eqb a i && Nat.leb i b) || (Nat.eqb b i && Nat.leb i a)) && Nat.ltb (Nat.max a b) j0)%bool then per_val i (Nat.max a b) else A1 a b)
     i N (fill_reciprocal P s grid i) A1) as H.
  assert (HH : forall a b, (a < N)%nat -> (b < N)%nat -> for_range i N (fill_reciprocal P s grid i) A1 a b =
     if (((Nat.eqb a i && Nat.leb i b) || (Nat.eqb b i && Nat.leb i a)) && Nat.ltb (Nat.max a b) N)%bool then per_val i (Nat.max a b) else A1 a b).
  { apply H; clear H; [lia| |].
    - intros a b Ha HbN. destruct (Nat.eqb_spec a i), (Nat.leb_spec i b), (Nat.eqb_spec b i), (Nat.leb_spec i a), (Nat.ltb_spec (Nat.max a b) i); cbn [andb orb]; auto; lia.
    - intros j B Hj HB a b Ha HbN. rewrite fill_reciprocal_entry.
      destruct (((Nat.eqb a i && Nat.eqb b j) || (Nat.eqb a j && Nat.eqb b i))%bool) eqn:E.
      + assert (C : Nat.max a b = j /\ ((a = i /\ (i <= b)%nat) \/ (b = i /\ (i <= a)%nat))).
        { destruct (Nat.eqb_spec a i), (Nat.eqb_spec b j), (Nat.eqb_spec a j), (Nat.eqb_spec b i); subst; try discriminate; lia. }
        destruct C as [C1 C2]. rewrite C1. destruct (Nat.ltb_spec j (S j)); [|lia].
        replace ((Nat.eqb a i && Nat.leb i b || Nat.eqb b i && Nat.leb i a) && true)%bool with true.
        2:{ destruct (Nat.eqb_spec a i), (Nat.leb_spec i b), (Nat.eqb_spec b i), (Nat.leb_spec i a); cbn [andb orb]; auto; lia. }
        rewrite HB by lia. rewrite Nat.eqb_refl. replace (Nat.ltb (Nat.max i j) j) with false by (symmetry; apply Nat.ltb_ge; lia).
        rewrite andb_false_r. apply V; lia.
      + rewrite HB by lia.
        destruct (Nat.eqb_spec a i), (Nat.eqb_spec b j), (Nat.eqb_spec a j), (Nat.eqb_spec b i), (Nat.leb_spec i b), (Nat.leb_spec i a), (Nat.ltb_spec (Nat.max a b) j), (Nat.ltb_spec (Nat.max a b) (S j)); cbn [andb orb] in *; auto; try discriminate; lia. }
  intros a b Ha HbN. rewrite HH by auto. destruct (Nat.ltb_spec (Nat.max a b) N); [|lia]. rewrite andb_true_r.
  destruct (Nat.eqb_spec a i), (Nat.leb_spec i b), (Nat.eqb_spec b i), (Nat.leb_spec i a); cbn [andb orb]; auto; try lia; subst; auto.
Qed.
Lemma fill_periodic_entry buf : buf_fits numNs garg buf ->
  exists A buf', fill_periodic P s W grid buf = Some (A, buf') /\ buf_fits numNs garg buf' /\
    forall a b, (a < N)%nat -> (b < N)%nat -> A a b = per_val (Nat.min a b) (Nat.max a b).
Proof.
  intros Hb. unfold fill_periodic. fold N.
  destruct (ofold_seq_inv (fun i0 (st : matrix * erfcbuf) => buf_fits numNs garg (snd st) /\
    forall a b, (a < N)%nat -> (b < N)%nat -> fst st a b = if Nat.ltb (Nat.min a b) i0 then per_val (Nat.min a b) (Nat.max a b) else 0)
    (fill_row P s W grid) N ((fun _ _ => 0), buf)) as ((A & buf') & E & H1 & H2).
  - split; auto.
  - intros i (A & bf) Hi [Hbf HA]. cbn [fst snd] in *.
    destruct (fill_row_entry i A bf Hi Hbf) as (A' & b' & E & F & H).
    { intros b Hib HbN. rewrite HA by auto. destruct (Nat.ltb_spec (Nat.min i b) i); auto. lia. }
    exists (A', b'). split; auto. cbn [fst snd]. split; auto. intros a b Ha HbN. rewrite H, HA by auto.
    destruct (Nat.eqb_spec a i), (Nat.leb_spec i b), (Nat.eqb_spec b i), (Nat.leb_spec i a), (Nat.ltb_spec (Nat.min a b) i), (Nat.ltb_spec (Nat.min a b) (S i));
      cbn [andb orb]; auto; try lia; f_equal; lia.
  - exists A, buf'. split; auto. split; auto. intros a b Ha HbN. cbn [fst] in H2. rewrite H2 by auto.
    destruct (Nat.ltb_spec (Nat.min a b) N); auto. lia.
Qed.
End Periodic.
