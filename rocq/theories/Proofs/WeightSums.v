(** The loops over atoms and candidates that collect derivatives with respect to weights. *)
From Coq Require Import Reals Lra String Lia Bool Arith.
From Coq Require Import List.
From Verif Require Import Base.RealBase Base.Loop Base.Vec3 Base.SumR Model.Strings Model.NeuralNetwork Model.NeighborList Model.SymFunctions Model.SymSetup
  Model.Forces Model.UpdatePlan Model.WeightDerivatives Spec.NetworkSpec Spec.TrainWeightsSpec Spec.UpdatePlanSpec
  Proofs.NetLayout Proofs.SymGrad Proofs.UpdatePlanProofs Proofs.WeightNet.
Import ListNotations.
Local Open Scope R_scope.

Lemma ofold_inv {A St} (f : A -> St -> option St) (xs : list A) (Inv : nat -> St -> Prop) :
  (forall i x s, nth_error xs i = Some x -> Inv i s -> exists s', f x s = Some s' /\ Inv (S i) s') ->
  forall s, Inv 0%nat s -> exists s', ofold f xs s = Some s' /\ Inv (List.length xs) s'.
Proof.
  intros H. assert (G : forall l o s, (forall i x, nth_error l i = Some x -> nth_error xs (o + i) = Some x) -> Inv o s ->
     exists s', ofold f l s = Some s' /\ Inv (o + List.length l)%nat s').
  { induction l as [|a l IH]; intros o s Hl Hs; cbn [ofold List.length].
    - exists s. rewrite Nat.add_0_r. auto.
    - destruct (H o a s) as (s1 & E & H1); auto. { rewrite <- (Nat.add_0_r o). apply Hl. reflexivity. }
      rewrite E. rewrite Nat.add_succ_r, <- Nat.add_succ_l. apply IH; auto. intros i x Hi. rewrite Nat.add_succ_l, <- Nat.add_succ_r. now apply Hl. }
  intros s Hs. apply (G xs 0%nat s); auto.
Qed.
Lemma indexed_length {A} (l : list A) : List.length (indexed l) = List.length l.
Proof. unfold indexed. rewrite combine_length, seq_length. apply Nat.min_id. Qed.
Lemma indexed_at {A} (l : list A) i ix : nth_error (indexed l) i = Some ix -> fst ix = i /\ nth_error l i = Some (snd ix).
Proof.
  unfold indexed. assert (H : forall (l : list A) o i (ix : nat * A), nth_error (List.combine (seq o (List.length l)) l) i = Some ix -> fst ix = (o + i)%nat /\ nth_error l i = Some (snd ix)).
  { clear l i ix. induction l as [|a l IH]; intros o [|i] ix; cbn [List.length seq List.combine nth_error]; try discriminate.
    - intros [= <-]. cbn. split; [lia|reflexivity].
    - intros E. apply IH in E as [E1 E2]. split; [lia|exact E2]. }
  intros E. apply (H l 0%nat i ix E).
Qed.
Lemma indexed_inv {A St} (f : nat * A -> St -> option St) (xs : list A) (Inv : nat -> St -> Prop) :
  (forall i x s, nth_error xs i = Some x -> Inv i s -> exists s', f (i, x) s = Some s' /\ Inv (S i) s') ->
  forall s, Inv 0%nat s -> exists s', ofold f (indexed xs) s = Some s' /\ Inv (List.length xs) s'.
Proof.
  intros H s Hs. rewrite <- indexed_length. apply ofold_inv; auto. intros i [j x] s0 E. apply indexed_at in E as [E1 E2]. cbn in E1, E2. subst j. auto.
Qed.

Lemma addAt_ok p v (row : list R) : (p < List.length row)%nat ->
  exists row', addAt p v row = Some row' /\ List.length row' = List.length row /\
    forall q, nth q row' 0 = nth q row 0 + if Nat.eqb q p then v else 0.
Proof.
  intros Hp. unfold addAt, storeAt. rewrite (nth_error_nth' row 0 Hp). eexists. split; [reflexivity|]. split; [now apply length_store|].
  intros q. rewrite nth_store by auto. destruct (Nat.eqb_spec q p) as [->|]; ring.
Qed.
Lemma addFrom_ok o n tmp row : (o + n <= List.length row)%nat ->
  exists row', addFrom o n tmp row = Some row' /\ List.length row' = List.length row /\
    forall q, nth q row' 0 = nth q row 0 + if (Nat.leb o q && Nat.ltb q (o + n))%bool then tmp (q - o)%nat else 0.
Proof.
  intros Hn. unfold addFrom.
  destruct (ofold_inv (fun j row => addAt (o + j) (tmp j) row) (seq 0 n) (fun k r => List.length r = List.length row /\
    forall q, nth q r 0 = nth q row 0 + if (Nat.leb o q && Nat.ltb q (o + k))%bool then tmp (q - o)%nat else 0)) with (s := row) as (r & E & H1 & H2).
  - intros i x s Hi (S1 & S2). assert (Hi' : (i < n)%nat). { rewrite <- (seq_length n 0). apply nth_error_Some. congruence. }
    rewrite (nth_error_nth' _ 0%nat) in Hi by now rewrite seq_length. rewrite seq_nth in Hi by auto. injection Hi as <-. cbn [Nat.add].
    destruct (addAt_ok (o + i) (tmp i) s) as (s' & E & L & D). { rewrite S1. lia. }
    exists s'. split; auto. split; [congruence|]. intros q. rewrite D, S2. rewrite Rplus_assoc. f_equal.
    destruct (Nat.eqb_spec q (o + i)) as [->|Hne].
    + rewrite (proj2 (Nat.leb_le o (o + i))), (proj2 (Nat.ltb_ge (o + i) (o + i))), (proj2 (Nat.ltb_lt (o + i) (o + S i))) by lia. cbn.
      replace (o + i - o)%nat with i by lia. ring.
    + rewrite Rplus_0_r. destruct (Nat.leb_spec o q); cbn [andb]; auto. destruct (Nat.ltb_spec q (o + i)), (Nat.ltb_spec q (o + S i)); auto; exfalso; lia.
  - split; auto. intros q. rewrite Nat.add_0_r. destruct (Nat.leb_spec o q), (Nat.ltb_spec q o); cbn; try (exfalso; lia); ring.
  - rewrite seq_length in H2. eauto.
Qed.
Lemma storeAt_ok {B} (f : B -> option B) p (v : list B) d z : (p < List.length v)%nat -> f (nth p v d) = Some z ->
  exists v', storeAt f p v = Some v' /\ List.length v' = List.length v /\ forall q, nth q v' d = if Nat.eqb q p then z else nth q v d.
Proof.
  intros Hp Hz. unfold storeAt. rewrite (nth_error_nth' v d Hp), Hz. eexists. split; [reflexivity|]. split; [now apply length_store|].
  intros q. now apply nth_store.
Qed.

Section Sums.
Variables (elems : list elem) (base : nat -> network).
Let N := List.length elems.
Definition nets_ok (nets : nat -> network) : Prop := forall e, (e < List.length elems)%nat -> same_network (nets e) (base e).
Definition conns (e : nat) : nat := numConnections (base e).
Definition first (e : nat) : nat := list_sum (map conns (seq 0 e)).

Lemma first_S e : first (S e) = (first e + conns e)%nat.
Proof. unfold first. rewrite seq_S, map_app, list_sum_app. cbn. lia. Qed.
Lemma first_mono e e' : (e <= e')%nat -> (first e <= first e')%nat.
Proof. induction 1; auto. rewrite first_S. lia. Qed.
Lemma slot_in e e' p : (p < conns e)%nat -> (Nat.leb (first e') (first e + p) && Nat.ltb (first e + p) (first e' + conns e'))%bool = Nat.eqb e' e.
Proof.
  intros Hp. pose proof (first_S e). pose proof (first_S e').
  destruct (Nat.lt_trichotomy e e') as [Hlt|[->|Hlt]].
  - pose proof (first_mono (S e) e' Hlt). destruct (Nat.leb_spec (first e') (first e + p)); [lia|]. cbn. symmetry. apply Nat.eqb_neq. lia.
  - rewrite Nat.eqb_refl, (proj2 (Nat.leb_le _ _)), (proj2 (Nat.ltb_lt _ _)) by lia. reflexivity.
  - pose proof (first_mono (S e') e Hlt). destruct (Nat.ltb_spec (first e + p) (first e' + conns e')); [lia|]. rewrite andb_false_r. symmetry. apply Nat.eqb_neq. lia.
Qed.
Lemma conns_ok nets e : nets_ok nets -> (e < N)%nat -> numConnections (nets e) = conns e.
Proof. intros H He. apply shape_connections, sn_shape, H, He. Qed.
Lemma perElement_ok nets e : nets_ok nets -> (e < N)%nat -> nth_error (connectionsPerElement N nets) e = Some (conns e).
Proof.
  intros H He. unfold connectionsPerElement. rewrite nth_error_map, (nth_error_nth' _ 0%nat) by now rewrite seq_length.
  rewrite seq_nth by auto. cbn. now rewrite conns_ok.
Qed.
Lemma total_ok nets : nets_ok nets -> connectionsTotal N nets = first N.
Proof.
  intros H. unfold connectionsTotal.
  assert (G : forall n, (n <= N)%nat -> fold_left (fun n e => (n + numConnections (nets e))%nat) (seq 0 n) 0%nat = first n).
  { induction n as [|n IH]; intros Hn; auto. rewrite seq_S, fold_left_app, IH by lia. cbn [fold_left Nat.add]. rewrite first_S, conns_ok by (auto; lia). reflexivity. }
  apply G. auto.
Qed.
Lemma offsets_ok nets e : nets_ok nets -> (e < N)%nat -> nth_error (connectionOffsets N nets) e = Some (first e).
Proof.
  intros H He. unfold connectionOffsets.
  assert (G : forall n, (n <= N)%nat -> fold_left (fun (st : nat * list nat) e => let '(n, off) := st in ((n + numConnections (nets e))%nat, off ++ [n])) (seq 0 n) (0%nat, []) =
     (first n, map first (seq 0 n))).
  { induction n as [|n IH]; intros Hn; auto. rewrite seq_S, fold_left_app, IH by lia. cbn [fold_left]. rewrite map_app. cbn [map Nat.add].
    rewrite first_S, conns_ok by (auto; lia). reflexivity. }
  rewrite G by auto. cbn [snd]. rewrite nth_error_map, (nth_error_nth' _ 0%nat) by now rewrite seq_length. rewrite seq_nth by auto. reflexivity.
Qed.

(** What the atoms of a structure contribute, whatever the state of networks and buffers. *)
Definition summable (q : quantity) (xs : list eatom) (D : nat -> nat -> R) : Prop :=
  forall i x nets buf, nth_error xs i = Some x -> nets_ok nets ->
    let e := a_element (e_atom x) in let nn := evaluate (nets e) (st_G (e_store x)) in
    (e < List.length elems)%nat /\ same_network nn (base e) /\
    exists el, nth_error elems e = Some el /\ List.length (el_fs el) = numNeurons (base e) 0 /\
    exists d, derivative q el i x nn buf = Some d /\ forall p, (p < conns e)%nat -> d p = D i p.
Definition part (xs : list eatom) (D : nat -> nat -> R) (e p k : nat) : R :=
  sumn k (fun i => nthR xs (fun x => if Nat.eqb (a_element (e_atom x)) e then D i p else 0) i).
Definition total (xs : list eatom) (D : nat -> nat -> R) (e p : nat) : R := part xs D e p (List.length xs).
Lemma part_S xs D e p i x : nth_error xs i = Some x -> part xs D e p (S i) = part xs D e p i + if Nat.eqb (a_element (e_atom x)) e then D i p else 0.
Proof. intros H. unfold part. rewrite sumn_S. unfold nthR. now rewrite H. Qed.
Lemma nets_upd nets e nn : nets_ok nets -> same_network nn (base e) -> nets_ok (upd nets e nn).
Proof. intros H Hn e' He'. unfold upd. destruct (Nat.eqb_spec e' e) as [->|]; auto. Qed.

(** *** dPdc *)
Definition row_is (xs : list eatom) D (k : nat) (row : list R) : Prop :=
  List.length row = first N /\ forall e p, (e < N)%nat -> (p < conns e)%nat -> nth (first e + p) row 0 = part xs D e p k.
Lemma row_zero nets xs D : nets_ok nets -> row_is xs D 0 (repeat 0 (connectionsTotal N nets)).
Proof.
  intros H. split; [rewrite repeat_length; now apply total_ok|]. intros e p _ _. unfold part. rewrite sumn_0.
  apply nth_repeat.
Qed.
Lemma row_add xs D i x row d : nth_error xs i = Some x -> (a_element (e_atom x) < N)%nat -> (forall p, (p < conns (a_element (e_atom x)))%nat -> d p = D i p) ->
  row_is xs D i row -> exists row', addFrom (first (a_element (e_atom x))) (conns (a_element (e_atom x))) d row = Some row' /\ row_is xs D (S i) row'.
Proof.
  intros Hx He Hd (L & H). set (e := a_element (e_atom x)) in *.
  destruct (addFrom_ok (first e) (conns e) d row) as (row' & E & L' & H').
  { rewrite L. rewrite <- first_S. apply first_mono. lia. }
  exists row'. split; auto. split; [congruence|]. intros e' p He' Hp. rewrite H', H, (part_S xs D e' p i x Hx), slot_in by auto. fold e.
  destruct (Nat.eqb_spec e e') as [<-|]; auto. replace (first e + p - first e)%nat with p by lia. now rewrite Hd.
Qed.
Lemma energy_rows nets xs D : nets_ok nets -> summable Energy xs D ->
  exists nets' row, dPdc (lit "energy") elems nets xs = Some (nets', [row]) /\ nets_ok nets' /\ row_is xs D (List.length xs) row.
Proof.
  intros Hn Hsum. unfold dPdc. fold N. change (str_eqb (lit "energy") (lit "energy")) with true. cbv iota.
  destruct (ofold_inv (dPdcEnergyAtom (connectionsPerElement N nets) (connectionOffsets N nets)) xs
    (fun k st => nets_ok (fst st) /\ row_is xs D k (snd st))) with (s := (nets, repeat 0 (connectionsTotal N nets))) as ([nets' row] & E & H1 & H2).
  - intros i x [ns row] Hx (Hns & Hr). cbn [fst snd] in *. destruct (Hsum i x ns (fun _ => 0) Hx Hns) as (He & Sn & el & _ & _ & d & Ed & Hd).
    unfold dPdcEnergyAtom. rewrite perElement_ok, offsets_ok by auto.
    change (propagate (setInput (st_G (e_store x)) (ns (a_element (e_atom x))))) with (evaluate (ns (a_element (e_atom x))) (st_G (e_store x))).
    cbn [derivative] in Ed. injection Ed as <-.
    destruct (row_add xs D i x row _ Hx He Hd Hr) as (row' & -> & Hr'). eexists. split; [reflexivity|]. cbn [fst snd]. split; auto. now apply nets_upd.
  - cbn [fst snd]. split; auto. now apply row_zero.
  - rewrite E. exists nets', row. auto.
Qed.
Lemma force_rows nets xs (D : nat -> nat -> nat -> nat -> R) : nets_ok nets -> (forall a c, (a < List.length xs)%nat -> (c < 3)%nat -> summable (Force a c) xs (D a c)) ->
  exists nets' rows, dPdc (lit "force") elems nets xs = Some (nets', rows) /\ nets_ok nets' /\ List.length rows = (3 * List.length xs)%nat /\
    forall a c, (a < List.length xs)%nat -> (c < 3)%nat -> exists row, nth_error rows (3 * a + c) = Some row /\ row_is xs (D a c) (List.length xs) row.
Proof.
  intros Hn Hsum. unfold dPdc. fold N. change (str_eqb (lit "force") (lit "energy")) with false. change (str_eqb (lit "force") (lit "force")) with true. cbv iota.
  set (npe := connectionsPerElement N nets). set (off := connectionOffsets N nets). set (zero := repeat 0 (connectionsTotal N nets)).
  assert (One : forall a c ns, (a < List.length xs)%nat -> (c < 3)%nat -> nets_ok ns ->
    exists ns' row, ofold (dPdcForceAtom elems npe off a c) (indexed xs) (ns, zero) = Some (ns', row) /\ nets_ok ns' /\ row_is xs (D a c) (List.length xs) row).
  { intros a c ns Ha Hc Hns.
    destruct (indexed_inv (dPdcForceAtom elems npe off a c) xs (fun k st => nets_ok (fst st) /\ row_is xs (D a c) k (snd st))) with (s := (ns, zero)) as ([ns' row] & E & H1 & H2).
    - intros i x [ns1 row] Hx (Hns1 & Hr). cbn [fst snd] in *. destruct (Hsum a c Ha Hc i x ns1 (fun _ => 0) Hx Hns1) as (He & Sn & el & Eel & _ & d & Ed & Hd).
      unfold dPdcForceAtom. unfold npe, off. rewrite Eel, perElement_ok, offsets_ok by auto.
      change (propagate (setInput (st_G (e_store x)) (ns1 (a_element (e_atom x))))) with (evaluate (ns1 (a_element (e_atom x))) (st_G (e_store x))).
      cbn [derivative] in Ed. destruct (collectDGdxia el x i a c) as [g|]; [|discriminate]. injection Ed as <-.
      destruct (row_add xs (D a c) i x row _ Hx He Hd Hr) as (row' & -> & Hr'). eexists. split; [reflexivity|]. cbn [fst snd]. split; auto. now apply nets_upd.
    - cbn [fst snd]. split; auto. now apply row_zero.
    - exists ns', row. auto. }
  set (Inv := fun (m : nat) (st : (nat -> network) * list (list R)) => nets_ok (fst st) /\ List.length (snd st) = m /\
     forall a c, (a < List.length xs)%nat -> (c < 3)%nat -> (3 * a + c < m)%nat -> exists row, nth_error (snd st) (3 * a + c) = Some row /\ row_is xs (D a c) (List.length xs) row).
  match goal with |- exists _ _, ofold ?F _ _ = _ /\ _ => destruct (ofold_inv F (seq 0 (List.length xs)) (fun a => Inv (3 * a)%nat)) with (s := (nets, @nil (list R))) as ([nets' rows] & E & H1 & H2 & H3) end.
  - intros a a' st Ha HI. assert (Ha' : (a < List.length xs)%nat). { rewrite <- (seq_length (List.length xs) 0). apply nth_error_Some. congruence. }
    rewrite (nth_error_nth' _ 0%nat) in Ha by now rewrite seq_length. rewrite seq_nth in Ha by auto. injection Ha as <-. cbn [Nat.add].
    match goal with |- exists _, ofold ?F _ _ = _ /\ _ => destruct (ofold_inv F (seq 0 3) (fun c => Inv (3 * a + c)%nat)) with (s := st) as (st' & E & H) end.
    + intros c c' [ns rows] Hc (I1 & I2 & I3). cbn [fst snd] in *. assert (Hc' : (c < 3)%nat). { rewrite <- (seq_length 3 0). apply nth_error_Some. congruence. }
      rewrite (nth_error_nth' _ 0%nat) in Hc by now rewrite seq_length. rewrite seq_nth in Hc by auto. injection Hc as <-. cbn [Nat.add].
      destruct (One a c ns Ha' Hc' I1) as (ns' & row & -> & O1 & O2). eexists. split; [reflexivity|]. split; [exact O1|]. cbn [fst snd]. split.
      * rewrite app_length, I2. cbn. lia.
      * intros a2 c2 Ha2 Hc2 Hlt. destruct (Nat.eq_dec (3 * a2 + c2) (3 * a + c)) as [Eq|Hne].
        -- assert (a2 = a /\ c2 = c) as [-> ->] by lia. exists row. split; auto. rewrite nth_error_app2 by lia. rewrite I2, Nat.sub_diag. reflexivity.
        -- destruct (I3 a2 c2 Ha2 Hc2 ltac:(lia)) as (row2 & E2 & R2). exists row2. split; auto. rewrite nth_error_app1; auto. rewrite I2. lia.
    + rewrite Nat.add_0_r. exact HI.
    + exists st'. split; [exact E|]. rewrite seq_length in H. replace (3 * S a)%nat with (3 * a + 3)%nat by lia. exact H.
  - split; [exact Hn|]. split; [reflexivity|]. intros; lia.
  - rewrite seq_length in *. exists nets', rows. split; [exact E|]. split; [exact H1|]. split; [exact H2|]. intros a c Ha Hc. apply H3; auto. lia.
Qed.

(** *** calculateWeightDerivatives *)
Lemma weight_rows q nets xs D : nets_ok nets -> summable q xs D ->
  exists nets' rows, calculateWeightDerivatives q elems nets xs = Some (nets', rows) /\ nets_ok nets' /\ List.length rows = N /\
    forall e, (e < N)%nat -> exists row, nth_error rows e = Some row /\ List.length row = conns e /\
      forall p, (p < conns e)%nat -> nth p row 0 = total xs D e p.
Proof.
  intros Hn Hsum. unfold calculateWeightDerivatives. fold N.
  set (zero := map (fun e => repeat 0 (numConnections (nets e))) (seq 0 N)).
  destruct (indexed_inv (weightDerivativesAtom q elems) xs (fun k st => let '(ns, _, rows) := st in nets_ok ns /\ List.length rows = N /\
     forall e, (e < N)%nat -> List.length (nth e rows []) = conns e /\ forall p, (p < conns e)%nat -> nth p (nth e rows []) 0 = part xs D e p k))
    with (s := (nets, fun _ _ : nat => 0, zero)) as ([[nets' buf] rows] & E & H1 & H2 & H3).
  - intros i x [[ns buf] rows] Hx (Hns & L & H). destruct (Hsum i x ns (buf (a_element (e_atom x))) Hx Hns) as (He & Sn & el & Eel & _ & d & Ed & Hd).
    unfold weightDerivativesAtom. rewrite Eel.
    change (propagate (setInput (st_G (e_store x)) (ns (a_element (e_atom x))))) with (evaluate (ns (a_element (e_atom x))) (st_G (e_store x))).
    rewrite Ed. set (e := a_element (e_atom x)) in *.
    rewrite (shape_connections _ _ (sn_shape _ _ Sn)). fold (conns e). destruct (H e He) as (L1 & V1).
    destruct (addFrom_ok 0 (conns e) d (nth e rows [])) as (row' & Er & Lr & Hr). { rewrite L1. cbn. auto. }
    destruct (storeAt_ok (addFrom 0 (conns e) d) e rows [] row') as (rows' & Es & Ls & Hs'). { unfold N in *. lia. } { exact Er. }
    rewrite Es. eexists. split; [reflexivity|]. cbn beta iota zeta. split; [now apply nets_upd|]. split; [congruence|].
    intros e' He'. rewrite Hs'. destruct (Nat.eqb_spec e' e) as [->|Hne].
    + split; [congruence|]. intros p Hp. rewrite Hr, (part_S xs D e p i x Hx), V1 by auto. fold e. rewrite Nat.eqb_refl. f_equal.
      cbn [Nat.leb Nat.add andb]. rewrite (proj2 (Nat.ltb_lt _ _) Hp), Nat.sub_0_r. now apply Hd.
    + destruct (H e' He') as (L2 & V2). split; auto. intros p Hp. rewrite V2, (part_S xs D e' p i x Hx) by auto. fold e.
      destruct (Nat.eqb_spec e e'); [congruence|ring].
  - split; auto. unfold zero. split; [now rewrite map_length, seq_length|]. intros e He.
    assert (X : nth e (map (fun e => repeat 0 (numConnections (nets e))) (seq 0 N)) [] = repeat 0 (conns e)).
    { apply nth_error_nth. rewrite nth_error_map, (nth_error_nth' _ 0%nat) by now rewrite seq_length. rewrite seq_nth by auto. cbn. now rewrite conns_ok. }
    rewrite X, repeat_length. split; auto. intros p _. unfold part. rewrite sumn_0. apply nth_repeat.
  - rewrite E. exists nets', rows. split; [reflexivity|]. split; auto. split; auto. intros e He. destruct (H3 e He) as (A & B).
    exists (nth e rows []). split; [apply nth_error_nth'; lia|]. auto.
Qed.

(** *** update *)
Definition mine (b e p : nat) (x : jentry) : bool := (Nat.eqb (j_b x) b && Nat.eqb (j_i x) e && Nat.eqb (j_j x) p)%bool.
Definition amount (b e p : nat) (js : list jentry) : R := rsum (map j_v (filter (mine b e p) js)).
Lemma amount_app b e p l m : amount b e p (l ++ m) = amount b e p l + amount b e p m.
Proof. unfold amount. rewrite filter_app, map_app. apply rsum_app. Qed.
Lemma amount_none b e p l : (forall x, In x l -> mine b e p x = false) -> amount b e p l = 0.
Proof. apply filter_rsum_none. Qed.
Lemma amount_block b e n (d : nat -> R) b' e' p : (b' = b -> e' = e -> (p < n)%nat) ->
  amount b' e' p (map (fun j => mkJ b e j (d j)) (seq 0 n)) = if (Nat.eqb b b' && Nat.eqb e e')%bool then d p else 0.
Proof.
  intros H. destruct (Nat.eqb_spec b b') as [<-|Hb].
  2:{ apply amount_none. intros x Hx. apply in_map_iff in Hx as (j & <- & _). unfold mine. cbn. rewrite (proj2 (Nat.eqb_neq _ _) Hb). reflexivity. }
  destruct (Nat.eqb_spec e e') as [<-|He].
  2:{ apply amount_none. intros x Hx. apply in_map_iff in Hx as (j & <- & _). unfold mine. cbn. rewrite (proj2 (Nat.eqb_neq _ _) He), andb_false_r. reflexivity. }
  specialize (H eq_refl eq_refl). unfold amount. cbn [andb].
  transitivity (sumn n (fun j => if Nat.eqb j p then d j else 0)).
  - unfold sumn. generalize (seq 0 n). induction l as [|j l IH]; auto. cbn [map filter]. unfold mine at 1. cbn [j_b j_i j_j]. rewrite !Nat.eqb_refl. cbn [andb].
    destruct (Nat.eqb j p); cbn [map rsum fold_right j_v]; rewrite IH; unfold rsum; cbn; ring.
  - rewrite (sumn_single n _ p); auto; [now rewrite Nat.eqb_refl|]. intros i _ Hi. destruct (Nat.eqb_spec i p); congruence.
Qed.
Definition within (nb : nat) (js : list jentry) : Prop := forall x, In x js -> (j_b x < nb)%nat /\ (j_i x < N)%nat /\ (j_j x < conns (j_i x))%nat.
Lemma input_loop (G : nat -> R) net : for_up (numNeurons net 0) (fun j s => setInput1 j (G j) s) net = setInput G net.
Proof. reflexivity. Qed.
Lemma candidate_ok q b nets xs D : nets_ok nets -> summable q xs D ->
  exists nets' js, jacobianCandidate q b elems nets xs = Some (nets', js) /\ nets_ok nets' /\ within (S b) js /\
    (forall x, In x js -> j_b x = b) /\
    forall e p, (e < N)%nat -> (p < conns e)%nat -> amount b e p js = total xs D e p.
Proof.
  intros Hn Hsum. unfold jacobianCandidate.
  destruct (indexed_inv (jacobianAtom q b elems) xs (fun k st => let '(ns, _, js) := st in nets_ok ns /\ within (S b) js /\ (forall x, In x js -> j_b x = b) /\
      forall e p, (e < N)%nat -> (p < conns e)%nat -> amount b e p js = part xs D e p k))
    with (s := (nets, fun _ _ : nat => 0, @nil jentry)) as ([[nets' buf] js] & E & H1 & H2 & H3 & H4).
  - intros i x [[ns buf] js] Hx (Hns & W & Bj & H). destruct (Hsum i x ns (buf (a_element (e_atom x))) Hx Hns) as (He & Sn & el & Eel & Lel & d & Ed & Hd).
    unfold jacobianAtom. rewrite Eel. set (e := a_element (e_atom x)) in *.
    assert (Ein : for_up (List.length (el_fs el)) (fun j s => setInput1 j (st_G (e_store x) j) s) (ns e) = setInput (st_G (e_store x)) (ns e)).
    { rewrite Lel. replace (numNeurons (base e) 0) with (numNeurons (ns e) 0). { reflexivity. } destruct (Hns e He) as (_ & -> & _). reflexivity. }
    rewrite Ein. change (propagate (setInput (st_G (e_store x)) (ns e))) with (evaluate (ns e) (st_G (e_store x))).
    rewrite Ed, (shape_connections _ _ (sn_shape _ _ Sn)). fold (conns e). eexists. split; [reflexivity|]. cbn beta iota zeta.
    split; [now apply nets_upd|]. split; [|split].
    + intros y Hy. apply in_app_or in Hy as [Hy|Hy]; [auto|]. apply in_map_iff in Hy as (j & <- & Hj). apply in_seq in Hj. cbn. split; [lia|]. split; [exact He|lia].
    + intros y Hy. apply in_app_or in Hy as [Hy|Hy]; [auto|]. apply in_map_iff in Hy as (j & <- & Hj). reflexivity.
    + intros e' p He' Hp. rewrite amount_app, H, (part_S xs D e' p i x Hx) by auto. f_equal. fold e.
      rewrite amount_block by (intros _ ->; auto). rewrite Nat.eqb_refl. cbn [andb]. destruct (Nat.eqb_spec e e') as [<-|]; auto.
  - split; auto. split; [intros x []|]. split; [intros x []|]. intros e p _ _. unfold part. rewrite sumn_0. reflexivity.
  - rewrite E. exists nets', js. auto.
Qed.
Lemma process_ok nets (cands : list (quantity * list eatom)) (D : nat -> nat -> nat -> R) : nets_ok nets ->
  (forall b c, nth_error cands b = Some c -> summable (fst c) (snd c) (D b)) ->
  exists js, jacobianProcess elems nets cands = Some js /\ within (List.length cands) js /\
    forall b c e p, nth_error cands b = Some c -> (e < N)%nat -> (p < conns e)%nat -> amount b e p js = total (snd c) (D b) e p.
Proof.
  intros Hn Hsum. unfold jacobianProcess.
  match goal with |- context [ofold ?F _ _] => destruct (indexed_inv F cands (fun k st => nets_ok (fst st) /\ within k (snd st) /\
     forall b c e p, (b < k)%nat -> nth_error cands b = Some c -> (e < N)%nat -> (p < conns e)%nat -> amount b e p (snd st) = total (snd c) (D b) e p))
    with (s := (nets, @nil jentry)) as ([nets' js] & E & H1 & H2 & H3) end.
  - intros b c [ns js] Hc (Hns & W & H). cbn [fst snd] in *. destruct (candidate_ok (fst c) b ns (snd c) (D b) Hns (Hsum b c Hc)) as (ns' & more & -> & Hns' & W' & Bj & H').
    eexists. split; [reflexivity|]. cbn [fst snd]. split; auto. split.
    + intros y Hy. apply in_app_or in Hy as [Hy|Hy]; [apply W in Hy as (A & B)|apply W' in Hy as (A & B)]; split; auto; lia.
    + intros b' c' e p Hb' Hc' He Hp. rewrite amount_app. destruct (Nat.eq_dec b' b) as [->|Hne].
      * assert (c' = c) by congruence. subst c'. rewrite H' by auto. rewrite amount_none; [ring|]. intros y Hy. apply W in Hy as (A & _). unfold mine.
        destruct (Nat.eqb_spec (j_b y) b); [lia|reflexivity].
      * rewrite (H b' c') by (auto; lia). rewrite amount_none; [ring|]. intros y Hy. apply Bj in Hy. unfold mine. rewrite Hy.
        destruct (Nat.eqb_spec b b'); [congruence|reflexivity].
  - split; auto. split; [intros x []|]. intros; lia.
  - rewrite E. exists js. split; auto. split; auto. intros b c e p Hc. apply H3; auto. apply nth_error_Some. congruence.
Qed.
End Sums.
