From Coq Require Import List Arith Lia ZArith Reals Lra Bool Permutation.
From Verif Require Import Base.Loop Base.Vec3 Model.Dataset Spec.DatasetSpec.
Import ListNotations.

Section NF.
Variables (remap : vec -> vec) (P : nat) (delta : R) (pos : list vec).
Let N := length pos.
Hypothesis HP : 1 <= P.
Let q := (1 + 6 * N) / P.
Let r := (1 + 6 * N) mod P.
Definition copy (count : nat) : nstruct :=
  let iAtom := count / 6 in let ixyz := count mod 3 in let sign := (2 * Z.of_nat ((count mod 6) / 3) - 1)%Z in
  mkN (updateNth pos iAtom (fun x => remap (addComponent x ixyz (IZR sign * delta)))) (inr (count, iAtom, ixyz, sign)).
Definition nquota (i : nat) : nat := if Nat.ltb i P then q + (if Nat.ltb i r then 1 else 0) else 0.
Definition nlen (i : nat) : nat := nquota i - (if Nat.eqb i 0 then 1 else 0).

Lemma nquota_eq i : for_up P (fun i a =>
     let a := upd a i q in
     if Nat.ltb 0 r && Nat.ltb i r then upd a i (a i + 1) else a) (fun _ => 0) i = nquota i.
Proof.
  unfold nquota. match goal with |- for_up P ?f ?a i = _ =>
    assert (G : forall k, for_up k f a i = if Nat.ltb i k then q + (if Nat.ltb i r then 1 else 0) else 0) end.
  { clear HP. clearbody q r. induction k as [|k IH]. { cbn. auto. }
    cbn [for_up]. set (a := for_up k _ _) in *. cbv zeta. destruct (Nat.eq_dec i k) as [E|E].
    - subst k. destruct (Nat.ltb_spec i (S i)); [|lia].
      destruct (Nat.ltb_spec 0 r), (Nat.ltb_spec i r); cbn [andb]; rewrite ?upd_same; try lia.
    - replace (Nat.ltb i (S k)) with (Nat.ltb i k). 2:{ destruct (Nat.ltb_spec i k), (Nat.ltb_spec i (S k)); auto; lia. }
      rewrite <- IH. destruct (Nat.ltb 0 r && Nat.ltb k r); rewrite !upd_other by auto; auto. }
  apply G.
Qed.
Lemma nquota_sum k : k <= P -> list_sum (map nquota (seq 0 k)) = k * q + Nat.min k r.
Proof.
  intros Hk. induction k as [|k IH]; auto. rewrite seq_S, map_app, list_sum_app, IH by lia. cbn [map list_sum fold_right plus].
  unfold nquota. destruct (Nat.ltb_spec k P); [|lia]. destruct (Nat.ltb_spec k r); lia.
Qed.
Lemma nquota_total : list_sum (map nquota (seq 0 P)) = 1 + 6 * N.
Proof.
  rewrite nquota_sum by auto. unfold q, r. pose proof (Nat.div_mod (1 + 6 * N) P ltac:(lia)). pose proof (Nat.mod_upper_bound (1 + 6 * N) P ltac:(lia)). nia.
Qed.
Lemma nquota_0 : 1 <= nquota 0.
Proof.
  unfold nquota. destruct (Nat.ltb_spec 0 P); [|lia]. unfold q, r.
  pose proof (Nat.div_mod (1 + 6 * N) P ltac:(lia)). destruct (Nat.ltb_spec 0 ((1 + 6 * N) mod P)); [lia|].
  destruct ((1 + 6 * N) / P); lia.
Qed.
Definition starts (p : nat) : nat := list_sum (map nlen (seq 0 p)).
Lemma starts_S p : starts (S p) = starts p + nlen p.
Proof. unfold starts. rewrite seq_S, map_app, list_sum_app. cbn. lia. Qed.
Lemma starts_total k : 1 <= k -> starts k + 1 = list_sum (map nquota (seq 0 k)).
Proof.
  induction k as [|k IH]; intros Hk; [lia|]. rewrite starts_S. rewrite seq_S, map_app, list_sum_app. cbn [map list_sum fold_right plus].
  destruct (Nat.eq_dec k 0) as [E|E].
  - subst k. unfold nlen. cbn. pose proof nquota_0. lia.
  - rewrite <- IH by lia. unfold nlen. destruct (Nat.eqb_spec k 0); lia.
Qed.
Lemma starts_all : starts P = 6 * N.
Proof. pose proof (starts_total P HP). rewrite nquota_total in H. lia. Qed.

Lemma inner_loop myRank p (k c : nat) st :
  for_up k (fun _ cs => let '(count, structures) := cs in
      let iAtom := count / 6 in let ixyz := count mod 3 in let sign := (2 * Z.of_nat ((count mod 6) / 3) - 1)%Z in
      (count + 1, if Nat.eqb p myRank
       then structures ++ [mkN (updateNth pos iAtom (fun r => remap (addComponent r ixyz (IZR sign * delta)))) (inr (count, iAtom, ixyz, sign))]
       else structures)) (c, st)
  = (c + k, if Nat.eqb p myRank then st ++ map copy (seq c k) else st).
Proof.
  induction k as [|k IH]. { cbn. rewrite Nat.add_0_r. destruct (Nat.eqb p myRank); auto. now rewrite app_nil_r. }
  match goal with |- for_up (S k) ?f ?x = _ => change (for_up (S k) f x) with (f k (for_up k f x)) end.
  rewrite IH. cbv beta iota zeta. f_equal; [lia|]. destruct (Nat.eqb p myRank); auto.
  rewrite seq_S, map_app, app_assoc. reflexivity.
Qed.
Lemma prepare_eq myRank : myRank < P -> prepareNumericForces remap P myRank delta pos =
  (if Nat.eqb myRank 0 then [mkN pos (inl tt)] else []) ++ map copy (seq (starts myRank) (nlen myRank)).
Proof.
  intros Hr. unfold prepareNumericForces. cbv zeta. fold N q r.
  set (st := if Nat.eqb myRank 0 then [mkN pos (inl tt)] else []).
  match goal with |- context [for_up P (fun i a => _) (fun _ => 0)] => idtac end.
  match goal with |- snd (for_up P ?f (0, st)) = _ =>
    assert (G : forall k, k <= P -> for_up k f (0, st) = (starts k, st ++ (if Nat.ltb myRank k then map copy (seq (starts myRank) (nlen myRank)) else []))) end.
  { induction k as [|k IH]; intros Hk. { cbn. now rewrite app_nil_r. }
    cbn [for_up]. rewrite IH by lia. unfold for_range. cbv beta.
    match goal with |- for_up ?m _ (_, ?x) = _ => pose proof (inner_loop myRank k m (starts k) x) as IL end. cbv zeta in IL.
    etransitivity; [exact IL|]. clear IL. rewrite nquota_eq, starts_S. fold (nlen k). f_equal.
    destruct (Nat.eqb_spec k myRank) as [E|E].
    - subst k. destruct (Nat.ltb_spec myRank myRank), (Nat.ltb_spec myRank (S myRank)); try lia. now rewrite app_nil_r.
    - destruct (Nat.ltb_spec myRank k), (Nat.ltb_spec myRank (S k)); try lia; auto. }
  rewrite (G P) by auto. cbn [snd]. destruct (Nat.ltb_spec myRank P); [|lia]. auto.
Qed.
Lemma prepare_all : concat (map (fun p => prepareNumericForces remap P p delta pos) (seq 0 P)) = mkN pos (inl tt) :: map copy (seq 0 (6 * N)).
Proof.
  rewrite <- starts_all.
  assert (G : forall k, S k <= P -> concat (map (fun p => prepareNumericForces remap P p delta pos) (seq 0 (S k))) = mkN pos (inl tt) :: map copy (seq 0 (starts (S k)))).
  { induction k as [|k IH]; intros Hk.
    - cbn [seq map concat]. rewrite prepare_eq by lia. cbn [Nat.eqb]. rewrite app_nil_r, starts_S. reflexivity.
    - rewrite seq_S, map_app, concat_app, IH by lia. cbn [map concat]. rewrite app_nil_r, prepare_eq by lia. cbn [plus Nat.eqb app].
      rewrite <- map_app, (starts_S (S k)), seq_app. reflexivity. }
  pose proof (G (P - 1) ltac:(lia)) as E. replace (S (P - 1)) with P in E by lia. exact E.
Qed.

Definition label_of (count : nat) : nat * nat * Z := (count / 6, count mod 3, (2 * Z.of_nat ((count mod 6) / 3) - 1)%Z).
Lemma labels_aux n : map label_of (seq 0 (6 * n)) = displacements n.
Proof.
  clear. induction n as [|n IH]; auto.
  replace (6 * S n) with (6 * n + 6) by lia. rewrite seq_app, map_app, IH. unfold displacements. rewrite (seq_S n), flat_map_app. f_equal.
  replace (0 + 6 * n) with (6 * n) by lia. cbn [seq map flat_map app plus]. unfold label_of.
  assert (D : forall j, j < 6 -> (6 * n + j) / 6 = n /\ (6 * n + j) mod 3 = j mod 3 /\ (6 * n + j) mod 6 = j).
  { intros j Hj. repeat split.
    - replace (6 * n + j) with (j + n * 6) by lia. rewrite Nat.div_add by lia. rewrite Nat.div_small by lia. lia.
    - replace (6 * n + j) with (j + (2 * n) * 3) by lia. apply Nat.mod_add. lia.
    - replace (6 * n + j) with (j + n * 6) by lia. rewrite Nat.mod_add by lia. apply Nat.mod_small. lia. }
  replace (6 * n) with (6 * n + 0) at 1 2 3 by lia.
  replace (S (6 * n)) with (6 * n + 1) by lia. replace (S (6 * n + 1)) with (6 * n + 2) by lia.
  replace (S (6 * n + 2)) with (6 * n + 3) by lia. replace (S (6 * n + 3)) with (6 * n + 4) by lia. replace (S (6 * n + 4)) with (6 * n + 5) by lia.
  destruct (D 0 ltac:(lia)) as (-> & -> & ->). destruct (D 1 ltac:(lia)) as (-> & -> & ->). destruct (D 2 ltac:(lia)) as (-> & -> & ->).
  destruct (D 3 ltac:(lia)) as (-> & -> & ->). destruct (D 4 ltac:(lia)) as (-> & -> & ->). destruct (D 5 ltac:(lia)) as (-> & -> & ->).
  reflexivity.
Qed.

Lemma updateNth_nth {B} (l : list B) i f j : nth_error (updateNth l i f) j = if Nat.eqb j i then option_map f (nth_error l j) else nth_error l j.
Proof.
  revert i j. induction l as [|a l IH]; intros i j.
  - unfold updateNth. rewrite firstn_nil, skipn_nil. destruct (Nat.eqb j i), j; auto.
  - destruct i as [|i]. { unfold updateNth. cbn. destruct j; auto. }
    destruct j as [|j]; auto. change (nth_error (updateNth (a :: l) (S i) f) (S j)) with (nth_error (updateNth l i f) j). rewrite IH. reflexivity.
Qed.
Lemma updateNth_length {B} (l : list B) i f : length (updateNth l i f) = length l.
Proof.
  unfold updateNth. rewrite app_length. rewrite <- (firstn_skipn i l) at 3. rewrite app_length. f_equal.
  destruct (skipn i l); auto.
Qed.
Lemma addComponent_eq v c x : addComponent v c x = vadd v (smul x (axis c)).
Proof. destruct c as [|[|c]]; unfold addComponent, axis, vadd, smul; cbn; f_equal; ring. Qed.
Lemma copy_displaced count : displaced_positions remap delta pos (label_of count) (n_pos (copy count)).
Proof.
  unfold displaced_positions, label_of, copy. cbn [n_pos]. split; [apply updateNth_length|]. split.
  - intros i Hi. rewrite updateNth_nth. destruct (Nat.eqb_spec i (count / 6)); [contradiction|auto].
  - intros x Hx. rewrite updateNth_nth, Nat.eqb_refl, Hx. cbn [option_map]. now rewrite addComponent_eq.
Qed.
End NF.

Lemma numeric_forces remap P delta pos : 1 <= P ->
  let all := concat (map (fun p => prepareNumericForces remap P p delta pos) (seq 0 P)) in
  map comment_label all = None :: map Some (displacements (length pos)) /\
  (forall s, In s all -> match comment_label s with None => n_pos s = pos | Some d => displaced_positions remap delta pos d (n_pos s) end).
Proof.
  intros HP. cbv zeta. rewrite prepare_all by auto. split.
  - cbn [map comment_label n_comment]. f_equal. rewrite map_map. rewrite <- (labels_aux (length pos)), map_map. apply map_ext. reflexivity.
  - intros s [<- | Hs]; [reflexivity|]. apply in_map_iff in Hs. destruct Hs as (c & <- & _). apply (copy_displaced remap delta pos c).
Qed.
Lemma displacements_NoDup n : NoDup (displacements n) /\ forall a c sg, In (a, c, sg) (displacements n) <-> a < n /\ c < 3 /\ (sg = (-1)%Z \/ sg = 1%Z).
Proof.
  split.
  - induction n as [|n IH]. { constructor. }
    unfold displacements. rewrite seq_S, flat_map_app. fold (displacements n).
    assert (A : forall x, In x (displacements n) -> fst (fst x) < n).
    { intros x Hx. unfold displacements in Hx. apply in_flat_map in Hx. destruct Hx as (a & Ha & Hx). apply in_seq in Ha.
      cbn in Hx. decompose [or] Hx; subst; cbn; try lia; contradiction. }
    assert (G : forall (l1 l2 : list (nat * nat * Z)), NoDup l1 -> NoDup l2 -> (forall x, In x l1 -> ~ In x l2) -> NoDup (l1 ++ l2)).
    { clear. induction l1; intros l2 H1 H2 H3; cbn; auto. inversion H1; subst. constructor.
      - intros Hi. apply in_app_or in Hi. destruct Hi; auto. apply (H3 a); auto. now left.
      - apply IHl1; auto. intros x Hx. apply H3. now right. }
    apply G; auto.
    + cbn. repeat constructor; cbn; intuition congruence.
    + intros x Hx Hi. specialize (A x Hx). cbn in Hi. decompose [or] Hi; subst; cbn in A; try lia; contradiction.
  - intros a c sg. unfold displacements. rewrite in_flat_map. split.
    + intros (x & Hx & Hi). apply in_seq in Hx. cbn in Hi. decompose [or] Hi; try contradiction;
        match goal with H : (_, _, _) = _ |- _ => injection H as <- <- <- end; lia.
    + intros (Ha & Hc & Hs). exists a. split; [apply in_seq; lia|]. cbn.
      assert (E : c = 0 \/ c = 1 \/ c = 2) by lia. destruct E as [->|[->| ->]], Hs as [->| ->]; auto 10.
Qed.
