From Coq Require Import Reals List Arith Bool Ascii String Sorted ZArith Lia.
From Verif Require Import Base.AssocMap Model.Strings Model.Scaling Model.Transfer Model.SymFunctions Model.LammpsWarnings Spec.LammpsWarningsSpec
  Proofs.TransferProofs Proofs.UnitsProofs.
From Coq Require Import List.
Import ListNotations.

(** * Association lists *)
Lemma nat_eqb_spec : forall a b : nat, Nat.eqb a b = true <-> a = b.
Proof. intros. apply Nat.eqb_eq. Qed.
Lemma mget_In {V} (d : list (nat * V)) k c : mget Nat.eqb k d = Some c -> In (k, c) d.
Proof.
  induction d as [|[k' c'] d IH]; [discriminate|]. cbn. destruct (Nat.eqb_spec k k') as [->|N]; [intros [= <-]; auto|auto].
Qed.
Lemma In_mget {V} (d : list (nat * V)) k c : NoDup (map fst d) -> In (k, c) d -> mget Nat.eqb k d = Some c.
Proof.
  induction d as [|[k' c'] d IH]; [contradiction|]. cbn. intros N [[= -> ->]|H].
  - now rewrite Nat.eqb_refl.
  - inversion N; subst. destruct (Nat.eqb_spec k k') as [->|]; [|auto]. exfalso. apply H2. apply in_map_iff. exists (k', c). auto.
Qed.
Lemma mget_None {V} (d : list (nat * V)) k : mget Nat.eqb k d = None <-> ~ In k (map fst d).
Proof.
  induction d as [|[k' c'] d IH]; [cbn; tauto|]. cbn. destruct (Nat.eqb_spec k k') as [->|N].
  - split; [discriminate|]. intros H. exfalso. apply H. now left.
  - rewrite IH. split; [intros H [E|H']; [congruence|auto]|tauto].
Qed.

(** * Lines *)
Definition entryLines (p : nat * container) : list ewline :=
  map (fun x => mkLine (fst (fst x)) (snd (fst x)) (c_element (snd p)) (fst p + 1) (c_type (snd p)) (snd x) (c_Gmin (snd p)) (c_Gmax (snd p)))
    (combine (combine (c_structureEW (snd p)) (c_atomEW (snd p))) (c_valueEW (snd p))).
Definition wfc (c : container) : Prop :=
  length (c_structureEW c) = c_countEW c /\ length (c_atomEW c) = c_countEW c /\ length (c_valueEW c) = c_countEW c /\ ~ In zero (c_element c).

Lemma combine3_nth {A B C} (a : list A) (b : list B) (c : list C) n i x y z : length a = n -> length b = n -> length c = n ->
  nth_error a i = Some x -> nth_error b i = Some y -> nth_error c i = Some z -> nth_error (combine (combine a b) c) i = Some (x, y, z).
Proof.
  revert b c n i. induction a as [|x0 a IH]; intros b c n i La Lb Lc; [destruct i; discriminate|].
  destruct b as [|y0 b]; [cbn in *; lia|]. destruct c as [|z0 c]; [cbn in *; lia|]. destruct i as [|i]; cbn.
  - now intros [= <-] [= <-] [= <-].
  - cbn in *. apply IH with (n := length a); cbn in *; lia.
Qed.
Lemma lineOf_ok p i : wfc (snd p) -> i < length (c_valueEW (snd p)) -> lineOf p i = nth_error (entryLines p) i /\ lineOf p i <> None.
Proof.
  intros (A & B & C & _) Hi. unfold lineOf, entryLines.
  destruct (nth_error (c_structureEW (snd p)) i) as [s|] eqn:E1; [|apply nth_error_None in E1; lia].
  destruct (nth_error (c_atomEW (snd p)) i) as [a|] eqn:E2; [|apply nth_error_None in E2; lia].
  destruct (nth_error (c_valueEW (snd p)) i) as [v|] eqn:E3; [|apply nth_error_None in E3; lia].
  split; [|discriminate]. erewrite map_nth_error by (eapply combine3_nth; eauto). reflexivity.
Qed.
Lemma entryLines_length p : wfc (snd p) -> length (entryLines p) = length (c_valueEW (snd p)).
Proof. intros (A & B & C & _). unfold entryLines. rewrite map_length, !combine_length. lia. Qed.
Lemma entry_fold p vs : wfc (snd p) ->
  ofold (fun i vs => match lineOf p i with None => None | Some l => Some (vs ++ [l]) end) (seq 0 (length (c_valueEW (snd p)))) vs
  = Some (vs ++ entryLines p).
Proof.
  intros W. rewrite <- (entryLines_length p W). 
  assert (G : forall n, n <= length (entryLines p) ->
    ofold (fun i vs => match lineOf p i with None => None | Some l => Some (vs ++ [l]) end) (seq 0 n) vs = Some (vs ++ firstn n (entryLines p))).
  { induction n as [|n IH]; intros Hn; [cbn; now rewrite app_nil_r|]. rewrite seq_S, ofold_app, IH by lia. cbn [ofold Nat.add].
    destruct (lineOf_ok p n W) as [E N]; [rewrite <- (entryLines_length p W); lia|]. destruct (lineOf p n) as [l|]; [|contradiction].
    f_equal. rewrite <- app_assoc. f_equal. symmetry in E. clear -E.
    revert n E. induction (entryLines p) as [|x r IH]; intros [|n] E; try discriminate; cbn in *.
    - injection E as ->. reflexivity.
    - f_equal. apply IH. exact E. }
  rewrite G by lia. now rewrite firstn_all.
Qed.
Lemma lines_fold d vs : (forall p, In p d -> wfc (snd p)) ->
  ofold (fun p vs => ofold (fun i vs => match lineOf p i with None => None | Some l => Some (vs ++ [l]) end)
                       (seq 0 (length (c_valueEW (snd p)))) vs) d vs = Some (vs ++ flat_map entryLines d).
Proof.
  revert vs. induction d as [|p d IH]; intros vs W; [cbn; now rewrite app_nil_r|]. cbn [ofold flat_map]. rewrite entry_fold by (apply W; now left).
  rewrite IH by (intros; apply W; now right). now rewrite app_assoc.
Qed.
Lemma insertEntry_perm p d x : In x (insertEntry p d) <-> x = p \/ In x d.
Proof. induction d as [|q d IH]; cbn; [intuition|]. destruct (Nat.leb (fst p) (fst q)); cbn; [intuition|]. rewrite IH. tauto. Qed.
Lemma inOrder_In d x : In x (inOrder d) <-> In x d.
Proof. induction d as [|p d IH]; cbn; [tauto|]. rewrite insertEntry_perm, IH. intuition congruence. Qed.
Lemma insertEntry_sorted p d : Sorted le (map fst d) -> Sorted le (map fst (insertEntry p d)).
Proof.
  induction d as [|q d IH]; intros H; [repeat constructor|]. cbn. destruct (Nat.leb_spec (fst p) (fst q)) as [L|L].
  - cbn. constructor; [exact H|constructor; exact L].
  - cbn. apply Sorted_inv in H. destruct H as [H1 H2]. constructor; [auto|].
    destruct d as [|q' d]; cbn; [constructor; lia|]. destruct (Nat.leb (fst p) (fst q')); cbn; constructor; [lia|]. now inversion H2.
Qed.
Lemma inOrder_sorted d : Sorted le (map fst (inOrder d)).
Proof. induction d as [|p d IH]; cbn; [constructor|]. now apply insertEntry_sorted. Qed.

Lemma lines_for_entry k p : lines_for k (entryLines p) = if Nat.eqb (fst p) k then entryLines p else [].
Proof.
  unfold lines_for, entryLines. destruct (Nat.eqb_spec (fst p) k) as [<-|N]; induction (combine _ _) as [|x l IH]; cbn; auto.
  - rewrite Nat.eqb_refl. now f_equal.
  - destruct (Nat.eqb_spec (fst p + 1) (k + 1)); [lia|auto].
Qed.
Lemma lines_for_insert k p d : NoDup (map fst (p :: d)) ->
  lines_for k (flat_map entryLines (insertEntry p d)) = if Nat.eqb (fst p) k then entryLines p else lines_for k (flat_map entryLines d).
Proof.
  assert (App : forall a b, lines_for k (a ++ b) = lines_for k a ++ lines_for k b) by (intros; apply filter_app).
  assert (Non : forall d, ~ In k (map fst d) -> lines_for k (flat_map entryLines d) = []).
  { induction d0 as [|q d0 IH]; cbn [flat_map map In]; auto. intros H. rewrite App, lines_for_entry, IH by tauto.
    destruct (Nat.eqb_spec (fst q) k); [tauto|reflexivity]. }
  induction d as [|q d IH]; intros N.
  - cbn [insertEntry flat_map]. rewrite App, lines_for_entry. destruct (Nat.eqb (fst p) k); cbn; now rewrite ?app_nil_r.
  - cbn [map] in N. assert (N' : NoDup (map fst (p :: d))).
    { inversion N as [|? ? A B]; subst. inversion B; subst. cbn. constructor; auto. intros C. apply A. now right. }
    cbn [insertEntry]. destruct (Nat.leb (fst p) (fst q)); cbn [flat_map]; rewrite !App, !lines_for_entry.
    + destruct (Nat.eqb_spec (fst p) k) as [<-|]; [|reflexivity]. 
      replace (Nat.eqb (fst q) (fst p)) with false.
      2:{ symmetry. apply Nat.eqb_neq. intros E. inversion N as [|? ? A B]; subst. apply A. now left. }
      rewrite Non; [now rewrite !app_nil_r|]. inversion N'; subst; assumption.
    + rewrite IH by assumption. destruct (Nat.eqb_spec (fst p) k) as [<-|]; [|reflexivity].
      replace (Nat.eqb (fst q) (fst p)) with false; [reflexivity|].
      symmetry. apply Nat.eqb_neq. intros E. inversion N as [|? ? A B]; subst. apply A. now left.
Qed.
Lemma inOrder_keys d : forall k, In k (map fst (inOrder d)) <-> In k (map fst d).
Proof. intros k. rewrite !in_map_iff. split; intros (x & E & H); exists x; (split; [assumption|]); now apply inOrder_In. Qed.
Lemma insertEntry_NoDup p d : NoDup (map fst (p :: d)) -> NoDup (map fst (insertEntry p d)).
Proof.
  induction d as [|q d IH]; intros N; [exact N|]. cbn [insertEntry]. destruct (Nat.leb (fst p) (fst q)); [exact N|].
  cbn [map] in *. inversion N as [|? ? A B]; subst. inversion B as [|? ? C D]; subst. constructor.
  - rewrite in_map_iff. intros (x & E & H). apply insertEntry_perm in H. destruct H as [->|H]; [apply A; left; auto|]. apply C. apply in_map_iff. eauto.
  - apply IH. constructor; auto. intros H. apply A. now right.
Qed.
Lemma inOrder_NoDup d : NoDup (map fst d) -> NoDup (map fst (inOrder d)).
Proof.
  induction d as [|p d IH]; intros N; [constructor|]. cbn [inOrder fold_right]. apply insertEntry_NoDup. inversion N; subst. cbn.
  constructor; [|now apply IH]. change (~ In (fst p) (map fst (inOrder d))). now rewrite inOrder_keys.
Qed.
Lemma lines_for_order k d : NoDup (map fst d) -> lines_for k (flat_map entryLines (inOrder d)) =
  match mget Nat.eqb k d with Some c => entryLines (k, c) | None => [] end.
Proof.
  induction d as [|[k' c] d IH]; intros N; [reflexivity|]. cbn [inOrder fold_right]. fold (inOrder d). rewrite lines_for_insert.
  - cbn [fst mget]. rewrite Nat.eqb_sym. destruct (Nat.eqb_spec k k') as [->|]; [reflexivity|]. apply IH. now inversion N.
  - inversion N; subst. cbn [map]. constructor; [now rewrite inOrder_keys|now apply inOrder_NoDup].
Qed.
Lemma map_symfunc_entry p : map l_symfunc (entryLines p) = repeat (fst p + 1) (length (entryLines p)).
Proof. unfold entryLines. rewrite map_map, map_length. cbn. induction (combine _ _) as [|x l IH]; cbn; [reflexivity|now f_equal]. Qed.
Lemma sorted_repeat_app a n l : Sorted le l -> HdRel le a l -> Sorted le (repeat a n ++ l) /\ HdRel le a (repeat a n ++ l).
Proof. intros S H. induction n as [|n [IH1 IH2]]; cbn; [auto|]. split; constructor; auto. Qed.
Lemma ordered_entries d : Sorted le (map fst d) -> ordered (flat_map entryLines d).
Proof.
  unfold ordered. intros S. apply Sorted_StronglySorted in S; [|intros a b c; apply Nat.le_trans].
  apply StronglySorted_Sorted. induction d as [|p d IH]; cbn; [constructor|]. inversion S as [|? ? S' F]; subst.
  rewrite map_app, map_symfunc_entry. specialize (IH S').
  assert (F' : Forall (le (fst p + 1)) (map l_symfunc (flat_map entryLines d))).
  { apply Forall_forall. intros x Hx. apply in_map_iff in Hx. destruct Hx as (l & <- & Hl). apply in_flat_map in Hl. destruct Hl as (q & Hq & Hl).
    assert (E : l_symfunc l = fst q + 1) by (unfold entryLines in Hl; apply in_map_iff in Hl; destruct Hl as (y & <- & _); reflexivity).
    rewrite Forall_forall in F. specialize (F (fst q)). rewrite E. apply Nat.add_le_mono_r. apply F. now apply in_map. }
  induction (length (entryLines p)) as [|n IHn]; cbn; [exact IH|]. constructor; [exact IHn|]. apply Forall_app. split; [|exact F'].
  clear. induction n; cbn; constructor; auto.
Qed.
Lemma lines_ok d : well_formed d -> exists ls, getExtrapolationWarningLines d = Some ls /\ ordered ls /\
  forall k, lines_for k ls = match mget Nat.eqb k d with Some c => entryLines (k, c) | None => [] end.
Proof.
  intros [N W]. exists (flat_map entryLines (inOrder d)). split; [|split].
  - unfold getExtrapolationWarningLines. rewrite lines_fold; [reflexivity|]. intros [k c] H. rewrite inOrder_In in H. apply (W k c H).
  - apply ordered_entries, inOrder_sorted.
  - intros k. now apply lines_for_order.
Qed.

(** * Packing *)
Section Size.
Variable size : ty -> nat.
Notation bytes := (Transfer.bytes size).
Definition cbytes (l : list (list item)) : nat := sumOver bytes l.
Definition entryCalls (p : nat * container) : list (list item) :=
  let c := snd p in [[cN (fst p)]; [cN (c_countEW c)]; [cN (c_type c)]; [ID (c_Gmin c)]; [ID (c_Gmax c)]; [cN (length (c_element c) + 1)];
            map cChar (c_element c ++ [zero]); map cN (c_structureEW c); map cN (c_atomEW c); map ID (c_valueEW c)].
Lemma packEntry_ok p : wfc (snd p) -> packEntry p = Some (entryCalls p).
Proof.
  intros (A & B & C & _). unfold packEntry, take. rewrite A, B, C, Nat.leb_refl.
  rewrite (firstn_all2 (c_structureEW (snd p))), (firstn_all2 (c_atomEW (snd p))), (firstn_all2 (c_valueEW (snd p))) by lia. reflexivity.
Qed.
Lemma packAll_ok bs : forall calls p buf, p + cbytes calls <= bs ->
  packAll size bs calls (p, buf) = Some (p + cbytes calls, buf ++ concat calls).
Proof.
  induction calls as [|c calls IH]; intros p buf H.
  - cbn. rewrite app_nil_r. now rewrite Nat.add_0_r.
  - unfold cbytes in *. cbn [sumOver] in H. cbn [packAll mpiPack]. destruct (Nat.leb_spec (p + bytes c) bs); [|lia].
    rewrite IH by lia. cbn [concat sumOver]. rewrite app_assoc. f_equal. f_equal. lia.
Qed.
Lemma bytes_map {A} (f : A -> item) t l : (forall x, ty_of (f x) = t) -> bytes (map f l) = length l * size t.
Proof. intros H. unfold Transfer.bytes. induction l as [|x l IH]; auto. cbn [map sumOver length]. rewrite H, IH. lia. Qed.
Lemma entry_bytes p : wfc (snd p) -> cbytes (entryCalls p) = ewEntrySize size (snd p).
Proof.
  intros (A & B & C & _). unfold cbytes, entryCalls, ewEntrySize. cbn [sumOver].
  rewrite (bytes_map cChar TChar), !(bytes_map cN TSize), (bytes_map ID TDouble) by auto. rewrite app_length, A, B, C. unfold Transfer.bytes. cbn [sumOver ty_of cN length]. lia.
Qed.
Definition dsize (d : stat_data) : nat := size TSize + sumOver (fun p => ewEntrySize size (snd p)) d.
Definition ditems (d : stat_data) : list item := cN (length d) :: flat_map (fun p => concat (entryCalls p)) d.
Lemma bufferSize_sum stats : getEWBufferSize size stats = sumOver dsize stats.
Proof.
  unfold getEWBufferSize. 
  assert (F : forall (d : stat_data) bs, fold_left (fun bs p => bs + ewEntrySize size (snd p)) d bs = bs + sumOver (fun p => ewEntrySize size (snd p)) d).
  { induction d as [|p d IH]; intros bs; cbn; [lia|]. rewrite IH. lia. }
  assert (G : forall s bs, fold_left (fun bs d => fold_left (fun bs (p : nat * container) => bs + ewEntrySize size (snd p)) d (bs + size TSize)) s bs = bs + sumOver dsize s).
  { induction s as [|d s IH]; intros bs; cbn [fold_left sumOver]; [lia|]. rewrite IH, F. unfold dsize. lia. }
  apply G.
Qed.
Lemma fill_entries bs d : (forall p, In p d -> wfc (snd p)) -> forall pos buf, pos + sumOver (fun p => ewEntrySize size (snd p)) d <= bs ->
  ofold (fun p pb => match packEntry p with None => None | Some calls => packAll size bs calls pb end) d (pos, buf)
  = Some (pos + sumOver (fun p => ewEntrySize size (snd p)) d, buf ++ flat_map (fun p => concat (entryCalls p)) d).
Proof.
  induction d as [|p d IH]; intros W pos buf H.
  - cbn. now rewrite app_nil_r, Nat.add_0_r.
  - cbn [ofold sumOver flat_map] in *. assert (Wp : wfc (snd p)) by (apply W; now left). rewrite packEntry_ok by assumption.
    rewrite packAll_ok by (rewrite entry_bytes by assumption; lia). rewrite entry_bytes by assumption.
    rewrite IH; [|intros; apply W; now right|lia]. rewrite app_assoc. f_equal. f_equal. lia.
Qed.
Lemma fill_ok stats : (forall d, In d stats -> well_formed d) -> forall bs pos buf, pos + sumOver dsize stats <= bs ->
  ofold (fillElement size bs) stats (pos, buf) = Some (pos + sumOver dsize stats, buf ++ flat_map ditems stats).
Proof.
  induction stats as [|d stats IH]; intros W bs pos buf H.
  - cbn. now rewrite app_nil_r, Nat.add_0_r.
  - cbn [ofold sumOver flat_map] in *. unfold dsize in H at 1.
    assert (B1 : bytes [cN (length d)] = size TSize) by (unfold Transfer.bytes; cbn; lia).
    assert (E : fillElement size bs d (pos, buf) = Some (pos + dsize d, buf ++ ditems d)).
    { unfold fillElement, mpiPack. rewrite B1. destruct (Nat.leb_spec (pos + size TSize) bs); [|lia].
      rewrite fill_entries; [|intros [k c] Hp; apply (proj2 (W d (or_introl eq_refl)) k c Hp)|lia].
      unfold dsize, ditems. rewrite <- app_assoc, Nat.add_assoc. reflexivity. }
    rewrite E. rewrite IH; [|intros; apply W; now right|unfold dsize at 1; lia]. rewrite app_assoc, Nat.add_assoc. reflexivity.
Qed.
End Size.

(** * Extraction *)
Definition merge (c0 c : container) : container :=
  mkContainer (c_count c0) (c_countEW c0 + c_countEW c) (c_type c) (c_min c0) (c_max c0) (c_Gmin c) (c_Gmax c) (c_sum c0) (c_sum2 c0) (c_element c)
    (appendAt 0 (c_countEW c0) (c_structureEW c0) (c_structureEW c)) (appendAt 0 (c_countEW c0) (c_atomEW c0) (c_atomEW c))
    (appendAt 0%R (c_countEW c0) (c_valueEW c0) (c_valueEW c)).
Lemma flat_singletons {A B} (f : A -> B) l : map f l = flat_map (fun x => [f x]) l.
Proof. induction l; cbn; congruence. Qed.
Lemma reads_rep1 {A} (r : reader A) (f : A -> item) n l : length l = n -> (forall x, reads r [f x] x) -> reads (rRep n r) (map f l) l.
Proof.
  intros <- H. rewrite flat_singletons. rewrite <- (map_id l) at 3. apply (reads_rep r (fun x => [f x]) (fun x => x)). auto.
Qed.
Lemma reads_entry d k c : wfc c -> reads (extractEntry d) (concat (entryCalls (k, c))) (mset Nat.eqb k (merge (sd_get d k) c) d).
Proof.
  intros (A & B & C & D). unfold extractEntry, entryCalls. cbn [concat fst snd app].
  apply reads_bind1 with (a := k); [apply reads_N|]. apply reads_bind1 with (a := c_countEW c); [apply reads_N|].
  apply reads_bind1 with (a := c_type c); [apply reads_N|]. apply reads_bind1 with (a := c_Gmin c); [apply reads_D|].
  apply reads_bind1 with (a := c_Gmax c); [apply reads_D|]. apply reads_bind1 with (a := length (c_element c) + 1); [apply reads_N|].
  eapply reads_bind; [apply reads_rep1; [rewrite app_length; reflexivity|intros; apply reads_char]|]. rewrite cstring_plain by assumption.
  eapply reads_bind; [apply reads_rep1; [exact A|intros; apply reads_N]|].
  eapply reads_bind; [apply reads_rep1; [exact B|intros; apply reads_N]|].
  eapply reads_bind; [apply reads_rep1; [exact C|intros; apply reads_D]|]. apply reads_ret.
Qed.
Definition mergeAll (sent mine : stat_data) : stat_data :=
  fold_left (fun d p => mset Nat.eqb (fst p) (merge (sd_get d (fst p)) (snd p)) d) sent mine.
Lemma reads_entries sent : (forall p, In p sent -> wfc (snd p)) -> forall mine,
  reads (extractEntries (length sent) mine) (flat_map (fun p => concat (entryCalls p)) sent) (mergeAll sent mine).
Proof.
  induction sent as [|[k c] sent IH]; intros W mine; [apply reads_ret|]. cbn [length extractEntries flat_map mergeAll fold_left].
  eapply reads_bind; [apply reads_entry; apply (W (k, c)); now left|]. apply IH. intros; apply W; now right.
Qed.
Lemma reads_buffer sent : (forall d, In d sent -> well_formed d) -> forall mine, length mine = length sent ->
  reads (extractEWBuffer mine) (flat_map ditems sent) (map (fun x => mergeAll (fst x) (snd x)) (combine sent mine)).
Proof.
  induction sent as [|d sent IH]; intros W mine L; destruct mine as [|m mine]; try discriminate; [apply reads_ret|].
  cbn [extractEWBuffer flat_map combine map fst snd]. unfold ditems at 1. cbn [app]. apply reads_bind1 with (a := length d); [apply reads_N|].
  eapply reads_bind; [apply reads_entries; intros [k c] Hp; apply (proj2 (W d (or_introl eq_refl)) k c Hp)|].
  rewrite <- (app_nil_r (flat_map ditems sent)). eapply reads_bind; [apply IH; [intros; apply W; now right|cbn in L; lia]|]. apply reads_ret.
Qed.

Lemma mergeAll_get sent : NoDup (map fst sent) -> forall mine k, mget Nat.eqb k (mergeAll sent mine) =
  match mget Nat.eqb k sent with Some c => Some (merge (sd_get mine k) c) | None => mget Nat.eqb k mine end.
Proof.
  induction sent as [|[k0 c0] sent IH]; intros N mine k; [reflexivity|]. cbn [mergeAll fold_left fst snd]. fold (mergeAll sent).
  inversion N as [|? ? A B]; subst. change (fold_left _ sent ?m) with (mergeAll sent m). rewrite IH by assumption. cbn [mget].
  destruct (Nat.eqb_spec k k0) as [->|Ne].
  - apply mget_None in A. cbn [fst] in A. rewrite A. apply mget_mset_same. apply nat_eqb_spec.
  - destruct (mget Nat.eqb k sent) as [c|]; [|apply mget_mset_other; [apply nat_eqb_spec|assumption]]. f_equal. f_equal. unfold sd_get.
    now rewrite (mget_mset_other Nat.eqb nat_eqb_spec).
Qed.
Lemma mergeAll_NoDup sent : forall mine, NoDup (map fst mine) -> NoDup (map fst (mergeAll sent mine)).
Proof. induction sent as [|p sent IH]; intros mine N; [exact N|]. apply IH. apply mset_nodup; [apply nat_eqb_spec|exact N]. Qed.
Lemma appendAt_exact {A} (z : A) n old new : length old = n -> appendAt z n old new = old ++ new.
Proof. intros <-. unfold appendAt. rewrite Nat.sub_diag. cbn. now rewrite app_nil_r, firstn_all. Qed.
Lemma wfc_init : wfc container_init.
Proof. repeat split; auto. Qed.
Lemma wf_get d k : well_formed d -> wfc (sd_get d k).
Proof. intros [_ W]. unfold sd_get. destruct (mget Nat.eqb k d) as [c|] eqn:E; [apply mget_In in E; apply (W k c E)|apply wfc_init]. Qed.
Lemma merge_wf c0 c : wfc c0 -> wfc c -> wfc (merge c0 c).
Proof.
  intros (A & B & C & _) (A' & B' & C' & D'). unfold merge, wfc. cbn [c_structureEW c_atomEW c_valueEW c_countEW c_element].
  rewrite !appendAt_exact by assumption. rewrite !app_length. repeat split; try lia. exact D'.
Qed.
Lemma mergeAll_wf sent mine : well_formed sent -> well_formed mine -> well_formed (mergeAll sent mine).
Proof.
  intros [Ns Ws] Wm. assert (N := mergeAll_NoDup sent mine (proj1 Wm)). split; [exact N|]. intros k c H. apply In_mget in H; [|exact N].
  rewrite mergeAll_get in H by assumption. destruct (mget Nat.eqb k sent) as [c'|] eqn:E.
  - injection H as <-. apply merge_wf; [now apply wf_get|]. apply mget_In in E. apply (Ws k c' E).
  - apply mget_In in H. apply (proj2 Wm k c H).
Qed.
Lemma combine3_app {A B C} (a a' : list A) (b b' : list B) (c c' : list C) : length a = length b -> length b = length c ->
  combine (combine (a ++ a') (b ++ b')) (c ++ c') = combine (combine a b) c ++ combine (combine a' b') c'.
Proof. revert b c. induction a as [|x a IH]; intros [|y b] [|z c] E1 E2; try discriminate; [reflexivity|]. cbn. f_equal. apply IH; cbn in *; lia. Qed.
Lemma entryLines_merge k c0 c : wfc c0 -> wfc c -> 
  (c_countEW c0 = 0 \/ (c_type c = c_type c0 /\ c_Gmin c = c_Gmin c0 /\ c_Gmax c = c_Gmax c0 /\ c_element c = c_element c0)) ->
  entryLines (k, merge c0 c) = entryLines (k, c0) ++ entryLines (k, c).
Proof.
  intros (A & B & C & _) (A' & B' & C' & _) H. unfold entryLines, merge. cbn [fst snd c_structureEW c_atomEW c_valueEW c_element c_type c_Gmin c_Gmax].
  rewrite !appendAt_exact by assumption. rewrite combine3_app by lia. rewrite map_app. f_equal.
  destruct H as [Z|(-> & -> & -> & ->)]; [|reflexivity]. rewrite Z in C. destruct (c_valueEW c0); [|discriminate]. rewrite !combine_nil. reflexivity.
Qed.
Lemma mergeAll_lines sent mine ls lm ls' : well_formed sent -> well_formed mine -> compatible sent mine ->
  getExtrapolationWarningLines sent = Some ls -> getExtrapolationWarningLines mine = Some lm -> 
  getExtrapolationWarningLines (mergeAll sent mine) = Some ls' ->
  ordered ls' /\ forall k, lines_for k ls' = lines_for k lm ++ lines_for k ls.
Proof.
  intros Ws Wm Cp Es Em E'. 
  destruct (lines_ok sent Ws) as (x & Ex & _ & Fx). rewrite Es in Ex. injection Ex as <-.
  destruct (lines_ok mine Wm) as (y & Ey & _ & Fy). rewrite Em in Ey. injection Ey as <-.
  destruct (lines_ok _ (mergeAll_wf _ _ Ws Wm)) as (z & Ez & O & Fz). rewrite E' in Ez. injection Ez as <-.
  split; [exact O|]. intros k. rewrite Fx, Fy, Fz. rewrite mergeAll_get by apply Ws.
  destruct (mget Nat.eqb k sent) as [c|] eqn:G; [|now rewrite app_nil_r]. assert (Gi := mget_In _ _ _ G).
  rewrite entryLines_merge; [|now apply wf_get|apply (proj2 Ws k c Gi)|].
  - f_equal. unfold sd_get. destruct (mget Nat.eqb k mine); reflexivity.
  - unfold sd_get. destruct (mget Nat.eqb k mine) as [c'|] eqn:G'; [|left; reflexivity]. apply (Cp k c c' Gi (mget_In _ _ _ G')).
Qed.

Theorem transfer_warnings size sent mine : length mine = length sent -> (forall d, In d sent -> well_formed d) -> (forall d, In d mine -> well_formed d) ->
  (forall e, compatible (nth e sent []) (nth e mine [])) ->
  exists buf mine', fillEWBuffer size (getEWBufferSize size sent) sent = Some (getEWBufferSize size sent, buf) /\
    extractEWBuffer mine buf = Some (mine', []) /\ length mine' = length mine /\ (forall d, In d mine' -> well_formed d) /\
    forall e, e < length mine -> exists ls lm ls',
      getExtrapolationWarningLines (nth e sent []) = Some ls /\ getExtrapolationWarningLines (nth e mine []) = Some lm /\
      getExtrapolationWarningLines (nth e mine' []) = Some ls' /\
      ordered ls' /\ (forall k, lines_for k ls' = lines_for k lm ++ lines_for k ls) /\
      forall k, same_statistics (sd_get (nth e mine' []) k) (sd_get (nth e mine []) k).
Proof.
  intros L Ws Wm Cp. exists (flat_map ditems sent), (map (fun x => mergeAll (fst x) (snd x)) (combine sent mine)).
  assert (F := fill_ok size sent Ws (getEWBufferSize size sent) 0 []). rewrite bufferSize_sum in *.
  split; [apply F; lia|]. split; [rewrite <- (app_nil_r (flat_map ditems sent)); apply reads_buffer; assumption|].
  split; [rewrite map_length, combine_length; lia|]. split.
  { intros d Hd. apply in_map_iff in Hd. destruct Hd as ([a b] & <- & Hab). apply mergeAll_wf; cbn; [apply Ws; eapply in_combine_l; eauto|apply Wm; eapply in_combine_r; eauto]. }
  intros e He.
  assert (We : well_formed (nth e sent [])) by (apply Ws, nth_In; lia). assert (We' : well_formed (nth e mine [])) by (apply Wm, nth_In; lia).
  assert (E : nth e (map (fun x => mergeAll (fst x) (snd x)) (combine sent mine)) [] = mergeAll (nth e sent []) (nth e mine [])).
  { rewrite (nth_indep _ [] (mergeAll (fst (@nil (nat * container), @nil (nat * container))) (snd (@nil (nat * container), @nil (nat * container))))) by (rewrite map_length, combine_length; lia).
    rewrite (map_nth (fun x => mergeAll (fst x) (snd x))). rewrite combine_nth by auto. reflexivity. }
  rewrite E. destruct (lines_ok _ We) as (ls & E1 & _). destruct (lines_ok _ We') as (lm & E2 & _).
  destruct (lines_ok _ (mergeAll_wf _ _ We We')) as (ls' & E3 & _). exists ls, lm, ls'. repeat (split; [assumption|]).
  destruct (mergeAll_lines _ _ _ _ _ We We' (Cp e) E1 E2 E3) as [O X]. split; [exact O|]. split; [exact X|].
  intros k. unfold sd_get. rewrite mergeAll_get by apply We. destruct (mget Nat.eqb k (nth e sent [])); unfold same_statistics.
  - unfold sd_get. cbn. repeat split.
  - repeat split.
Qed.

(** * Recording and collecting *)
Section Flow.
Variables (size : ty -> nat) (hdr : nat -> nat -> ewheader).
Hypothesis plain : forall e k, ~ In zero (h_symbol (hdr e k)).

(** The statistics of element e hold exactly the warnings ws. *)
Definition of_sf (e k : nat) (ws : list ewevent) : list ewevent := filter (about e k) ws.
Definition chead (e k : nat) (c : container) : Prop :=
  c_type c = h_type (hdr e k) /\ c_Gmin c = h_min (hdr e k) /\ c_Gmax c = h_max (hdr e k) /\ c_element c = h_symbol (hdr e k).
Definition holds (e : nat) (d : stat_data) (ws : list ewevent) : Prop :=
  NoDup (map fst d) /\ forall k, match mget Nat.eqb k d with
    | None => of_sf e k ws = []
    | Some c => chead e k c /\ c_countEW c = length (of_sf e k ws) /\ c_structureEW c = map v_structure (of_sf e k ws) /\
                c_atomEW c = map v_atom (of_sf e k ws) /\ c_valueEW c = map v_value (of_sf e k ws)
    end.
Lemma holds_wf e d ws : holds e d ws -> well_formed d.
Proof.
  intros [N H]. split; [exact N|]. intros k c Hc. apply In_mget in Hc; [|exact N]. specialize (H k). rewrite Hc in H.
  destruct H as ((_ & _ & _ & El) & -> & -> & -> & ->). rewrite !map_length, El. repeat split. apply plain.
Qed.
Lemma of_sf_app e k a b : of_sf e k (a ++ b) = of_sf e k a ++ of_sf e k b.
Proof. apply filter_app. Qed.
Lemma holds_merge e d1 d2 w1 w2 : holds e d1 w1 -> holds e d2 w2 -> holds e (mergeAll d2 d1) (w1 ++ w2).
Proof.
  intros H1 H2. assert (W1 := holds_wf _ _ _ H1). assert (W2 := holds_wf _ _ _ H2). split; [apply mergeAll_NoDup, H1|]. intros k.
  rewrite mergeAll_get by apply H2. rewrite of_sf_app. destruct H1 as [_ H1]. destruct H2 as [_ H2]. specialize (H1 k). specialize (H2 k).
  destruct (mget Nat.eqb k d2) as [c2|] eqn:E2.
  - assert (G := wf_get d1 k W1). destruct H2 as ((T & Mi & Ma & El) & C2 & S2 & A2 & V2). unfold sd_get in *.
    destruct (mget Nat.eqb k d1) as [c1|].
    + destruct H1 as (_ & C1 & S1 & A1 & V1). unfold merge. cbn [c_countEW c_structureEW c_atomEW c_valueEW]. destruct G as (Ga & Gb & Gc & _).
      rewrite !appendAt_exact by assumption. rewrite app_length, !map_app, C1, C2, S1, S2, A1, A2, V1, V2. unfold chead. cbn. auto.
    + rewrite H1. cbn [app]. unfold merge, container_init. cbn [c_countEW c_structureEW c_atomEW c_valueEW]. rewrite !appendAt_exact by reflexivity.
      cbn [app Nat.add]. unfold chead. cbn. auto.
  - rewrite H2, app_nil_r. exact H1.
Qed.
Lemma holds_nil e : holds e [] [].
Proof. split; [constructor|]. intros k. reflexivity. Qed.
Lemma holds_skip e d ws w : v_element w <> e -> holds e d ws -> holds e d (ws ++ [w]).
Proof.
  intros Ne [N H]. split; [exact N|]. intros k. rewrite of_sf_app. unfold of_sf at 2 4 6 8 10. cbn [filter]. unfold about.
  destruct (Nat.eqb_spec (v_element w) e); [contradiction|]. cbn [andb]. rewrite app_nil_r. apply H.
Qed.
Lemma holds_add e d ws w : v_element w = e -> holds e d ws ->
  holds e (addExtrapolationWarning d (v_symfunc w) (h_type (hdr e (v_symfunc w))) (v_value w) (h_min (hdr e (v_symfunc w))) (h_max (hdr e (v_symfunc w)))
             (h_symbol (hdr e (v_symfunc w))) (v_structure w) (v_atom w)) (ws ++ [w]).
Proof.
  intros <- [N H]. split; [apply mset_nodup; [apply nat_eqb_spec|exact N]|]. intros k. unfold addExtrapolationWarning.
  destruct (Nat.eq_dec k (v_symfunc w)) as [->|Ne].
  - rewrite mget_mset_same by apply nat_eqb_spec. specialize (H (v_symfunc w)). rewrite of_sf_app.
    assert (O : of_sf (v_element w) (v_symfunc w) [w] = [w]) by (unfold of_sf, about; cbn; now rewrite !Nat.eqb_refl). rewrite O.
    unfold sd_get. destruct (mget Nat.eqb (v_symfunc w) d) as [c|].
    + destruct H as (_ & C & S & A & V). unfold c_addEW, chead. cbn [c_countEW c_structureEW c_atomEW c_valueEW c_type c_Gmin c_Gmax c_element].
      rewrite app_length, !map_app, C, S, A, V. cbn. auto.
    + rewrite H. cbn. unfold chead. cbn. auto.
  - rewrite (mget_mset_other Nat.eqb nat_eqb_spec) by assumption. rewrite of_sf_app.
    assert (O : of_sf (v_element w) k [w] = []).
    { unfold of_sf, about. cbn. rewrite Nat.eqb_refl. destruct (Nat.eqb_spec (v_symfunc w) k); [congruence|reflexivity]. }
    rewrite O, app_nil_r. apply H.
Qed.
Lemma onElement_length e f s : length (onElement e f s) = length s.
Proof. revert e. induction s as [|d s IH]; intros [|e]; cbn; auto. Qed.
Lemma onElement_nth e f s i dd : nth i (onElement e f s) dd = if Nat.eqb i e then (if Nat.ltb i (length s) then f (nth i s dd) else dd) else nth i s dd.
Proof.
  revert e i. induction s as [|d s IH]; intros e i.
  - replace (onElement e f []) with (@nil stat_data) by (destruct e; reflexivity). cbn [length]. destruct (Nat.eqb i e); [|reflexivity]. destruct i; reflexivity.
  - destruct e as [|e], i as [|i]; cbn [onElement nth Nat.eqb length]; try reflexivity. rewrite IH. reflexivity.
Qed.
Definition all_hold (E : nat) (stats : list stat_data) (ws : list ewevent) : Prop :=
  length stats = E /\ forall e, e < E -> holds e (nth e stats []) ws.
Lemma record_holds E ws : all_hold E (recordWarnings hdr E ws) ws.
Proof.
  unfold recordWarnings. induction ws as [|w ws IH] using rev_ind.
  - split; [apply repeat_length|]. intros e He. cbn [fold_left]. rewrite nth_repeat. apply holds_nil.
  - rewrite fold_left_app. cbn [fold_left]. destruct IH as [L H].
    generalize dependent (fold_left (recordWarning hdr) ws (repeat [] E)). intros st L H. split; [unfold recordWarning; now rewrite onElement_length|].
    intros e He. unfold recordWarning. rewrite onElement_nth, L. destruct (Nat.eqb_spec e (v_element w)) as [->|Ne].
    + destruct (Nat.ltb_spec (v_element w) E); [|lia]. now apply holds_add; auto.
    + apply holds_skip; auto.
Qed.
Lemma collect_ok E stats mine w1 w2 : all_hold E mine w1 -> all_hold E stats w2 -> (forall w, In w w2 -> v_element w < E) ->
  exists mine', collectFrom size stats mine = Some mine' /\ all_hold E mine' (w1 ++ w2).
Proof.
  intros [L1 H1] [L2 H2] In2. unfold collectFrom.
  assert (Wf2 : forall d, In d stats -> well_formed d).
  { intros d Hd. apply (In_nth _ _ []) in Hd. destruct Hd as (e & He & <-). apply (holds_wf e _ w2). apply H2. rewrite <- L2. exact He. }
  destruct (Nat.ltb_spec 0 (getNumExtrapolationWarnings stats)) as [P|Z].
  - assert (F := fill_ok size stats Wf2 (getEWBufferSize size stats) 0 []). rewrite bufferSize_sum in *. unfold fillEWBuffer. rewrite F by lia.
    cbn [app]. rewrite <- (app_nil_r (flat_map ditems stats)). rewrite reads_buffer by (auto; lia). eexists. split; [reflexivity|].
    split; [rewrite map_length, combine_length; lia|]. intros e He.
    rewrite (nth_indep _ [] (mergeAll (fst (@nil (nat * container), @nil (nat * container))) (snd (@nil (nat * container), @nil (nat * container))))) by (rewrite map_length, combine_length; lia).
    rewrite (map_nth (fun x => mergeAll (fst x) (snd x))). rewrite combine_nth by (exact (eq_trans L2 (eq_sym L1))). cbn [fst snd]. apply holds_merge; auto.
  - exists mine. split; [reflexivity|]. split; [exact L1|]. intros e He.
    assert (w2 = []).
    { destruct w2 as [|w w2']; [reflexivity|]. exfalso.
      assert (Hw : v_element w < E) by (apply In2; now left).
      assert (Hk := H2 (v_element w) Hw). destruct Hk as [_ Hk]. specialize (Hk (v_symfunc w)).
      assert (O : exists l, of_sf (v_element w) (v_symfunc w) (w :: w2') = w :: l).
      { unfold of_sf, about. cbn [filter]. rewrite !Nat.eqb_refl. cbn. eauto. }
      destruct O as (l & O). rewrite O in Hk. destruct (mget Nat.eqb (v_symfunc w) (nth (v_element w) stats [])) as [c|] eqn:G; [|discriminate].
      destruct Hk as (_ & C & _). cbn in C. apply mget_In in G.
      assert (M : forall d n, (In (v_symfunc w, c) d -> 0 < fold_left (fun n (p : nat * container) => n + c_countEW (snd p)) d n) /\
         n <= fold_left (fun n (p : nat * container) => n + c_countEW (snd p)) d n).
      { induction d as [|p d IHd]; intros n; [split; [contradiction|cbn; lia]|]. cbn [fold_left]. destruct (IHd (n + c_countEW (snd p))) as [A B]. split; [|lia].
        intros [->|Hd]; [|auto]. cbn [snd] in *. lia. }
      assert (M2 : forall s n, (In (nth (v_element w) stats []) s -> 0 < fold_left (fun n d => n + countExtrapolationWarnings d) s n) /\
         n <= fold_left (fun n d => n + countExtrapolationWarnings d) s n).
      { induction s as [|d s IHs]; intros n; [split; [contradiction|cbn; lia]|]. cbn [fold_left]. destruct (IHs (n + countExtrapolationWarnings d)) as [A B].
        split; [|lia]. intros [->|Hs]; [|auto]. assert (X := proj1 (M (nth (v_element w) stats []) 0) G). unfold countExtrapolationWarnings in *. lia. }
      assert (X := proj1 (M2 stats 0)). unfold getNumExtrapolationWarnings in Z. assert (In (nth (v_element w) stats []) stats) by (apply nth_In; rewrite L2; exact Hw). specialize (X H). lia. }
    subst w2. rewrite app_nil_r. auto.
Qed.
Lemma collect_all E ranks mine w : all_hold E mine w -> (forall ws, In ws ranks -> forall x, In x ws -> v_element x < E) ->
  exists mine', ofold (collectFrom size) (map (recordWarnings hdr E) ranks) mine = Some mine' /\ all_hold E mine' (w ++ concat ranks).
Proof.
  revert mine w. induction ranks as [|ws ranks IH]; intros mine w H Hin; [cbn; rewrite app_nil_r; eauto|].
  cbn [map ofold concat]. destruct (collect_ok E (recordWarnings hdr E ws) mine w ws H (record_holds E ws)) as (m' & -> & H'); [apply Hin; now left|].
  destruct (IH m' _ H') as (m'' & E'' & H''); [intros; eapply Hin; eauto; now right|]. exists m''. split; [exact E''|]. now rewrite app_assoc.
Qed.
Lemma entryLines_holds e k c ws : chead e k c -> c_structureEW c = map v_structure (of_sf e k ws) -> c_atomEW c = map v_atom (of_sf e k ws) ->
  c_valueEW c = map v_value (of_sf e k ws) -> entryLines (k, c) = map (line_for hdr) (of_sf e k ws).
Proof.
  intros (T & Mi & Ma & El) S A V. unfold entryLines. cbn [fst snd]. rewrite T, Mi, Ma, El, S, A, V.
  assert (F : forall w, In w (of_sf e k ws) -> v_element w = e /\ v_symfunc w = k).
  { intros w Hw. apply filter_In in Hw. destruct Hw as [_ B]. unfold about in B. apply andb_true_iff in B. rewrite !Nat.eqb_eq in B. exact B. }
  clear S A V. induction (of_sf e k ws) as [|w l IH]; [reflexivity|]. cbn. f_equal.
  - destruct (F w (or_introl eq_refl)) as [<- <-]. reflexivity.
  - apply IH. intros; apply F; now right.
Qed.
Lemma write_ok E stats ws : all_hold E stats ws -> exists out, writeExtrapolationWarnings stats = Some out /\ length out = E /\
  forall e, e < E -> ordered (nth e out []) /\ forall k, lines_for k (nth e out []) = map (line_for hdr) (of_sf e k ws).
Proof.
  intros [L H]. unfold writeExtrapolationWarnings.
  assert (G : forall n, n <= E -> exists out, ofold (fun d vs => match getExtrapolationWarningLines d with None => None | Some l => Some (vs ++ [l]) end) (firstn n stats) [] = Some out /\
     length out = n /\ forall e, e < n -> ordered (nth e out []) /\ forall k, lines_for k (nth e out []) = map (line_for hdr) (of_sf e k ws)).
  { induction n as [|n IH]; intros Hn; [exists []; repeat split; cbn in *; lia|]. destruct IH as (out & Eo & Lo & Ho); [lia|].
    assert (Fn : firstn (S n) stats = firstn n stats ++ [nth n stats []]).
    { rewrite <- L in Hn. clear -Hn. revert n Hn. induction stats as [|x r IH]; intros [|n] Hn; cbn in *; try lia; try reflexivity. f_equal. apply IH. lia. }
    rewrite Fn, ofold_app, Eo. cbn [ofold]. assert (Hh := H n ltac:(lia)). destruct (lines_ok _ (holds_wf _ _ _ Hh)) as (ls & El & O & F). rewrite El.
    exists (out ++ [ls]). split; [reflexivity|]. split; [rewrite app_length; cbn; lia|]. intros e He. destruct (Nat.eq_dec e n) as [->|Ne].
    - rewrite app_nth2, Lo, Nat.sub_diag by lia. cbn [nth]. split; [exact O|]. intros k. rewrite F. destruct Hh as [_ Hh]. specialize (Hh k).
      destruct (mget Nat.eqb k (nth n stats [])) as [c|]; [|now rewrite Hh]. destruct Hh as (A & _ & B & C & D). now apply entryLines_holds.
    - rewrite app_nth1 by lia. apply Ho. lia. }
  destruct (G E (le_n _)) as (out & Eo & R). exists out. rewrite firstn_all2 in Eo by lia. auto.
Qed.
Theorem all_warnings_written E ranks : ranks <> [] -> (forall w, In w (concat ranks) -> v_element w < E) ->
  exists out, handleExtrapolationWarnings size (map (recordWarnings hdr E) ranks) = Some out /\ length out = E /\
    forall e, e < E -> ordered (nth e out []) /\ forall k, lines_for k (nth e out []) = map (line_for hdr) (filter (about e k) (concat ranks)).
Proof.
  intros Ne In1. destruct ranks as [|ws ranks]; [contradiction|]. cbn [map handleExtrapolationWarnings].
  destruct (collect_all E ranks _ _ (record_holds E ws)) as (m & -> & H).
  { intros l Hl x Hx. apply In1. cbn. apply in_or_app. right. apply in_concat. eauto. }
  apply write_ok. exact H.
Qed.
End Flow.

(** * Examples *)
Definition exHdr (e k : nat) : ewheader := mkHeader (2 + k) 0 1 (lit "H"%string).
Definition exW1 : list ewevent := [mkEw 0 5 2 7 1; mkEw 1 3 4 7 2; mkEw 0 2 9 7 1].
Definition exW2 : list ewevent := [mkEw 0 5 3 8 1; mkEw 0 2 3 8 4].
Lemma ex_plain : forall e k, ~ In zero (h_symbol (exHdr e k)).
Proof. intros e k [H|[]]. discriminate H. Qed.
Lemma ex_ranks : (forall e k, ~ In zero (h_symbol (exHdr e k))) /\ (forall w, In w (concat [exW1; exW2]) -> v_element w < 2) /\
  exists out, handleExtrapolationWarnings (fun _ => 8) (map (recordWarnings exHdr 2) [exW1; exW2]) = Some out /\
    map (map (fun l => (l_structure l, l_symfunc l))) out = [[(7, 3); (8, 3); (7, 6); (8, 6)]; [(7, 4)]].
Proof.
  split; [exact ex_plain|]. split.
  - intros w H. cbn in H. repeat (destruct H as [<-|H]; [cbn; lia|]). contradiction.
  - eexists. split; [|]. { vm_compute. reflexivity. } reflexivity.
Qed.
Definition warnedData (v : R) : stat_data := addExtrapolationWarning [] 5 2 v 0 1 (lit "H"%string) 7 1.
Lemma ex_compatible : well_formed (warnedData 2) /\ compatible (warnedData 3) (warnedData 2).
Proof.
  split; [split; [cbn; repeat constructor; auto|]|].
  - intros k c [[= <- <-]|[]]. cbn. repeat split. intros [H|[]]. discriminate H.
  - intros k c c' [[= <- <-]|[]] [[= <-]|[]]. right. repeat split.
Qed.
(** A sender whose warnings have been reset still has an entry for the symmetry function. *)
Lemma reset_sender : exists sent mine buf mine' lm ls', well_formed sent /\ well_formed mine /\ countExtrapolationWarnings sent = 0 /\
  fillEWBuffer (fun _ => 8) (getEWBufferSize (fun _ => 8) [sent]) [sent] = Some (getEWBufferSize (fun _ => 8) [sent], buf) /\
  extractEWBuffer [mine] buf = Some ([mine'], []) /\
  getExtrapolationWarningLines mine = Some lm /\ getExtrapolationWarningLines mine' = Some ls' /\
  map l_element lm = [lit "H"%string] /\ map l_element ls' = [lit ""%string] /\ map l_type lm = [2] /\ map l_type ls' = [0].
Proof.
  exists (resetExtrapolationWarnings (warnedData 3)), (warnedData 2).
  do 4 eexists. split; [split; [cbn; repeat constructor; auto|intros k c [[= <- <-]|[]]; cbn; auto]|].
  split; [apply ex_compatible|]. split; [reflexivity|]. split; [vm_compute; reflexivity|]. split; [vm_compute; reflexivity|].
  split; [vm_compute; reflexivity|]. split; [vm_compute; reflexivity|]. repeat split.
Qed.
