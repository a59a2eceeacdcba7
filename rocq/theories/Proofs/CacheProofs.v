(** The cache slots assigned by the set-up. *)
From Coq Require Import Reals List Bool Arith Lia.
From Verif Require Import Base.Loop Base.Vec3 Model.Scaling Model.NeighborList Model.SymFunctions Model.SymCache
  Spec.SymSpec.
Import ListNotations.

Section CacheProofs.
Variables (K : Type) (K_dec : forall a b : K, {a = b} + {a <> b}) (key : symfnc -> K) (numElements : nat).
Notation cid := (cid K).
Notation entry := (entry K).
Notation cid_eqb := (cid_eqb K K_dec).
Notation register := (register K K_dec).
Notation ids := (identifiers K key numElements).
Notation elems f := (id_elements numElements (sf_kind f)).

Lemma cid_eqb_eq a b : cid_eqb a b = true <-> a = b.
Proof.
  destruct a as [[e d] k], b as [[e' d'] k']. simpl. rewrite !andb_true_iff, Nat.eqb_eq, eqb_true_iff.
  destruct (K_dec k k'); split; intros H; try (intuition congruence).
Qed.
Lemma cid_eqb_refl a : cid_eqb a a = true. Proof. apply cid_eqb_eq; auto. Qed.
Lemma cid_eqb_neq a b : a <> b -> cid_eqb a b = false.
Proof. intros H. destruct (cid_eqb a b) eqn:E; auto. apply cid_eqb_eq in E. contradiction. Qed.

Lemma elems_nodup f : NoDup (elems f).
Proof.
  assert (one : forall x : nat, NoDup [x]) by (intros; repeat constructor; simpl; auto).
  assert (two : forall x y : nat, x <> y -> NoDup [x; y]).
  { intros x y H. repeat constructor; simpl; intuition. }
  unfold id_elements. destruct (sf_kind f); try apply one; try apply seq_NoDup;
    match goal with |- NoDup (if Nat.eqb ?x ?y then _ else _) => destruct (Nat.eqb_spec x y); auto end.
Qed.

(** ** Groups of functions with the same text *)
Fixpoint add_g (k : K) (j : nat) (gs : list (K * list nat)) : list (K * list nat) :=
  match gs with
  | [] => [(k, [j])]
  | (k', js) :: r => if K_dec k k' then (k', js ++ [j]) :: r else (k', js) :: add_g k j r
  end.
Definition in_elems (e : nat) (f : symfnc) : bool := if in_dec Nat.eq_dec e (elems f) then true else false.
Definition groups (e : nat) (fs : list symfnc) : list (K * list nat) :=
  fold_left (fun gs f => if in_elems e f then add_g (key f) (sf_index (sf_c f)) gs else gs) fs [].
Definition expand (e : nat) (gs : list (K * list nat)) : list entry :=
  flat_map (fun g => [((e, false, fst g), snd g); ((e, true, fst g), snd g)]) gs.

Lemma register_expand e k j gs :
  register j (e, true, k) (register j (e, false, k) (expand e gs)) = expand e (add_g k j gs).
Proof.
  induction gs as [|[k' js] gs IH].
  - simpl. rewrite Nat.eqb_refl. destruct (K_dec k k); simpl; auto.
  - cbn [expand flat_map app fst snd add_g]. fold (expand e gs). destruct (K_dec k k') as [->|N].
    + cbn [SymCache.register]. rewrite cid_eqb_refl. cbn [SymCache.register].
      rewrite (cid_eqb_neq (e, true, k') (e, false, k')) by congruence. rewrite cid_eqb_refl. reflexivity.
    + cbn [SymCache.register]. rewrite !(cid_eqb_neq (e, _, k)) by congruence.
      cbn [SymCache.register]. rewrite !(cid_eqb_neq (e, _, k)) by congruence. rewrite IH. reflexivity.
Qed.

Lemma collect_one_at ls f e : collect_one K K_dec key numElements ls f e =
  if in_elems e f then register (sf_index (sf_c f)) (e, true, key f)
                        (register (sf_index (sf_c f)) (e, false, key f) (ls e)) else ls e.
Proof.
  unfold collect_one, identifiers, in_elems. pose proof (elems_nodup f) as ND. revert ls.
  induction (elems f) as [|x l IH]; intros ls; [reflexivity|].
  inversion ND; subst. cbn [flat_map app fold_left]. rewrite IH by auto. cbn [cid_element fst].
  destruct (Nat.eq_dec x e) as [->|N].
  - destruct (in_dec Nat.eq_dec e l); [contradiction|]. destruct (in_dec Nat.eq_dec e (e :: l)) as [|N]; [|elim N; left; auto].
    now rewrite !upd_same.
  - rewrite !upd_other by auto.
    destruct (in_dec Nat.eq_dec e l), (in_dec Nat.eq_dec e (x :: l)) as [I|I]; auto.
    + elim I; right; auto.
    + destruct I; [congruence|contradiction].
Qed.
Lemma collect_groups fs e : collect K K_dec key numElements fs e = expand e (groups e fs).
Proof.
  unfold collect, groups.
  assert (H : forall ls gs, ls e = expand e gs -> fold_left (collect_one K K_dec key numElements) fs ls e =
    expand e (fold_left (fun gs f => if in_elems e f then add_g (key f) (sf_index (sf_c f)) gs else gs) fs gs)).
  { induction fs as [|f fs IH]; intros ls gs E; [exact E|]. cbn [fold_left]. apply IH.
    rewrite collect_one_at. destruct (in_elems e f); auto. rewrite E. apply register_expand. }
  apply H. reflexivity.
Qed.

(** Contents of the groups. *)
Definition members (e : nat) (k : K) (fs : list symfnc) : list nat :=
  map (fun f => sf_index (sf_c f)) (filter (fun f => (in_elems e f && (if K_dec (key f) k then true else false))%bool) fs).
Definition gs_ok (e : nat) (fs : list symfnc) (gs : list (K * list nat)) : Prop :=
  NoDup (map fst gs) /\ (forall g, In g gs -> snd g = members e (fst g) fs) /\
  (forall f, In f fs -> in_elems e f = true -> In (key f) (map fst gs)).

Lemma add_g_fst k j gs : map fst (add_g k j gs) = if in_dec K_dec k (map fst gs) then map fst gs else map fst gs ++ [k].
Proof.
  induction gs as [|[k' js] gs IH]; [reflexivity|]. cbn [add_g map fst].
  destruct (K_dec k k') as [->|N].
  - cbn [map fst]. destruct (in_dec K_dec k' (k' :: map fst gs)) as [|X]; auto. elim X; left; auto.
  - cbn [map fst]. rewrite IH.
    destruct (in_dec K_dec k (map fst gs)), (in_dec K_dec k (k' :: map fst gs)) as [I|I]; auto.
    + elim I; right; auto.
    + destruct I; [congruence|contradiction].
Qed.
Lemma add_g_in k j gs g : NoDup (map fst gs) -> In g (add_g k j gs) ->
  (fst g <> k /\ In g gs) \/
  (fst g = k /\ ((exists js, In (k, js) gs /\ snd g = js ++ [j]) \/ (~ In k (map fst gs) /\ snd g = [j]))).
Proof.
  induction gs as [|[k' js] gs IH]; intros ND H.
  - destruct H as [<-|[]]. right. simpl. auto.
  - cbn [add_g] in H. inversion ND; subst. destruct (K_dec k k') as [->|N].
    + destruct H as [<-|H].
      * right. simpl. split; auto. left. exists js. auto.
      * left. split; [|right; auto]. intros E. cbn [map fst] in *. apply H2. rewrite <- E. now apply in_map.
    + destruct H as [<-|H]; [left; simpl; auto|].
      destruct (IH H3 H) as [[A B]|(A & [(js' & B & C)|(B & C)])].
      * left; simpl; auto.
      * right. split; auto. left. exists js'. simpl; auto.
      * right. split; auto. right. split; auto. cbn [map fst]. intros [E|E]; [congruence|contradiction].
Qed.

Lemma members_app e k fs f : members e k (fs ++ [f]) =
  members e k fs ++ (if (in_elems e f && (if K_dec (key f) k then true else false))%bool then [sf_index (sf_c f)] else []).
Proof. unfold members. rewrite filter_app, map_app. simpl. destruct (_ && _)%bool; reflexivity. Qed.

Lemma NoDup_snoc {A} (l : list A) x : NoDup l -> ~ In x l -> NoDup (l ++ [x]).
Proof. intros H N. apply NoDup_Add with (a := x) (l := l); auto. rewrite <- (app_nil_r l) at 1. apply Add_app. Qed.

Lemma members_absent e k fs : (forall f, In f fs -> in_elems e f = true -> key f <> k) -> members e k fs = [].
Proof.
  intros H. unfold members. induction fs as [|f fs IH]; auto. simpl.
  destruct (in_elems e f) eqn:E; simpl.
  - destruct (K_dec (key f) k) as [X|X]; [elim (H f (or_introl eq_refl) E X)|]. apply IH. intros; apply H; simpl; auto.
  - apply IH. intros; apply H; simpl; auto.
Qed.

Lemma groups_snoc e fs f : groups e (fs ++ [f]) =
  if in_elems e f then add_g (key f) (sf_index (sf_c f)) (groups e fs) else groups e fs.
Proof. unfold groups. now rewrite fold_left_app. Qed.

Lemma groups_ok e fs : gs_ok e fs (groups e fs).
Proof.
  induction fs as [|f fs IH] using rev_ind.
  - split; [constructor|]. split; intros ? [].
  - destruct IH as (ND & HM & HK). rewrite groups_snoc. destruct (in_elems e f) eqn:Ef.
    + split; [|split].
      * rewrite add_g_fst. destruct (in_dec K_dec (key f) (map fst (groups e fs))); auto. apply NoDup_snoc; auto.
      * intros g Hg. rewrite members_app, Ef. cbn [andb].
        destruct (add_g_in _ _ _ _ ND Hg) as [[A B]|(A & [(js & B & C)|(B & C)])].
        -- destruct (K_dec (key f) (fst g)) as [X|X]; [congruence|]. rewrite app_nil_r. auto.
        -- rewrite A. destruct (K_dec (key f) (key f)); [|congruence]. rewrite C. f_equal. apply (HM _ B).
        -- rewrite A. destruct (K_dec (key f) (key f)); [|congruence]. rewrite C, members_absent; auto.
           intros f' Hf' E' Hk. apply B. rewrite <- Hk. auto.
      * intros f' Hf' E'. rewrite add_g_fst. apply in_app_or in Hf'. destruct Hf' as [Hf'|[<-|[]]].
        -- destruct (in_dec K_dec _ _); auto. apply in_or_app. left. auto.
        -- destruct (in_dec K_dec _ _); auto. apply in_or_app. right. simpl; auto.
    + split; [auto|split].
      * intros g Hg. rewrite members_app, Ef. cbn [andb]. rewrite app_nil_r. auto.
      * intros f' Hf' E'. apply in_app_or in Hf'. destruct Hf' as [Hf'|[<-|[]]]; auto. congruence.
Qed.

(** ** Pruning *)
Definition shared (e : nat) (fs : list symfnc) : list (K * list nat) :=
  filter (fun g => Nat.ltb 1 (length (snd g))) (groups e fs).
Lemma prune_expand fs e : prune_lists K (collect K K_dec key numElements fs) e = expand e (shared e fs).
Proof.
  unfold prune_lists, shared. rewrite collect_groups. induction (groups e fs) as [|g gs IH]; auto.
  cbn [expand flat_map app filter snd]. fold (expand e gs).
  destruct (Nat.ltb 1 (length (snd g))); rewrite IH; reflexivity.
Qed.
Lemma expand_length e gs : length (expand e gs) = 2 * length gs.
Proof. induction gs; simpl; auto. fold (expand e gs). rewrite IHgs. lia. Qed.
Lemma filter_NoDup_fst (p : K * list nat -> bool) gs : NoDup (map fst gs) -> NoDup (map fst (filter p gs)).
Proof.
  induction gs as [|g gs IH]; simpl; intros H; auto. inversion H; subst. destruct (p g); auto. simpl. constructor; auto.
  intros X. apply H2. apply in_map_iff in X. destruct X as (y & E & Y). apply filter_In in Y. rewrite <- E.
  apply in_map. tauto.
Qed.
Lemma shared_twice e fs g : In g (shared e fs) -> (1 < length (snd g))%nat.
Proof. intros H. apply filter_In in H. apply Nat.ltb_lt. tauto. Qed.
Lemma shared_ok e fs : NoDup (map fst (shared e fs)) /\ forall g, In g (shared e fs) -> snd g = members e (fst g) fs.
Proof.
  destruct (groups_ok e fs) as (ND & HM & _). split.
  - apply filter_NoDup_fst. auto.
  - intros g Hg. apply filter_In in Hg. apply HM. tauto.
Qed.

(** ** Assignment of the indices *)
Section Assign.
Variable fs : list symfnc.
Hypothesis Hidx : forall j f, nth_error fs j = Some f -> sf_index (sf_c f) = j.

Lemma member_spec e k s : In s (members e k fs) -> exists f, nth_error fs s = Some f /\ in_elems e f = true /\ key f = k.
Proof.
  unfold members. intros H. apply in_map_iff in H. destruct H as (f & E & H). apply filter_In in H.
  destruct H as (H & P). apply andb_true_iff in P. destruct P as (P1 & P2).
  apply In_nth_error in H. destruct H as (j & Hj). assert (X := Hidx _ _ Hj). exists f.
  rewrite <- E, X. destruct (K_dec (key f) k); [auto|discriminate].
Qed.
Lemma member_intro e f s : nth_error fs s = Some f -> in_elems e f = true -> In s (members e (key f) fs).
Proof.
  intros H E. unfold members. apply in_map_iff. exists f. split; [apply Hidx; auto|]. apply filter_In.
  split; [eapply nth_error_In; eauto|]. rewrite E. destruct (K_dec (key f) (key f)); auto.
Qed.
Lemma members_nodup e k : NoDup (members e k fs).
Proof.
  unfold members.
  assert (X : NoDup (map (fun f => sf_index (sf_c f)) fs)).
  { assert (Y : map (fun f => sf_index (sf_c f)) fs = seq 0 (length fs)).
    { apply nth_ext with 0 0; [now rewrite map_length, seq_length|]. intros n Hn. rewrite map_length in Hn.
      rewrite seq_nth by auto. simpl. destruct (nth_error fs n) as [f|] eqn:E.
      - erewrite nth_error_nth with (x := sf_index (sf_c f)); [apply Hidx; auto|]. now rewrite nth_error_map, E.
      - apply nth_error_None in E. lia. }
    rewrite Y. apply seq_NoDup. }
  revert X. generalize (fun f => (in_elems e f && (if K_dec (key f) k then true else false))%bool). intros p.
  clear Hidx. induction fs as [|f l IH]; simpl; intros H; auto. inversion H; subst. destruct (p f); auto.
  simpl. constructor; auto. intros X. apply H2. apply in_map_iff in X. destruct X as (y & E & Y).
  apply filter_In in Y. rewrite <- E. apply in_map with (f := fun f => sf_index (sf_c f)). tauto.
Qed.

Lemma ids_at f e : in_elems e f = true ->
  filter (fun i => Nat.eqb (cid_element K i) e) (ids f) = [(e, false, key f); (e, true, key f)].
Proof.
  unfold in_elems. destruct (in_dec Nat.eq_dec e (elems f)) as [H|]; [|discriminate]. intros _.
  unfold identifiers. pose proof (elems_nodup f) as ND.
  assert (N : forall l, ~ In e l -> filter (fun i => Nat.eqb (cid_element K i) e)
      (flat_map (fun e => [(e, false, key f); (e, true, key f)]) l) = []).
  { induction l as [|x l IH]; intros X; auto. cbn [flat_map app filter cid_element fst].
    destruct (Nat.eqb_spec x e) as [->|]; [elim X; left; auto|]. apply IH. intros Y; apply X; right; auto. }
  induction (elems f) as [|x l IH]; [contradiction|]. inversion ND; subst.
  cbn [flat_map app filter cid_element fst]. destruct (Nat.eqb_spec x e) as [->|Ne].
  - rewrite N by auto. reflexivity.
  - destruct H as [|H]; [congruence|]. apply IH; auto.
Qed.

Notation tab := (nat -> nat -> list nat).
Notation addIdx := (addCacheIndex K K_dec key numElements fs).
(** One entry. *)
Lemma entry_ok e (b : bool) k c l : NoDup l ->
  (forall s, In s l -> exists f, nth_error fs s = Some f /\ in_elems e f = true /\ key f = k) ->
  forall t : tab, (forall s, In s l -> length (t s e) = if b then 1 else 0) ->
  exists t', ofold (addIdx e c (e, b, k)) l t = Some t' /\
    (forall s, In s l -> t' s e = t s e ++ [c]) /\
    (forall s e', e' <> e \/ ~ In s l -> t' s e' = t s e').
Proof.
  induction l as [|s l IH]; intros ND Hf t Ht.
  - exists t. simpl. repeat split; auto. intros s [].
  - inversion ND; subst. destruct (Hf s (or_introl eq_refl)) as (f & Ef & Ee & Ek).
    cbn [ofold]. unfold addCacheIndex at 1. rewrite Ef, (ids_at f e Ee), (Ht s (or_introl eq_refl)), Ek.
    set (t1 := upd t s (upd (t s) e (t s e ++ [c]))).
    match goal with |- context [match ?m with Some _ => ofold _ _ _ | None => None end] =>
      replace m with (Some t1) by (symmetry; destruct b; cbn [nth_error]; rewrite cid_eqb_refl; reflexivity) end.
    destruct (IH H2 ltac:(intros; apply Hf; right; auto) t1) as (t' & E & A & B).
    { intros s' Hs'. unfold t1. rewrite upd_other by (intros ->; contradiction). apply Ht. right; auto. }
    exists t'. split; auto. split.
    + intros s' [<-|Hs'].
      * rewrite (B s e) by auto. unfold t1. now rewrite !upd_same.
      * rewrite (A s' Hs'). unfold t1. rewrite upd_other by (intros ->; contradiction). reflexivity.
    + intros s' e' [N|N].
      * rewrite (B s' e') by auto. unfold t1. destruct (Nat.eq_dec s' s) as [->|Ns].
        -- rewrite upd_same, upd_other; auto.
        -- now rewrite upd_other.
      * rewrite (B s' e') by (right; intros Y; apply N; right; auto). unfold t1.
        rewrite upd_other; auto. intros ->. apply N; left; auto.
Qed.

(** All entries of one element. *)
Definition groups_good (e : nat) (gs : list (K * list nat)) : Prop :=
  NoDup (map fst gs) /\ forall g, In g gs -> snd g = members e (fst g) fs.
Lemma combine_seq_cons {A} o (x : A) l : List.combine (seq o (length (x :: l))) (x :: l) = (o, x) :: List.combine (seq (S o) (length l)) l.
Proof. reflexivity. Qed.

Notation element_pass := (ofold (fun (je : nat * entry) (t : tab) =>
   ofold (addIdx (cid_element K (fst (snd je))) (fst je) (fst (snd je))) (snd (snd je)) t)).
Lemma element_ok e gs : groups_good e gs -> forall o (t : tab),
  (forall g s, In g gs -> In s (snd g) -> t s e = []) ->
  exists t', element_pass (List.combine (seq o (length (expand e gs))) (expand e gs)) t = Some t' /\
    (forall q g s, nth_error gs q = Some g -> In s (snd g) -> t' s e = [o + 2 * q; o + 2 * q + 1]) /\
    (forall s, (forall g, In g gs -> ~ In s (snd g)) -> t' s e = t s e) /\
    (forall s e', e' <> e -> t' s e' = t s e').
Proof.
  induction gs as [|g gs IH]; intros [ND HM] o t Ht.
  - exists t. cbn. repeat split; auto. intros q g s H. destruct q; discriminate.
  - inversion ND as [|? ? Hn ND']; subst. cbn [map fst] in Hn.
    assert (Hg : forall s, In s (snd g) -> exists f, nth_error fs s = Some f /\ in_elems e f = true /\ key f = fst g).
    { intros s Hs. apply member_spec. rewrite <- HM by (left; auto). auto. }
    assert (NDg : NoDup (snd g)). { rewrite (HM g) by (left; auto). apply members_nodup. }
    cbn [expand flat_map app]. fold (expand e gs). rewrite !combine_seq_cons.
    cbn [ofold fst snd cid_element].
    destruct (entry_ok e false (fst g) o (snd g) NDg Hg t) as (t1 & E1 & A1 & B1).
    { intros s Hs. rewrite (Ht g s) by (simpl; auto). reflexivity. }
    destruct (entry_ok e true (fst g) (S o) (snd g) NDg Hg t1) as (t2 & E2 & A2 & B2).
    { intros s Hs. rewrite (A1 s Hs), (Ht g s) by (simpl; auto). reflexivity. }
    rewrite E1, E2.
    assert (Dj : forall g' s, In g' gs -> In s (snd g') -> ~ In s (snd g)).
    { intros g' s Hg' Hs Hs'. destruct (Hg s Hs') as (f & F1 & F2 & F3).
      rewrite (HM g') in Hs by (right; auto). destruct (member_spec _ _ _ Hs) as (f' & F1' & F2' & F3').
      rewrite F1 in F1'. injection F1' as <-. apply Hn. rewrite <- F3, F3'. now apply in_map. }
    destruct (IH (conj ND' (fun g' H => HM g' (or_intror H))) (S (S o)) t2) as (t' & E & P & Q & R').
    { intros g' s Hg' Hs. assert (N := Dj _ _ Hg' Hs). rewrite B2, B1 by auto. apply (Ht g' s); [right; auto|auto]. }
    exists t'. split; [exact E|]. split; [|split].
    + intros q g' s Hq Hs. destruct q.
      * injection Hq as <-. rewrite Q.
        -- rewrite (A2 s Hs), (A1 s Hs), (Ht g s) by (simpl; auto). simpl. f_equal; [lia|]. f_equal. lia.
        -- intros g' Hg' X. exact (Dj _ _ Hg' X Hs).
      * rewrite (P q g' s Hq Hs). f_equal; [lia|]. f_equal. lia.
    + intros s Hs. rewrite Q by (intros; apply Hs; right; auto). rewrite B2, B1; auto; right; apply Hs; left; auto.
    + intros s e' Ne. rewrite R', B2, B1; auto.
Qed.

(** All elements. *)
Lemma elements_ok es : NoDup es -> forall (lists : nat -> list entry) (G : nat -> list (K * list nat)) (t : tab),
  (forall e, In e es -> lists e = expand e (G e) /\ groups_good e (G e)) ->
  (forall s e, In e es -> t s e = []) ->
  exists t', ofold (fun i t => element_pass (List.combine (seq 0 (length (lists i))) (lists i)) t) es t = Some t' /\
    (forall e q g s, In e es -> nth_error (G e) q = Some g -> In s (snd g) -> t' s e = [2 * q; 2 * q + 1]) /\
    (forall e s, In e es -> (forall g, In g (G e) -> ~ In s (snd g)) -> t' s e = []) /\
    (forall e s, ~ In e es -> t' s e = t s e).
Proof.
  induction es as [|e es IH]; intros ND lists G t HG Ht.
  - exists t. split; [reflexivity|]. split; [intros e q g s []|]. split; [intros e s []|auto].
  - inversion ND; subst. destruct (HG e (or_introl eq_refl)) as (El & Hg).
    destruct (element_ok e (G e) Hg 0 t) as (t1 & E1 & P1 & Q1 & R1). { intros; apply Ht; left; auto. }
    destruct (IH H2 lists G t1) as (t' & E & P & Q & R').
    + intros e' He'. apply HG. right; auto.
    + intros s e' He'. rewrite R1 by (intros ->; contradiction). apply Ht. right; auto.
    + exists t'. cbn [ofold]. rewrite El, E1. split; [exact E|]. split; [|split].
      * intros e' q g s [<-|He'] Hq Hs; [rewrite R' by auto; apply (P1 q g s Hq Hs)|eauto].
      * intros e' s [<-|He'] Hs; [|eauto]. rewrite R', Q1 by auto. apply Ht. left; auto.
      * intros e' s N. rewrite R', R1; auto; intros X; apply N; subst; simpl; auto.
Qed.
End Assign.

(** ** The set-up *)
Lemma combine_nth_seq {A} (l : list A) j x : nth_error l j = Some x -> nth_error (List.combine (seq 0 (length l)) l) j = Some (j, x).
Proof.
  assert (H : forall o j, nth_error l j = Some x -> nth_error (List.combine (seq o (length l)) l) j = Some (o + j, x)).
  { induction l as [|y l IH]; intros o i; [destruct i; discriminate|]. destruct i; simpl.
    - intros [= ->]. rewrite Nat.add_0_r. auto.
    - intros E. rewrite (IH (S o) i E). do 2 f_equal. lia. }
  apply (H 0).
Qed.

Theorem setup_slots fs : numbered fs -> (forall f, In f fs -> no_slots f) ->
  exists fs' sizes, setupCache K K_dec key numElements fs = Some (fs', sizes) /\
    length fs' = length fs /\
    (forall e, sizes e = 2 * length (shared e fs)) /\
    (forall e q g s, e < numElements -> nth_error (shared e fs) q = Some g -> In s (snd g) ->
       exists f', nth_error fs' s = Some f' /\ sf_ci (sf_c f') e = [2 * q; 2 * q + 1]) /\
    forall j f', nth_error fs' j = Some f' -> exists f ci, nth_error fs j = Some f /\ f' = with_ci ci f /\
      forall e, ci e = [] \/
        exists q g, ci e = [2 * q; 2 * q + 1] /\ nth_error (shared e fs) q = Some g /\ fst g = key f /\ in_elems e f = true /\
          e < numElements /\ In j (snd g).
Proof.
  intros Hidx Hci. unfold setupCache.
  set (lists := prune_lists K (collect K K_dec key numElements fs)).
  set (t0 := fun s => match nth_error fs s with Some f => sf_ci (sf_c f) | None => fun _ => [] end).
  assert (T0 : forall s e, t0 s e = []).
  { intros s e. unfold t0. destruct (nth_error fs s) as [f|] eqn:E; auto. apply Hci. eapply nth_error_In; eauto. }
  destruct (elements_ok fs Hidx (seq 0 numElements) (seq_NoDup _ _) lists (fun e => shared e fs) t0) as (t' & E & P & Q & R').
  { intros e _. split; [apply prune_expand|]. apply shared_ok. }
  { intros; apply T0. }
  assert (E' : setCacheIndices K K_dec key numElements fs lists t0 = Some t') by exact E.
  rewrite E'. do 2 eexists. split; [reflexivity|]. split; [|split; [|split]].
  - rewrite map_length, combine_length, seq_length. lia.
  - intros e. unfold lists. rewrite prune_expand. apply expand_length.
  - intros e q g s He Hq Hs. assert (Hg := nth_error_In _ _ Hq).
    assert (Hs' := Hs). rewrite (proj2 (shared_ok e fs) g Hg) in Hs'.
    destruct (member_spec fs Hidx _ _ _ Hs') as (f & F1 & _).
    exists (with_ci (t' s) f). split.
    + now rewrite nth_error_map, (combine_nth_seq _ _ _ F1).
    + apply (P e q g s); auto. apply in_seq. lia.
  - intros j f' Hj. rewrite nth_error_map in Hj.
    destruct (nth_error fs j) as [f|] eqn:Ef.
    + rewrite (combine_nth_seq _ _ _ Ef) in Hj. injection Hj as <-. exists f, (t' j). split; auto. split; auto.
      intros e. destruct (in_dec Nat.eq_dec e (seq 0 numElements)) as [I|I]; [|left; rewrite R', T0; auto].
      destruct (in_elems e f) eqn:Ee.
      * (* is its group shared? *)
        destruct (in_dec K_dec (key f) (map fst (shared e fs))) as [Hk|Hk].
        -- right. apply in_map_iff in Hk. destruct Hk as (g & Eg & Hg). destruct (In_nth_error _ _ Hg) as (q & Hq).
           assert (Hs : In j (snd g)).
           { rewrite (proj2 (shared_ok e fs) g Hg), Eg. apply (member_intro fs Hidx); auto. }
           exists q, g. split; [apply (P e q g j I Hq Hs)|]. apply in_seq in I. repeat split; auto. lia.
        -- left. apply Q; auto. intros g Hg Hs. apply Hk.
           rewrite (proj2 (shared_ok e fs) g Hg) in Hs. destruct (member_spec fs Hidx _ _ _ Hs) as (f2 & F1 & _ & F3).
           rewrite Ef in F1. injection F1 as <-. rewrite F3. now apply in_map.
      * left. apply Q; auto. intros g Hg Hs.
        rewrite (proj2 (shared_ok e fs) g Hg) in Hs. destruct (member_spec fs Hidx _ _ _ Hs) as (f2 & F1 & F2 & F3).
        rewrite Ef in F1. injection F1 as <-. congruence.
    + exfalso. assert (X : (j < length (List.combine (seq 0 (length fs)) fs))%nat).
      { apply nth_error_Some. destruct (nth_error (List.combine (seq 0 (length fs)) fs) j); [discriminate|discriminate]. }
      rewrite combine_length, seq_length in X. apply nth_error_None in Ef. lia.
Qed.

(** The assignment of functions to slots made by the set-up. *)
Definition setup_asg (fs : list symfnc) : assignment := fun e c0 c1 F =>
  exists q g f, nth_error (shared e fs) q = Some g /\ c0 = 2 * q /\ c1 = 2 * q + 1 /\
    In f fs /\ key f = fst g /\ F = cached_function (sf_kind f).
Lemma setup_asg_consistent fs :
  (forall f g, In f fs -> In g fs -> key f = key g ->
     forall r, cached_function (sf_kind f) r = cached_function (sf_kind g) r) ->
  consistent (setup_asg fs).
Proof.
  intros Hk e c0 c1 F d0 d1 H (q & g & f & Hq & -> & -> & Hf & Kf & ->) (q' & g' & f' & Hq' & -> & -> & Hf' & Kf' & ->).
  split; [lia|]. destruct (Nat.eq_dec q q') as [<-|N].
  - left. split; auto. split; auto. intros r. apply Hk; auto. rewrite Hq in Hq'. injection Hq' as <-. congruence.
  - right. lia.
Qed.
End CacheProofs.
