(** Proofs about sorting, grouping and the derivative memory. *)
From Coq Require Import Reals Lra Lia ZArith Bool Arith Permutation Sorted.
From Coquelicot Require Import Coquelicot.
From Coq Require Import List.
From Verif Require Import Base.Vec3 Base.SumR Base.Loop Model.CoreFunction Model.CutoffFunction Model.CompactScreening
  Model.Strings Model.Scaling Model.NeighborList Model.SymFunctions Model.SymSetup
  Spec.CompactSpec Spec.SymSpec Spec.SetupSpec Proofs.SymEval Proofs.SymGrad Proofs.SymAll Proofs.SymInv Proofs.SymApi.
Import ListNotations.
Local Open Scope R_scope.

(** ** Order *)
Lemma lex_irrefl a : lexlt a a = false.
Proof. induction a as [|x a IH]; auto. cbn. destruct (Rlt_dec x x); [lra|exact IH]. Qed.
Lemma lex_trans a : forall b c, lexlt a b = true -> lexlt b c = true -> lexlt a c = true.
Proof.
  induction a as [|x a IH]; intros [|y b] [|z c]; cbn; try discriminate.
  destruct (Rlt_dec x y), (Rlt_dec y z), (Rlt_dec x z); auto; try lra; repeat (destruct (Rlt_dec _ _)); auto; try discriminate; try lra.
  apply IH.
Qed.
Lemma lex_incomparable a : forall b, length a = length b -> lexlt a b = false -> lexlt b a = false -> a = b.
Proof.
  induction a as [|x a IH]; intros [|y b]; cbn; try discriminate; auto. intros E.
  destruct (Rlt_dec x y), (Rlt_dec y x); try discriminate; try lra. intros A B. f_equal; [lra|]. apply IH; auto.
Qed.
Lemma INR_eq a b : INR a = INR b -> a = b. Proof. apply INR_eq. Qed.
Lemma key_length k l : type_number k = type_number l -> length (sort_key k) = length (sort_key l).
Proof. destruct k, l; cbn; try discriminate; auto. Qed.
Lemma key_incomparable k l : lexlt (sort_key k) (sort_key l) = false -> lexlt (sort_key l) (sort_key k) = false ->
  sort_key k = sort_key l.
Proof.
  intros A B. apply lex_incomparable; auto. apply key_length. unfold sort_key in A, B. cbn [lexlt] in A, B.
  destruct (Rlt_dec _ _) in A; [discriminate|]. destruct (Rlt_dec _ _) in B; [discriminate|].
  apply INR_eq. lra.
Qed.
Theorem sf_lt_order : strict_weak_order (fun _ => True) sf_lt.
Proof.
  split; [|split]; unfold sf_lt.
  - intros x _. apply lex_irrefl.
  - intros x y z _ _ _. apply lex_trans.
  - intros x y z _ _ _ A B C D. rewrite (key_incomparable _ _ A B). auto.
Qed.

Lemma list_nth_ext {A} (l l' : list A) : (forall j, nth_error l j = nth_error l' j) -> l = l'.
Proof.
  revert l'. induction l as [|x l IH]; intros [|y l'] H; auto; try (specialize (H 0%nat); discriminate).
  f_equal; [specialize (H 0%nat); injection H; auto|]. apply IH. intros j. exact (H (S j)).
Qed.
Lemma map_index (fs : list symfnc) : forall i j, nth_error (map (fun x => set_index (fst x) (snd x)) (List.combine (seq i (length fs)) fs)) j =
  option_map (set_index (i + j)) (nth_error fs j).
Proof.
  induction fs as [|f r IH]; intros i [|j]; cbn; auto. { now rewrite Nat.add_0_r. }
  rewrite IH. now rewrite Nat.add_succ_r.
Qed.
Lemma sort_nth sort fs : Permutation fs (sort fs) -> forall j,
  nth_error (sortSymmetryFunctions sort fs) j = option_map (set_index j) (nth_error (sort fs) j).
Proof. intros P j. unfold sortSymmetryFunctions. rewrite (Permutation_length P). apply (map_index (sort fs) 0). Qed.
Lemma sort_length sort fs : Permutation fs (sort fs) -> length (sortSymmetryFunctions sort fs) = length fs.
Proof.
  intros P. unfold sortSymmetryFunctions. rewrite map_length, combine_length, seq_length.
  rewrite <- (Permutation_length P). apply Nat.min_id.
Qed.
Lemma sort_kinds sort fs : Permutation fs (sort fs) -> map sf_kind (sortSymmetryFunctions sort fs) = map sf_kind (sort fs).
Proof.
  intros P. apply list_nth_ext. intros j. rewrite !nth_error_map, (sort_nth sort fs P).
  destruct (nth_error (sort fs) j); reflexivity.
Qed.

Lemma sort_numbered sort fs : Permutation fs (sort fs) -> numbered (sortSymmetryFunctions sort fs).
Proof.
  intros P j f. rewrite (sort_nth sort fs P). destruct (nth_error (sort fs) j); [|discriminate].
  intros E. injection E as <-. reflexivity.
Qed.

Lemma sorted_unique {A} (le : A -> A -> Prop) : forall l l', Permutation l l' ->
  (forall x y, In x l -> In y l -> le x y -> le y x -> x = y) ->
  StronglySorted le l -> StronglySorted le l' -> l = l'.
Proof.
  induction l as [|x l IH]; intros l' P An S S'. { symmetry. now apply Permutation_nil. }
  destruct l' as [|y l']. { apply Permutation_sym, Permutation_nil in P. discriminate. }
  assert (E : x = y).
  { destruct (Permutation_in x P (or_introl eq_refl)) as [->|Hx]; auto.
    assert (Hy : In y (x :: l)) by (apply (Permutation_in y (Permutation_sym P)); now left).
    destruct Hy as [->|Hy]; auto. apply An; [now left|now right| |].
    - apply StronglySorted_inv in S. destruct S as (_ & F). rewrite Forall_forall in F. now apply F.
    - apply StronglySorted_inv in S'. destruct S' as (_ & F). rewrite Forall_forall in F. now apply F. }
  subst y. f_equal. apply IH.
  - eapply Permutation_cons_inv; eauto.
  - intros a b Ha Hb. apply An; now right.
  - now apply StronglySorted_inv in S.
  - now apply StronglySorted_inv in S'.
Qed.
Lemma sorted_keys fs : StronglySorted (fun x y => sf_lt y x = false) fs ->
  StronglySorted (fun a b => lexlt b a = false) (map (fun f => sort_key (sf_kind f)) fs).
Proof.
  induction 1 as [|f r S IH F]; cbn; constructor; auto. rewrite Forall_map. eapply Forall_impl; [|exact F]. auto.
Qed.
Theorem sort_order_independent sort sort' fs fs' : sorts sf_lt sort -> sorts sf_lt sort' -> Permutation fs fs' ->
  map (fun f => sort_key (sf_kind f)) (sort fs) = map (fun f => sort_key (sf_kind f)) (sort' fs').
Proof.
  intros H H' P. destruct (H fs) as (P1 & S1). destruct (H' fs') as (P2 & S2).
  apply (sorted_unique (fun a b => lexlt b a = false)).
  - apply Permutation_map. rewrite <- P1, <- P2. exact P.
  - intros x y Hx Hy A B. apply in_map_iff in Hx, Hy. destruct Hx as (f & <- & _), Hy as (g & <- & _).
    now apply key_incomparable.
  - now apply sorted_keys.
  - now apply sorted_keys.
Qed.

(** ** Groups *)
Lemma eqR_iff x y : eqR x y = true <-> x = y.
Proof. unfold eqR. destruct (Req_EM_T x y); split; auto; discriminate. Qed.
Lemma cutoff_eqb_iff x y : cutoff_eqb x y = true <-> x = y.
Proof. unfold cutoff_eqb. rewrite Nat.eqb_eq. destruct x, y; cbn; split; intros; auto; discriminate. Qed.
Lemma fc_eqb_iff x y : fc_eqb x y = true <-> cf_type x = cf_type y /\ cf_alpha x = cf_alpha y.
Proof. unfold fc_eqb. now rewrite andb_true_iff, cutoff_eqb_iff, eqR_iff. Qed.
Lemma addMember_iff k l : addMember k l = true <-> groupable k l.
Proof.
  destruct k, l; cbn [addMember groupable]; try (split; [discriminate|intros []]); unfold common_cutoff;
  rewrite ?andb_true_iff, ?fc_eqb_iff, ?eqR_iff, ?Nat.eqb_eq; intuition auto.
Qed.
Lemma groupable_refl k : groupable k k.
Proof. destruct k; cbn; unfold common_cutoff; auto. Qed.
Lemma groupable_sym k l : groupable k l -> groupable l k.
Proof. destruct k, l; cbn; unfold common_cutoff; intuition auto. Qed.
Lemma groupable_trans k l m : groupable k l -> groupable l m -> groupable k m.
Proof. destruct k, l, m; cbn; unfold common_cutoff; try contradiction; intuition (try congruence; auto). Qed.

Definition group_ok (g : list symfnc) : Prop := g <> [] /\ forall f h, In f g -> In h g -> groupable (sf_kind f) (sf_kind h).
Definition groups_ok (gs : list (list symfnc)) : Prop :=
  (forall g, In g gs -> group_ok g) /\
  ForallOrdPairs (fun g h => forall x y, In x g -> In y h -> ~ groupable (sf_kind x) (sf_kind y)) gs.

Lemma place_in f gs g : In g (place f gs) -> (exists h, In h gs /\ h <> [] /\ g = h ++ [f]) \/ In g gs \/ g = [f].
Proof.
  induction gs as [|[|f0 m] r IH]; cbn.
  - intros [<-|[]]. auto.
  - intros [<-|H]; auto.
  - destruct (addMember _ _).
    + intros [<-|H]; auto. left. exists (f0 :: m). split; [now left|]. split; [discriminate|reflexivity].
    + intros [<-|H]; auto. destruct (IH H) as [(h & A & B)|[A|A]]; eauto.
Qed.
Lemma place_perm f gs : Permutation (concat (place f gs)) (f :: concat gs).
Proof.
  induction gs as [|[|f0 m] r IH]; cbn; auto. destruct (addMember _ _); cbn.
  - rewrite <- app_assoc. apply Permutation_sym. eapply perm_trans; [apply perm_swap|]. constructor. cbn.
    apply Permutation_middle.
  - rewrite IH. apply Permutation_sym. eapply perm_trans; [apply perm_swap|]. constructor. apply Permutation_middle.
Qed.
Lemma place_members f gs g x : In g (place f gs) -> In x g -> x = f \/ exists h, In h gs /\ In x h.
Proof.
  intros Hg Hx. destruct (place_in f gs g Hg) as [(h & A & B & ->)|[A| ->]]; eauto.
  - apply in_app_iff in Hx. destruct Hx as [Hx|[<-|[]]]; eauto.
  - destruct Hx as [<-|[]]; auto.
Qed.
Lemma place_ok f gs : groups_ok gs -> groups_ok (place f gs).
Proof.
  induction gs as [|[|f0 m] r IH]; intros (G & O).
  - split; [|constructor; constructor]. intros g [<-|[]]. split; [discriminate|].
    intros x y [<-|[]] [<-|[]]. apply groupable_refl.
  - destruct (G [] (or_introl eq_refl)) as (N & _). contradiction.
  - inversion O as [|? ? F O']; subst. cbn [place].
    assert (GF := G _ (or_introl eq_refl)). destruct GF as (_ & GF).
    destruct (addMember (sf_kind f0) (sf_kind f)) eqn:E.
    + apply addMember_iff in E. split.
      * intros g [<-|Hg]; [|apply G; now right]. split; [discriminate|].
        assert (Q : forall x, In x (f0 :: m ++ [f]) -> groupable (sf_kind f0) (sf_kind x)).
        { intros x [<-|Hx]; [apply groupable_refl|]. apply in_app_iff in Hx. destruct Hx as [Hx|[<-|[]]]; auto.
          apply GF; [now left|now right]. }
        intros x y Hx Hy. eapply groupable_trans; [apply groupable_sym, Q; auto|auto].
      * constructor; auto. rewrite Forall_forall in *. intros h Hh x y Hx Hy.
        destruct Hx as [<-|Hx]. { apply (F h Hh); auto. now left. }
        apply in_app_iff in Hx. destruct Hx as [Hx|[<-|[]]]. { apply (F h Hh); auto. now right. }
        intros Q. apply (F h Hh f0 y); [now left|auto|]. eapply groupable_trans; eauto.
    + assert (NE : ~ groupable (sf_kind f0) (sf_kind f)) by (rewrite <- addMember_iff; congruence).
      destruct IH as (G' & O''). { split; auto. intros g Hg. apply G. now right. }
      split; [intros g [<-|Hg]; auto; apply G; now left|]. constructor; auto.
      rewrite Forall_forall in *. intros h Hh x y Hx Hy.
      destruct (place_members f r h y Hh Hy) as [->|(h' & A & B)]; [|exact (F h' A x y Hx B)].
      intros Q. apply NE. eapply groupable_trans; [|exact Q]. apply GF; [now left|exact Hx].
Qed.

Lemma fold_place fs : forall gs, groups_ok gs ->
  groups_ok (fold_left (fun gs f => place f gs) fs gs) /\
  Permutation (concat (fold_left (fun gs f => place f gs) fs gs)) (fs ++ concat gs).
Proof.
  induction fs as [|f r IH]; intros gs H; cbn [fold_left app]; [auto|].
  destruct (IH (place f gs) (place_ok f gs H)) as (A & B). split; auto.
  rewrite B, place_perm. apply Permutation_sym, Permutation_middle.
Qed.

Lemma concat_perm {A} (gs gs' : list (list A)) : Permutation gs gs' -> Permutation (concat gs) (concat gs').
Proof.
  induction 1; cbn; auto.
  - now apply Permutation_app_head.
  - rewrite !app_assoc. now apply Permutation_app_tail, Permutation_app_comm.
  - etransitivity; eauto.
Qed.
Lemma concat_map_perm {A} (m : list A -> list A) gs : (forall g, Permutation g (m g)) ->
  Permutation (concat gs) (concat (map m gs)).
Proof. intros H. induction gs as [|g r IH]; cbn; auto. apply Permutation_app; auto. Qed.
Lemma pairs_perm {A} (R : A -> A -> Prop) l l' : (forall x y, R x y -> R y x) -> Permutation l l' ->
  ForallOrdPairs R l -> ForallOrdPairs R l'.
Proof.
  intros Sy. induction 1 as [|x l l' P IH|x y l|l l' l'' P IH P' IH']; intros F; auto.
  - inversion F as [|? ? F1 F2]; subst. constructor; auto. eapply Permutation_Forall; eauto.
  - inversion F as [|? ? F1 F2]; subst. inversion F2 as [|? ? F3 F4]; subst. inversion F1; subst.
    constructor; [|constructor; auto]. constructor; auto.
Qed.
Lemma pairs_nth {A} (R : A -> A -> Prop) l : ForallOrdPairs R l -> (forall x y, R x y -> R y x) ->
  forall i j x y, i <> j -> nth_error l i = Some x -> nth_error l j = Some y -> R x y.
Proof.
  intros F Sy. induction F as [|z l F1 F2 IH]; intros [|i] [|j] x y N Hi Hj; try discriminate; try congruence; cbn in *.
  - injection Hi as <-. rewrite Forall_forall in F1. apply F1. eapply nth_error_In; eauto.
  - injection Hj as <-. rewrite Forall_forall in F1. apply Sy, F1. eapply nth_error_In; eauto.
  - apply (IH i j); auto.
Qed.

Theorem groups_partition gsort msort fs : (forall l, Permutation l (gsort l)) -> (forall l, Permutation l (msort l)) ->
  let gs := setupGroups gsort msort fs in
  Permutation fs (concat gs) /\
  (forall g, In g gs -> g <> []) /\
  (forall g x y, In g gs -> In x g -> In y g -> groupable (sf_kind x) (sf_kind y)) /\
  (forall i j g h x y, i <> j -> nth_error gs i = Some g -> nth_error gs j = Some h -> In x g -> In y h ->
     ~ groupable (sf_kind x) (sf_kind y)).
Proof.
  intros Pg Pm gs. unfold gs, setupGroups.
  destruct (fold_place fs []) as ((G & O) & P). { split; [intros g []|constructor]. }
  cbn [concat] in P. rewrite app_nil_r in P.
  set (g0 := fold_left (fun gs f => place f gs) fs []) in *.
  assert (IN : forall g, In g (map msort (gsort g0)) -> exists h, In h g0 /\ Permutation h g).
  { intros g Hg. apply in_map_iff in Hg. destruct Hg as (h & <- & Hh). exists h. split; [|apply Pm].
    apply (Permutation_in h (Permutation_sym (Pg g0)) Hh). }
  split; [|split; [|split]].
  - rewrite <- P. rewrite (concat_perm _ _ (Pg g0)). now apply concat_map_perm.
  - intros g Hg. destruct (IN g Hg) as (h & A & B). intros ->. apply Permutation_sym, Permutation_nil in B. subst h.
    destruct (G [] A) as (N & _). contradiction.
  - intros g x y Hg Hx Hy. destruct (IN g Hg) as (h & A & B). destruct (G h A) as (_ & Q).
    apply Q; apply (Permutation_in _ (Permutation_sym B)); auto.
  - intros i j g h x y Hij Hi Hj Hx Hy.
    rewrite nth_error_map in Hi, Hj.
    destruct (nth_error (gsort g0) i) as [gi|] eqn:Ei; [|discriminate].
    destruct (nth_error (gsort g0) j) as [gj|] eqn:Ej; [|discriminate].
    injection Hi as <-. injection Hj as <-.
    assert (O' := pairs_perm _ _ _ (fun g h (H : forall x y, In x g -> In y h -> ~ groupable (sf_kind x) (sf_kind y))
       x y Hx Hy Q => H y x Hy Hx (groupable_sym _ _ Q)) (Pg g0) O).
    assert (Q := pairs_nth _ _ O' (fun g h (H : forall x y, In x g -> In y h -> ~ groupable (sf_kind x) (sf_kind y))
       x y Hx Hy Q => H y x Hy Hx (groupable_sym _ _ Q)) i j gi gj Hij Ei Ej).
    apply Q; apply (Permutation_in _ (Permutation_sym (Pm _))); auto.
Qed.

(** ** Derivative memory *)
Lemma relevant_depends k i : checkRelevantElement k i = depends k i.
Proof. destruct k; cbn; auto; destruct (i =? _)%nat; auto. Qed.
(** The function with new entries of indexPerElement. *)
Definition with_per (g : nat -> nat) (f : symfnc) : symfnc :=
  mkSF (mkCommon (sf_index (sf_c f)) g (sf_ci (sf_c f)) (sf_scaling (sf_c f))) (sf_kind f).

Lemma register_spec N f table : exists g table', register_memory N f table = (with_per g f, table') /\
  (forall i, table' i = if (Nat.ltb i N && depends (sf_kind f) i)%bool then table i ++ [sf_index (sf_c f)] else table i) /\
  (forall i, g i = if (Nat.ltb i N && depends (sf_kind f) i)%bool then length (table i) else sf_perElement (sf_c f) i).
Proof.
  unfold register_memory. induction N as [|N IH].
  { exists (sf_perElement (sf_c f)), table. split; [now destruct f as [[] ?]|]. split; reflexivity. }
  destruct IH as (g & table' & E & T & P). rewrite seq_S, fold_left_app, E. cbn [fold_left Nat.add].
  assert (LT : forall i, i <> N -> Nat.ltb i (S N) = Nat.ltb i N).
  { intros i Hi. destruct (Nat.ltb_spec i N), (Nat.ltb_spec i (S N)); auto; lia. }
  assert (LN : Nat.ltb N (S N) = true) by (apply Nat.ltb_lt; lia).
  assert (LN' : Nat.ltb N N = false) by (apply Nat.ltb_ge; lia).
  rewrite relevant_depends. cbn [sf_kind with_per]. destruct (depends (sf_kind f) N) eqn:D.
  - exists (upd g N (length (table' N))), (upd table' N (table' N ++ [sf_index (sf_c f)])). split; [reflexivity|].
    rewrite T, LN'. cbn [andb]. split; intros i; destruct (Nat.eq_dec i N) as [->|Hi].
    + rewrite upd_same, LN, D. reflexivity.
    + rewrite upd_other, LT by auto. apply T.
    + rewrite upd_same, LN, D. reflexivity.
    + rewrite upd_other, LT by auto. apply P.
  - exists g, table'. split; [reflexivity|]. split; intros i; destruct (Nat.eq_dec i N) as [->|Hi].
    + rewrite T, D, !andb_false_r. reflexivity.
    + rewrite LT by auto. apply T.
    + rewrite P, D, !andb_false_r. reflexivity.
    + rewrite LT by auto. apply P.
Qed.

(** The set-up function by function; [before] are the functions registered so far. *)
Definition users (i : nat) (fs : list symfnc) : list symfnc := filter (fun f => depends (sf_kind f) i) fs.
Definition indices (fs : list symfnc) : list nat := map (fun f => sf_index (sf_c f)) fs.

Lemma memory_fold N fs : forall before done table,
  (forall i, (i < N)%nat -> table i = indices (users i before)) ->
  exists fs' table', fold_left (fun st f => let (done, table) := (st : list symfnc * (nat -> list nat)) in
                           let (f', table') := register_memory N f table in (done ++ [f'], table')) fs (done, table)
      = (done ++ fs', table') /\
    (forall i, (i < N)%nat -> table' i = indices (users i (before ++ fs))) /\
    length fs' = length fs /\
    forall j f, nth_error fs j = Some f -> exists g, nth_error fs' j = Some (with_per g f) /\
      forall i, g i = if (Nat.ltb i N && depends (sf_kind f) i)%bool
                      then length (users i (before ++ firstn j fs)) else sf_perElement (sf_c f) i.
Proof.
  induction fs as [|f r IH]; intros before done table T; cbn [fold_left].
  { exists [], table. rewrite app_nil_r. split; auto. split; [now rewrite app_nil_r|]. split; auto. intros [|j] ? ?; discriminate. }
  destruct (register_spec N f table) as (g & table' & E & T' & P). rewrite E.
  destruct (IH (before ++ [f]) (done ++ [with_per g f]) table') as (fs' & table'' & E' & T'' & L & F).
  { intros i Hi. rewrite T'. apply Nat.ltb_lt in Hi as Hb. rewrite Hb, (T i Hi). unfold users, indices.
    rewrite filter_app, map_app. cbn. destruct (depends (sf_kind f) i); cbn; now rewrite ?app_nil_r. }
  exists (with_per g f :: fs'), table''. rewrite E', <- app_assoc. split; auto.
  split; [intros i Hi; rewrite (T'' i Hi), <- app_assoc; auto|]. split; [cbn; auto|].
  intros [|j] h; cbn [nth_error].
  - intros X. injection X as <-. exists g. split; auto. intros i. rewrite P. cbn [firstn]. rewrite app_nil_r.
    destruct (Nat.ltb_spec i N); auto. rewrite (T i) by auto. unfold indices. now rewrite map_length.
  - intros X. destruct (F j h X) as (g' & A & B). exists g'. split; auto. intros i. rewrite B.
    cbn [firstn]. now rewrite <- app_assoc.
Qed.

Theorem memory_setup N fs : exists fs' table nums, setupMemory N fs = (fs', table, nums) /\
  length nums = N /\ length fs' = length fs /\
  (forall i, (i < N)%nat -> nth_error nums i = Some (length (table i)) /\ table i = indices (users i fs)) /\
  forall j f, nth_error fs j = Some f -> exists g, nth_error fs' j = Some (with_per g f) /\
    forall i, g i = if (Nat.ltb i N && depends (sf_kind f) i)%bool then length (users i (firstn j fs)) else sf_perElement (sf_c f) i.
Proof.
  destruct (memory_fold N fs [] [] (fun _ => [])) as (fs' & table & E & T & L & F). { reflexivity. }
  unfold setupMemory. rewrite E. exists fs', table, (map (fun i => length (table i)) (seq 0 N)).
  split; auto. split; [now rewrite map_length, seq_length|]. split; auto. split.
  - intros i Hi. split; [|now apply T]. rewrite nth_error_map.
    rewrite (nth_error_nth' _ 0%nat) by now rewrite seq_length. rewrite seq_nth by auto. reflexivity.
  - intros j f Hj. destruct (F j f Hj) as (g & A & B). eauto.
Qed.

Lemma users_position i fs j f : nth_error fs j = Some f -> depends (sf_kind f) i = true ->
  nth_error (users i fs) (length (users i (firstn j fs))) = Some f.
Proof.
  revert j. induction fs as [|h r IH]; intros [|j]; cbn [nth_error]; try discriminate.
  - intros E D. injection E as ->. cbn. rewrite D. reflexivity.
  - intros E D. cbn. destruct (depends (sf_kind h) i); cbn; apply IH; auto.
Qed.
Lemma users_before i fs j j' f : (j < j')%nat -> nth_error fs j = Some f -> depends (sf_kind f) i = true ->
  (length (users i (firstn j fs)) < length (users i (firstn j' fs)))%nat.
Proof.
  revert j j'. induction fs as [|h r IH]; intros [|j] [|j']; cbn [nth_error firstn]; try discriminate; try lia.
  - intros _ E D. injection E as ->. cbn. rewrite D. cbn. lia.
  - intros L E D. cbn. assert (X := IH j j' ltac:(lia) E D). unfold users in *. destruct (depends (sf_kind h) i); cbn; lia.
Qed.

Lemma indices_increasing fs i : forall b, (forall j f, nth_error fs j = Some f -> sf_index (sf_c f) = (b + j)%nat) ->
  StronglySorted lt (indices (users i fs)) /\ (forall x, In x (indices (users i fs)) -> (b <= x)%nat).
Proof.
  induction fs as [|f r IH]; intros b H; cbn. { split; [constructor|intros x []]. }
  destruct (IH (S b)) as (A & B). { intros j g Hj. rewrite (H (S j) g Hj). lia. }
  assert (E := H 0%nat f eq_refl). destruct (depends (sf_kind f) i); cbn.
  - split; [constructor; auto; apply Forall_forall; intros x Hx; specialize (B x Hx); lia|].
    intros x [<-|Hx]; [lia|specialize (B x Hx); lia].
  - split; auto. intros x Hx. specialize (B x Hx). lia.
Qed.

(** ** Several functions share the tables without clashes *)
Lemma vec_dec (x y : vec) : x = y \/ x <> y.
Proof.
  destruct x as [a0 b0 c0], y as [a1 b1 c1]. destruct (Req_dec a0 a1) as [->|N]; [|right; congruence].
  destruct (Req_dec b0 b1) as [->|N]; [|right; congruence]. destruct (Req_dec c0 c1) as [->|N]; [left; auto|right; congruence].
Qed.
Lemma vsum_single {A} (g : A -> vec) l j x : nth_error l j = Some x ->
  (forall i y, i <> j -> nth_error l i = Some y -> g y = vzero) -> vsum (map g l) = g x.
Proof.
  revert j. induction l as [|y l IH]; intros [|j]; cbn [nth_error]; try discriminate.
  - intros E H. injection E as ->. cbn. assert (X : vsum (map g l) = vzero).
    { assert (H' : forall i z, nth_error l i = Some z -> g z = vzero) by (intros i z Hz; apply (H (S i)); auto).
      clear -H'. induction l as [|z l IH]; auto. cbn. rewrite (H' 0%nat z eq_refl), IH; [vring|].
      intros i w Hw. exact (H' (S i) w Hw). }
    rewrite X. vring.
  - intros E H. cbn. rewrite (H 0%nat y) by auto. rewrite (IH j E). { vring. }
    intros i z Hi Hz. apply (H (S i)); auto.
Qed.

Lemma memory_entries Z N fs fs' table nums a : numbered fs -> setupMemory N fs = (fs', table, nums) ->
  good_list a -> (forall n, In n (a_nbs a) -> (nb_element n < N)%nat) ->
  (forall f, In f fs -> no_slots f /\ admissible (sf_kind f) /\ evaluable (sf_kind f) (env_of (a_nbs a))) ->
  exists s, calculateAll Z fs' a true allocated = Some s /\
    forall f, In f fs' ->
      st_G s (sf_index (sf_c f)) = scale (sf_scaling (sf_c f)) (sf_value Z (sf_kind f) (env_of (a_nbs a))) /\
      forall u v, table_directional f (a_nbs a) (st_D s) u v =
        directional (sf_c f) (a_nbs a) (fun l => ev_at l (contributions Z f a)) u v.
Proof.
  intros Hn E Hg Hel Hf.
  destruct (memory_setup N fs) as (fs0 & table0 & nums0 & E0 & _ & Hlen & T & F).
  rewrite E in E0. injection E0 as <- <- <-.
  assert (F' : forall j f', nth_error fs' j = Some f' -> exists f g, nth_error fs j = Some f /\ f' = with_per g f /\
     forall i, g i = if (Nat.ltb i N && depends (sf_kind f) i)%bool then length (users i (firstn j fs)) else sf_perElement (sf_c f) i).
  { intros j f' Hj. destruct (nth_error fs j) as [f|] eqn:Ej.
    - destruct (F j f Ej) as (g & A & B). exists f, g. split; auto. split; auto. congruence.
    - apply nth_error_None in Ej. assert (j < length fs')%nat by (apply nth_error_Some; congruence). lia. }
  assert (Hn' : numbered fs').
  { intros j f' Hj. destruct (F' j f' Hj) as (f & g & A & -> & _). exact (Hn j f A). }
  assert (Hf' : forall f', In f' fs' -> no_slots f' /\ admissible (sf_kind f') /\ evaluable (sf_kind f') (env_of (a_nbs a))).
  { intros f' Hin. apply In_nth_error in Hin. destruct Hin as (j & Hj). destruct (F' j f' Hj) as (f & g & A & -> & _).
    exact (Hf f (nth_error_In _ _ A)). }
  destruct (calculateAll_effect Z no_assignment a fs' no_assignment_consistent Hg) with (deriv := true) (s := allocated)
    as (s & Es & _ & G & D).
  { intros f' Hin. destruct (Hf' f' Hin) as (A & B & C). split; [now apply no_slots_ok|]. split; auto. }
  { apply no_coherent. }
  exists s. split; auto. intros f' Hin. assert (Hin' := Hin). apply In_nth_error in Hin'. destruct Hin' as (j & Hj).
  destruct (Hf' f' Hin) as (A & B & C). split.
  { rewrite G. rewrite (Hn' j f' Hj). apply put_numbered; auto. }
  intros u v. symmetry.
  assert (ZL : forall l, (forall i y, i <> j -> nth_error fs' i = Some y -> ~ own_entry y (a_nbs a) l) ->
            st_D s l = ev_at l (contributions Z f' a)).
  { intros l Hl. rewrite D. cbn [allocated st_D]. rewrite (vsum_single _ _ j f' Hj); [vring|].
    intros i y Hi Hy. destruct (vec_dec (ev_at l (contributions Z y a)) vzero) as [X|X]; auto.
    elim (Hl i y Hi Hy). apply (contributions_local Z y a l); auto. now destruct (Hf' y (nth_error_In _ _ Hy)) as (_ & ? & _). }
  unfold directional, table_directional. f_equal.
  { f_equal. symmetry. apply ZL. intros i y Hi Hy [H|(j' & n' & _ & _ & H)]; [|discriminate]. injection H as H.
    rewrite (Hn' j f' Hj), (Hn' i y Hy) in H. congruence. }
  apply rsum_ext. intros [q n] Hq. cbn [fst snd].
  assert (Hqn : nth_error (a_nbs a) q = Some n).
  { apply In_nth_error in Hq. destruct Hq as (q' & Hq). rewrite nth_combine_seq in Hq.
    destruct (nth_error (a_nbs a) q') eqn:Eq; [|discriminate]. cbn in Hq. injection Hq as <- <-. auto. }
  destruct (depends (sf_kind f') (nb_element n)) eqn:De.
  - f_equal. symmetry. apply ZL. intros i y Hi Hy [H|(j' & n' & Hj' & Dy & H)]; [discriminate|].
    injection H as -> H. rewrite Hqn in Hj'. injection Hj' as <-.
    destruct (F' j f' Hj) as (f & g & A1 & -> & Pg). destruct (F' i y Hy) as (f2 & g2 & A2 & -> & Pg2).
    cbn [with_per sf_c sf_perElement sf_kind] in *. rewrite Pg, Pg2, De, Dy in H.
    assert (Hlt : Nat.ltb (nb_element n) N = true) by (apply Nat.ltb_lt, Hel; eapply nth_error_In; eauto).
    rewrite Hlt in H. cbn [andb] in H.
    destruct (Nat.lt_ge_cases i j) as [L|L].
    + assert (X := users_before (nb_element n) fs i j f2 L A2 Dy). lia.
    + assert (X := users_before (nb_element n) fs j i f ltac:(lia) A1 De). lia.
  - destruct (vec_dec (ev_at (LN q (sf_perElement (sf_c f') (nb_element n))) (contributions Z f' a)) vzero) as [X|X].
    { rewrite X. apply dot_vzero_l. }
    apply (contributions_local Z f' a _ B) in X. destruct X as [H|(j' & n' & Hj' & Dy & H)]; [discriminate|].
    injection H as -> H. rewrite Hqn in Hj'. injection Hj' as <-. congruence.
Qed.

Theorem memory_gradient Z N fs fs' table nums a : numbered fs -> setupMemory N fs = (fs', table, nums) ->
  good_list a -> (forall n, In n (a_nbs a) -> (nb_element n < N)%nat) ->
  (forall f, In f fs -> no_slots f /\ admissible (sf_kind f) /\ smooth_at (sf_kind f) (env_of (a_nbs a)) /\
                        scaling_setup (sf_scaling (sf_c f))) ->
  exists s, calculateAll Z fs' a true allocated = Some s /\
    forall f, In f fs' ->
      st_G s (sf_index (sf_c f)) = scale (sf_scaling (sf_c f)) (sf_value Z (sf_kind f) (env_of (a_nbs a))) /\
      forall u v, is_derive (fun t => scale (sf_scaling (sf_c f)) (sf_value Z (sf_kind f) (displace u v t (env_of (a_nbs a))))) 0
        (table_directional f (a_nbs a) (st_D s) u v).
Proof.
  intros Hn E Hg Hel Hf.
  destruct (memory_entries Z N fs fs' table nums a Hn E Hg Hel) as (s & Es & H).
  { intros f Hin. destruct (Hf f Hin) as (A & B & C & _). split; auto. split; auto. apply C. }
  exists s. split; auto. intros f' Hin. destruct (H f' Hin) as (G & D). split; auto. intros u v. rewrite D.
  assert (X : exists f, In f fs /\ sf_kind f' = sf_kind f /\ sf_scaling (sf_c f') = sf_scaling (sf_c f)).
  { destruct (memory_setup N fs) as (fs0 & table0 & nums0 & E0 & _ & Hlen & _ & F).
    rewrite E in E0. injection E0 as <- <- <-. apply In_nth_error in Hin. destruct Hin as (j & Hj).
    destruct (nth_error fs j) as [f|] eqn:Ej.
    - destruct (F j f Ej) as (g & A & _). exists f. split; [eapply nth_error_In; eauto|]. rewrite Hj in A. injection A as ->. split; reflexivity.
    - apply nth_error_None in Ej. assert (j < length fs')%nat by (apply nth_error_Some; congruence). lia. }
  destruct X as (f & Hin' & X1 & X2). destruct (Hf f Hin') as (_ & B & C & Sc).
  apply contributions_gradient; auto; rewrite ?X1, ?X2; auto.
Qed.

Theorem memory_tables N fs fs' table nums : numbered fs -> setupMemory N fs = (fs', table, nums) ->
  length nums = N /\ length fs' = length fs /\
  (forall i, (i < N)%nat -> nth_error nums i = Some (length (table i)) /\ StronglySorted lt (table i) /\
     forall x, In x (table i) <-> exists f, nth_error fs x = Some f /\ depends (sf_kind f) i = true) /\
  forall j f, nth_error fs j = Some f -> exists f', nth_error fs' j = Some f' /\
    sf_kind f' = sf_kind f /\ sf_index (sf_c f') = sf_index (sf_c f) /\ sf_ci (sf_c f') = sf_ci (sf_c f) /\
    sf_scaling (sf_c f') = sf_scaling (sf_c f) /\
    forall i, (i < N)%nat -> depends (sf_kind f) i = true ->
      nth_error (table i) (sf_perElement (sf_c f') i) = Some j.
Proof.
  intros Hn E. destruct (memory_setup N fs) as (fs0 & table0 & nums0 & E0 & Ln & Hlen & T & F).
  rewrite E in E0. injection E0 as <- <- <-. split; auto. split; auto. split.
  - intros i Hi. destruct (T i Hi) as (A & B). split; auto. rewrite B. split; [apply (indices_increasing fs i 0); exact Hn|].
    intros x. unfold indices, users. rewrite in_map_iff. split.
    + intros (f & <- & Hf). apply filter_In in Hf. destruct Hf as (Hf & D). exists f. split; auto.
      apply In_nth_error in Hf. destruct Hf as (j & Hj). now rewrite (Hn j f Hj).
    + intros (f & Hf & D). exists f. split; [exact (Hn x f Hf)|]. apply filter_In. split; auto. eapply nth_error_In; eauto.
  - intros j f Hj. destruct (F j f Hj) as (g & A & B). exists (with_per g f). split; auto.
    do 4 (split; [reflexivity|]). intros i Hi D. cbn [with_per sf_c sf_perElement]. rewrite B, D.
    apply Nat.ltb_lt in Hi as Hb. rewrite Hb. cbn [andb]. destruct (T i Hi) as (_ & ->).
    unfold indices. rewrite nth_error_map, (users_position i fs j f Hj D). cbn. now rewrite (Hn j f Hj).
Qed.

Theorem sort_api sort fs : sorts sf_lt sort ->
  let fs' := sortSymmetryFunctions sort fs in
  numbered fs' /\ length fs' = length fs /\ Permutation (map sf_kind fs) (map sf_kind fs') /\
  StronglySorted (fun f g => sf_lt g f = false) fs' /\
  forall sort' fs2, sorts sf_lt sort' -> Permutation fs fs2 ->
    map (fun f => sort_key (sf_kind f)) fs' = map (fun f => sort_key (sf_kind f)) (sortSymmetryFunctions sort' fs2).
Proof.
  intros Hs fs'. destruct (Hs fs) as (P & S). split; [now apply sort_numbered|]. split; [now apply sort_length|].
  split; [unfold fs'; rewrite (sort_kinds sort fs P); now apply Permutation_map|]. split.
  - assert (K : forall l, StronglySorted (fun f g => sf_lt g f = false) l <-> StronglySorted (fun a b => lexlt (sort_key b) (sort_key a) = false) (map sf_kind l)).
    { induction l as [|x l IH]; cbn; split; intros H; try constructor; apply StronglySorted_inv in H; destruct H as (A & B);
        try (now apply IH); [rewrite Forall_map|rewrite Forall_map in B]; exact B. }
    apply K. unfold fs'. rewrite (sort_kinds sort fs P). apply K. exact S.
  - intros sort' fs2 Hs' P2. rewrite <- !(map_map sf_kind sort_key). unfold fs'.
    rewrite (sort_kinds sort fs P), (sort_kinds sort' fs2 (proj1 (Hs' fs2))), !map_map.
    now apply sort_order_independent.
Qed.
