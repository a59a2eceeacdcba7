(** Neighbor list file and atomic environments (C88). *)
From Coq Require Import Reals Lra Lia ZArith Bool Arith Permutation Sorted.
From Coq Require Import List.
From Verif Require Import Base.Vec3 Model.NeighborList Model.SymLines Model.DataAnalysis Spec.NeighborSpec Spec.DataAnalysisSpec
  Proofs.SymLineProofs Proofs.NeighborMore.
Import ListNotations.
Local Open Scope R_scope.

Lemma mapo_Forall2 {A B} (f : A -> outcome B) l ls : mapo f l = Done ls <-> Forall2 (fun x y => f x = Done y) l ls.
Proof.
  revert ls. induction l as [|x l IH]; intros ls; cbn.
  - split; [intros [= <-]; constructor | intros H; inversion H; reflexivity].
  - split.
    + intros H. apply bindo_done in H. destruct H as (a & A1 & H). apply bindo_done in H. destruct H as (bs & B1 & H). injection H as <-. constructor; auto. now apply IH.
    + intros H. inversion H as [|? y ? ys H1 H2]; subst. rewrite H1. cbn. apply IH in H2. now rewrite H2.
Qed.
Lemma of_element_app e l m : of_element e (l ++ m) = of_element e l ++ of_element e m.
Proof. apply filter_app. Qed.
Lemma incr_nth l i : (i < length l)%nat -> forall j, nth_error (incr l i) j = if Nat.eqb i j then option_map S (nth_error l j) else nth_error l j.
Proof.
  revert i. induction l as [|x l IH]; intros i L j; cbn in *; [lia|]. destruct i, j; cbn; auto. rewrite IH by lia. reflexivity.
Qed.
Lemma incr_length l i : length (incr l i) = length l.
Proof. revert i. induction l; intros [|i]; cbn; auto. Qed.

Section Line.
Variables (numElements : nat) (cut : list (list nat)) (s : list env_atom) (ea : nat).
Hypothesis SQ : square numElements cut.
Hypothesis EA : (ea < numElements)%nat.
Lemma cut_at e : (e < numElements)%nat -> exists row, nth_error cut ea = Some row /\ nth_error row e = Some (cutoff cut ea e).
Proof.
  intros E. destruct SQ as (L & R0). destruct (nth_error cut ea) as [row|] eqn:C; [|apply nth_error_None in C; lia].
  exists row. split; auto. unfold cutoff. rewrite (nth_error_nth _ _ [] C). apply nth_error_nth'. rewrite (R0 row) by (eapply nth_error_In; eauto). exact E.
Qed.
(** Invariant: the counters count the chosen neighbors. *)
Lemma fold_neighbors nbs : (forall n, In n nbs -> (nb_element n < numElements)%nat /\ (nb_index n < length s)%nat) ->
  forall count out, length count = numElements -> (forall e k, nth_error count e = Some k -> (k <= cutoff cut ea e)%nat) ->
  exists chosen count', foldo (env_neighbor cut s ea) nbs (count, out) = Done (count', out ++ flat_map (fun n => G_of s (nb_index n)) chosen) /\
    subsequence chosen nbs /\
    (forall e k, nth_error count e = Some k -> of_element e chosen = firstn (cutoff cut ea e - k) (of_element e nbs)).
Proof.
  induction nbs as [|n nbs IH]; intros OK count out L B.
  - exists [], count. cbn. split; [now rewrite app_nil_r|]. split; [constructor|]. intros. now rewrite firstn_nil.
  - destruct (OK n (or_introl eq_refl)) as (O1 & O2). cbn [foldo]. unfold env_neighbor at 1.
    destruct (nth_error count (nb_element n)) as [k|] eqn:K; [|apply nth_error_None in K; lia]. cbn [throwing bindo].
    destruct (cut_at (nb_element n) O1) as (row & -> & C). cbn [throwing bindo]. rewrite C. cbn [throwing bindo].
    destruct (Nat.ltb_spec k (cutoff cut ea (nb_element n))) as [H|H].
    + destruct (nth_error s (nb_index n)) as [a|] eqn:A; [|apply nth_error_None in A; lia]. cbn [throwing bindo].
      destruct (IH ltac:(intros; apply OK; now right) (incr count (nb_element n)) (out ++ ea_G a)) as (ch & cnt & F & Sb & Q).
      { rewrite incr_length. exact L. }
      { intros e j. rewrite incr_nth by lia. destruct (Nat.eqb_spec (nb_element n) e) as [<-|N]; [|apply B]. rewrite K. cbn. intros [= <-]. lia. }
      exists (n :: ch), cnt. split; [|split].
      * rewrite F. f_equal. f_equal. cbn [flat_map]. unfold G_of at 2. rewrite A, app_assoc. reflexivity.
      * now constructor.
      * intros e j J. unfold of_element. cbn [filter]. destruct (Nat.eqb_spec (nb_element n) e) as [<-|N].
        -- rewrite K in J. injection J as <-. replace (cutoff cut ea (nb_element n) - k)%nat with (S (cutoff cut ea (nb_element n) - S k)) by lia. cbn [firstn]. f_equal.
           apply Q. rewrite incr_nth, Nat.eqb_refl, K by lia. reflexivity.
        -- apply Q. rewrite incr_nth by lia. destruct (Nat.eqb_spec (nb_element n) e); [congruence | auto].
    + destruct (IH ltac:(intros; apply OK; now right) count out L B) as (ch & cnt & F & Sb & Q).
      exists ch, cnt. split; [exact F|]. split; [now constructor|]. intros e j J. rewrite (Q e j J). unfold of_element at 2. cbn [filter].
      destruct (Nat.eqb_spec (nb_element n) e) as [<-|N]; [|reflexivity]. rewrite K in J. injection J as <-.
      replace (cutoff cut ea (nb_element n) - k)%nat with 0%nat by lia. reflexivity.
Qed.
End Line.

Lemma sorted_filter {A} (le : A -> A -> Prop) (f : A -> bool) l : StronglySorted le l -> StronglySorted le (filter f l).
Proof.
  induction 1 as [|x l S IH F]; cbn; [constructor|]. destruct (f x); auto. constructor; auto. apply Forall_forall. intros y Y.
  apply filter_In in Y. eapply Forall_forall; [exact F | apply Y].
Qed.
Lemma nearest_firstn c l : (c <= length l)%nat -> StronglySorted (fun x y => nb_d x <= nb_d y) l -> nearest c l (firstn c l).
Proof.
  intros L S. exists (skipn c l). split; [now rewrite firstn_skipn|]. split; [rewrite firstn_length; lia|].
  rewrite <- (firstn_skipn c l) in S. revert S. generalize (firstn c l) (skipn c l). clear. intros a b. induction a as [|x a IH]; cbn; [intros _ ? ? []|].
  intros S x' y [<- | X] Y; inversion S as [|? ? S' F]; subst.
  - apply (proj1 (Forall_forall _ _) F y). apply in_or_app. now right.
  - now apply IH.
Qed.
Lemma strong l : Sorted (fun x y => nb_d x <= nb_d y) l -> StronglySorted (fun x y => nb_d x <= nb_d y) l.
Proof. apply Sorted_StronglySorted. intros x y z A B. lra. Qed.

Lemma enough_iff numElements cut a e : square numElements cut -> (a_element a < numElements)%nat -> (e < numElements)%nat ->
  nth_error (a_perEl a) e = Some (length (of_element e (a_nbs a))) ->
  enough cut a e = if Nat.ltb (length (of_element e (a_nbs a))) (cutoff cut (a_element a) e) then Thrown else Done tt.
Proof.
  intros SQ A E P. unfold enough. rewrite P. cbn [throwing bindo]. destruct (cut_at numElements cut (a_element a) SQ A e E) as (row & -> & C).
  cbn [throwing bindo]. rewrite C. reflexivity.
Qed.
Lemma line_result numElements cut s a : square numElements cut -> listed numElements s -> In a s ->
  (env_line numElements cut s a = Thrown /\ exists e, (e < numElements)%nat /\ (length (of_element e (a_nbs (ea_atom a))) < cutoff cut (a_element (ea_atom a)) e)%nat) \/
  ((forall e, (e < numElements)%nat -> (cutoff cut (a_element (ea_atom a)) e <= length (of_element e (a_nbs (ea_atom a))))%nat) /\
   exists line, env_line numElements cut s a = Done line /\ environment numElements cut (s, a) line).
Proof.
  intros SQ LI I. destruct (LI a I) as (A & P & NB & S).
  assert (Q : forall l, (forall e, In e l -> (e < numElements)%nat) ->
     (mapo (enough cut (ea_atom a)) l = Thrown /\ exists e, In e l /\ (length (of_element e (a_nbs (ea_atom a))) < cutoff cut (a_element (ea_atom a)) e)%nat) \/
     ((forall e, In e l -> (cutoff cut (a_element (ea_atom a)) e <= length (of_element e (a_nbs (ea_atom a))))%nat) /\ exists us, mapo (enough cut (ea_atom a)) l = Done us)).
  { induction l as [|e l IH]; intros B; [right; split; [intros ? [] | eexists; reflexivity]|]. cbn [mapo].
    rewrite (enough_iff numElements) by (auto; try apply P; apply B; now left).
    destruct (Nat.ltb_spec (length (of_element e (a_nbs (ea_atom a)))) (cutoff cut (a_element (ea_atom a)) e)) as [L|L]; cbn [bindo].
    - left. split; auto. exists e. split; [now left | auto].
    - destruct IH as [(-> & e' & E & L') | (G & us & ->)]; [intros; apply B; now right | |]; cbn [bindo].
      + left. split; auto. exists e'. split; [now right | auto].
      + right. split; [intros e' [<- | E]; auto | eexists; reflexivity]. }
  unfold env_line. destruct (Q (seq 0 numElements)) as [(-> & e & E & L) | (G & us & ->)]; [intros e E; apply in_seq in E; lia | |]; cbn [bindo].
  - left. split; auto. exists e. apply in_seq in E. split; [lia | auto].
  - right. split; [intros e E; apply G; apply in_seq; lia|].
    destruct (fold_neighbors numElements cut s (a_element (ea_atom a)) SQ A (a_nbs (ea_atom a)) NB (repeat 0%nat numElements) (ea_G a)) as (ch & cnt & F & Sb & O).
    { apply repeat_length. }
    { intros e k K. apply nth_error_In in K. apply repeat_spec in K. lia. }
    rewrite F. cbn [bindo snd]. eexists. split; [reflexivity|]. exists ch. split; [reflexivity|]. split; auto. intros e E.
    rewrite (O e 0%nat) by (apply nth_error_repeat; exact E). rewrite Nat.sub_0_r. apply nearest_firstn; [apply G; apply in_seq; lia|].
    apply sorted_filter. now apply strong.
Qed.
Lemma file_result numElements cut structures : square numElements cut -> (forall s, In s structures -> listed numElements s) ->
  (writeAtomicEnvironmentFile numElements cut structures = Thrown /\ too_few numElements cut structures) \/
  (~ too_few numElements cut structures /\ exists lines, writeAtomicEnvironmentFile numElements cut structures = Done lines /\
     Forall2 (environment numElements cut) (atoms_of structures) lines).
Proof.
  intros SQ. unfold writeAtomicEnvironmentFile. induction structures as [|s structures IH]; intros LI; cbn [mapo].
  { right. split; [intros (s & a & e & [] & _)|]. exists []. split; [reflexivity | constructor]. }
  assert (Q : forall l, (forall a, In a l -> In a s) ->
     (mapo (env_line numElements cut s) l = Thrown /\ exists a e, In a l /\ (e < numElements)%nat /\ (length (of_element e (a_nbs (ea_atom a))) < cutoff cut (a_element (ea_atom a)) e)%nat) \/
     ((forall a e, In a l -> (e < numElements)%nat -> (cutoff cut (a_element (ea_atom a)) e <= length (of_element e (a_nbs (ea_atom a))))%nat) /\
       exists lines, mapo (env_line numElements cut s) l = Done lines /\ Forall2 (environment numElements cut) (map (fun a => (s, a)) l) lines)).
  { induction l as [|a l IHl]; intros B; [right; split; [intros ? ? [] | exists []; split; [reflexivity | constructor]]|]. cbn [mapo].
    destruct (line_result numElements cut s a SQ (LI s (or_introl eq_refl)) (B a (or_introl eq_refl))) as [(-> & e & E & L) | (G & line & -> & EV)]; cbn [bindo].
    - left. split; auto. exists a, e. split; [now left | auto].
    - destruct IHl as [(-> & a' & e & I & E & L) | (G' & lines & -> & F)]; [intros; apply B; now right | |]; cbn [bindo].
      + left. split; auto. exists a', e. split; [now right | auto].
      + right. split; [intros a' e [<- | I] E; auto|]. eexists. split; [reflexivity|]. cbn [map]. constructor; auto. }
  destruct (Q s (fun a H => H)) as [(-> & a & e & I & E & L) | (G & lines & -> & F)]; cbn [bindo].
  - left. split; auto. exists s, a, e. split; [now left | auto].
  - destruct IH as [(T & s' & a & e & I1 & I2 & E & L) | (NT & lines' & D & F')]; [intros; apply LI; now right | |].
    + left. destruct (mapo (fun s0 => mapo (env_line numElements cut s0) s0) structures); try discriminate. split; [reflexivity|].
      exists s', a, e. split; [now right | auto].
    + right. split.
      * intros (s' & a & e & [<- | I1] & I2 & E & L); [specialize (G a e I2 E); lia|]. apply NT. exists s', a, e. auto.
      * apply bindo_done in D. destruct D as (ls & D1 & D2). rewrite D1. cbn [bindo]. injection D2 as D2. eexists. split; [reflexivity|]. cbn [concat].
        rewrite D2. cbn [atoms_of flat_map]. apply Forall2_app; auto.
Qed.
Theorem environment_correct numElements cut structures : square numElements cut -> (forall s, In s structures -> listed numElements s) ->
  (writeAtomicEnvironmentFile numElements cut structures = Thrown <-> too_few numElements cut structures) /\
  (forall lines, writeAtomicEnvironmentFile numElements cut structures = Done lines -> Forall2 (environment numElements cut) (atoms_of structures) lines) /\
  (~ too_few numElements cut structures -> exists lines, writeAtomicEnvironmentFile numElements cut structures = Done lines).
Proof.
  intros SQ LI. destruct (file_result _ _ _ SQ LI) as [(-> & T) | (NT & lines & -> & F)].
  - split; [tauto|]. split; [discriminate | tauto].
  - split; [split; [discriminate | tauto]|]. split; [intros ? [= <-]; auto | eauto].
Qed.
(** One element: own values, then the values of the nearest neighbors, nearest first. *)
Theorem environment_single c structures lines : (forall s, In s structures -> listed 1 s) ->
  writeAtomicEnvironmentFile 1 [[c]] structures = Done lines ->
  lines = map (fun sa => (0%nat, ea_G (snd sa) ++ flat_map (fun n => G_of (fst sa) (nb_index n)) (firstn c (a_nbs (ea_atom (snd sa)))))) (atoms_of structures).
Proof.
  intros LI D. destruct (environment_correct 1 [[c]] structures) as (_ & H & _); auto.
  { split; [reflexivity|]. intros row [<- | []]. reflexivity. }
  specialize (H _ D). clear D. assert (I : forall sa, In sa (atoms_of structures) -> listed 1 (fst sa) /\ In (snd sa) (fst sa)).
  { intros (s, a) J. unfold atoms_of in J. apply in_flat_map in J. destruct J as (s' & S1 & S2). apply in_map_iff in S2. destruct S2 as (a' & [= <- <-] & S2). cbn. auto. }
  induction H as [|(s, a) line sas lines' E F IH]; [reflexivity|]. cbn [map]. f_equal; [|apply IH; intros; apply I; now right].
  destruct (I (s, a) (or_introl eq_refl)) as (L & J). cbn [fst snd] in *. destruct (L a J) as (A & P & NB & S). destruct E as (ch & -> & Sb & N).
  assert (Z : a_element (ea_atom a) = 0%nat) by lia. rewrite Z in *. f_equal. f_equal. f_equal.
  assert (all : forall l, (forall n, In n l -> (nb_element n < 1)%nat /\ (nb_index n < length s)%nat) -> of_element 0 l = l).
  { clear. induction l as [|n l IH]; intros H; [reflexivity|]. unfold of_element. cbn [filter]. destruct (H n (or_introl eq_refl)).
    destruct (Nat.eqb_spec (nb_element n) 0); [f_equal; apply IH; intros; apply H; now right | lia]. }
  assert (sub : forall x, In x ch -> In x (a_nbs (ea_atom a))). { clear - Sb. induction Sb as [|x l l' _ IH|x l l' _ IH]; cbn; [auto | intros y [<- | Y]; auto | auto]. }
  destruct (N 0%nat) as (rest & R1 & R2 & R3); [lia|]. rewrite !all in R1 by auto. rewrite all in R2 by auto. rewrite R1.
  cbn in R2. rewrite firstn_app, <- R2, Nat.sub_diag, firstn_all, firstn_O, app_nil_r. reflexivity.
Qed.

(** ** The neighbor list file *)
Lemma sorted_Forall2 {A B} (R1 : A -> A -> Prop) (R2 : B -> B -> Prop) (P : A -> B -> Prop) la lb :
  Forall2 P la lb -> Sorted R2 lb -> (forall a1 a2 b1 b2, P a1 b1 -> P a2 b2 -> R2 b1 b2 -> R1 a1 a2) -> Sorted R1 la.
Proof.
  intros F S H. revert la F. induction S as [|b lb S IH HR]; intros la F; inversion F as [|a ? la' ? P1 P2]; subst; constructor; auto.
  destruct HR as [|b2 lb' HR]; inversion P2; subst; constructor. eauto.
Qed.
Lemma perm_Forall2 {A B} (P : A -> B -> Prop) lb lb' : Permutation lb lb' -> forall la, Forall2 P la lb -> exists la', Permutation la la' /\ Forall2 P la' lb'.
Proof.
  induction 1 as [|b lb lb' Hp IH|b1 b2 lb|lb lb' lb'' H1 IH1 H2 IH2]; intros la F.
  - exists la. auto.
  - inversion F as [|a ? la' ? P1 P2]; subst. destruct (IH la' P2) as (l & A1 & A2). exists (a :: l). split; [now constructor | now constructor].
  - inversion F as [|a ? la' ? P1 P2]; subst. inversion P2 as [|a' ? la'' ? P3 P4]; subst. exists (a' :: a :: la''). split; [apply perm_swap | repeat constructor; auto].
  - destruct (IH1 la F) as (l & A1 & A2). destruct (IH2 l A2) as (l' & A3 & A4). exists l'. split; [now transitivity l | auto].
Qed.
Theorem neighbor_file_correct nsort nsort' fuel rc b z G s s' : is_sort nsort -> is_sort nsort' -> no_list s -> zero_counters s -> wrapped s ->
  0 <= Rmax rc (s_maxrc s) -> calculateNeighborList nsort fuel rc b s = Some s' ->
  exists lines, writeNeighborLists z (s_numElements s) (sort_lists nsort' [map (fun a => mkEnv a (G a)) (s_atoms s')]) = Done ([length (s_atoms s)] :: lines) /\
    length lines = length (s_atoms s) /\
    forall i line, nth_error lines i = Some line -> neighbor_file_line z s (Rmax rc (s_maxrc s)) i line.
Proof.
  intros S1 S2 NL ZC W RC C. destruct (list_correct _ _ _ _ _ _ S1 NL W RC C) as (LEN & AT).
  assert (ex : forall i ai', nth_error (s_atoms s') i = Some ai' -> exists line, neighbor_line z (s_numElements s)
       (mkAtom (a_element ai') (a_r ai') (a_hasNL ai') (a_sorted ai') (a_numN ai') (a_numU ai') (a_perEl ai') (a_unique ai') (nsort' (a_nbs ai')) (a_cutoffs ai')) = Done line /\
     neighbor_file_line z s (Rmax rc (s_maxrc s)) i line).
  { intros i ai' E. destruct (counters_correct _ _ _ _ _ _ _ _ S1 NL ZC C E) as (_ & CNT & _).
    destruct (nth_error (s_atoms s) i) as [ai|] eqn:Ei; [|apply nth_error_None in Ei; apply nth_error_None in Ei; exfalso; apply nth_error_None in Ei; rewrite <- LEN in Ei; apply nth_error_None in Ei; congruence].
    destruct (AT i ai Ei) as (ai2 & L & nbs & E2 & R2 & EL & PM & F & ND & IN). rewrite E in E2. injection E2 as <-.
    destruct (S2 (a_nbs ai')) as (P2 & Q2).
    destruct (perm_Forall2 _ nbs (nsort' (a_nbs ai')) ltac:(symmetry in PM; transitivity (a_nbs ai'); [exact PM | now symmetry]) L F) as (L' & PL & FL).
    unfold neighbor_line. cbn [a_perEl a_element a_nbs].
    assert (M : mapo (fun i => throwing (nth_error (a_perEl ai') i)) (seq 0 (s_numElements s)) =
       Done (map (fun e => length (filter (fun n => Nat.eqb e (nb_element n)) (a_nbs ai'))) (seq 0 (s_numElements s)))).
    { apply mapo_Forall2. assert (Q : forall e, In e (seq 0 (s_numElements s)) -> (e < s_numElements s)%nat) by (intros e I; apply in_seq in I; lia).
      induction (seq 0 (s_numElements s)) as [|e l IH]; cbn; constructor; [rewrite CNT by (apply Q; now left); reflexivity | apply IH; intros; apply Q; now right]. }
    rewrite M. cbn [bindo]. eexists. split; [reflexivity|]. exists ai. eexists. exists L'. split; [exact Ei|]. split.
    { f_equal; [now rewrite EL|]. f_equal. clear - FL. induction FL as [|p n L nbs (aj & _ & A & _) _ IH]; cbn; [reflexivity|]. now rewrite A, IH. }
    split; [now apply (Permutation_NoDup PL)|]. split.
    { intros j m. rewrite <- IN. split; apply Permutation_in; [now symmetry | exact PL]. }
    split.
    { eapply sorted_Forall2; [exact FL | exact Q2|]. intros p q n1 n2 (aj & A1 & _ & _ & _ & _ & A2) (ak & B1 & _ & _ & _ & _ & B2) LE aj' ak' A3 B3.
      rewrite A1 in A3. injection A3 as <-. rewrite B1 in B3. injection B3 as <-. now rewrite <- A2, <- B2. }
    split; [now rewrite map_length, seq_length|]. intros e He. rewrite nth_error_map, (nth_error_nth' _ 0%nat) by now rewrite seq_length. rewrite seq_nth by lia. cbn [option_map Nat.add]. f_equal.
    transitivity (length (filter (fun n => Nat.eqb e (nb_element n)) (nsort' (a_nbs ai')))).
    { assert (PF : forall l m, Permutation l m -> length (filter (fun n => Nat.eqb e (nb_element n)) l) = length (filter (fun n => Nat.eqb e (nb_element n)) m)).
      { clear. induction 1; cbn; auto; try congruence; repeat destruct (Nat.eqb _ _); cbn; auto. }
      apply PF. now symmetry. }
    clear - FL. induction FL as [|p n L nbs (aj & A1 & _ & _ & A2 & _) _ IH]; cbn; [reflexivity|]. rewrite A1, A2, Nat.eqb_sym. destruct (Nat.eqb _ _); cbn; auto. }
  unfold writeNeighborLists, sort_lists. cbn [map mapo]. rewrite !map_map. cbn [ea_atom ea_G].
  assert (D : exists lines, mapo (fun a => neighbor_line z (s_numElements s) (ea_atom a)) (map (fun x =>
       mkEnv (mkAtom (a_element x) (a_r x) (a_hasNL x) (a_sorted x) (a_numN x) (a_numU x) (a_perEl x) (a_unique x) (nsort' (a_nbs x)) (a_cutoffs x)) (G x)) (s_atoms s')) = Done lines /\
     length lines = length (s_atoms s') /\ forall i line, nth_error lines i = Some line -> neighbor_file_line z s (Rmax rc (s_maxrc s)) i line).
  { assert (Q : forall l k, (forall i a, nth_error l i = Some a -> nth_error (s_atoms s') (k + i) = Some a) ->
      exists lines, mapo (fun a => neighbor_line z (s_numElements s) (ea_atom a)) (map (fun x =>
       mkEnv (mkAtom (a_element x) (a_r x) (a_hasNL x) (a_sorted x) (a_numN x) (a_numU x) (a_perEl x) (a_unique x) (nsort' (a_nbs x)) (a_cutoffs x)) (G x)) l) = Done lines /\
     length lines = length l /\ forall i line, nth_error lines i = Some line -> neighbor_file_line z s (Rmax rc (s_maxrc s)) (k + i) line).
    { induction l as [|a l IH]; intros k H.
      - exists []. split; [reflexivity|]. split; [reflexivity|]. intros [|i] line; discriminate.
      - destruct (ex k a) as (line & N1 & N2); [specialize (H 0%nat a eq_refl); now rewrite Nat.add_0_r in H|].
        destruct (IH (S k)) as (lines & M1 & M2 & M3). { intros i a' Ha. specialize (H (S i) a' Ha). now replace (S k + i)%nat with (k + S i)%nat by lia. }
        exists (line :: lines). cbn [map mapo ea_atom]. rewrite N1. cbn [bindo]. rewrite M1. cbn [bindo length]. split; [reflexivity|]. split; [lia|].
        intros [|i] line'; cbn [nth_error].
        + intros [= <-]. now rewrite Nat.add_0_r.
        + intros Hl. replace (k + S i)%nat with (S k + i)%nat by lia. now apply M3. }
    apply (Q (s_atoms s') 0%nat). intros i a Ha. exact Ha. }
  destruct D as (lines & D1 & D2 & D3). exists lines.
  rewrite D1. cbn [bindo concat app]. rewrite app_nil_r, map_length, LEN. split; [reflexivity|]. split; [congruence | exact D3].
Qed.
