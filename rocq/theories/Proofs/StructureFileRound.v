(** Structure files (C62): round trip of one and of several structures. *)
From Coq Require Import Reals Lra ZArith List Ascii String Bool Arith Lia.
From Verif Require Import Base.Vec3 Model.Strings Model.Printf Model.ElementMap Model.Geometry Model.NeighborList Model.Units Model.Errors Model.StructureFile
  Spec.StringSpec Spec.GeometrySpec Spec.PrintfSpec Spec.StructureFileSpec
  Proofs.StringProofs Proofs.GeometryProofs Proofs.NeighborProofs Proofs.PrintfProofs Proofs.NormalizationProofs Proofs.StructureFileText Proofs.LammpsProofs Proofs.SetupProofs Proofs.StructureFileProofs.
From Coq Require Import List.
Import ListNotations.
Local Open Scope R_scope.

Definition not_end (l : str) : Prop := exists k ws, words_of l = k :: ws /\ str_eqb k (lit "end") = false.
Lemma collect_until ls rest : (forall l, In l ls -> not_end l) -> collect (ls ++ lit "end" :: rest) = Some (ls ++ [lit "end"], rest).
Proof.
  induction ls as [|l ls IH]; intros H; [reflexivity|].
  cbn [app collect]. destruct (H l (or_introl eq_refl)) as (k & ws & -> & ->). rewrite IH; auto. intros; apply H; now right.
Qed.
Definition inner_lines (em : element_map) (ref : bool) (s : fstruct) : list str :=
  [lit "comment " ++ fs_comment s] ++ cell_lines s ++ map (fun a => atom_line ref (symbol_of em a) a) (fs_atoms s) ++
  [value_line "energy" (energy_of ref s); value_line "charge" (total_charge_of ref s)].
Lemma file_lines_inner em ref s : file_lines em ref s = lit "begin" :: inner_lines em ref s ++ [lit "end"].
Proof. unfold file_lines, inner_lines, cell_lines. cbn [app]. rewrite <- !app_assoc. reflexivity. Qed.
Lemma inner_not_end em n ref s : complete_map em n -> stored n ref s -> forall l, In l (inner_lines em ref s) -> not_end l.
Proof.
  intros Hm (_ & _ & _ & _ & Ha) l. unfold inner_lines. rewrite !in_app_iff. intros [H|[H|[H|H]]].
  - destruct H as [<-|[]]. destruct (comment_words (fs_comment s)) as (ws & Ew). exists (lit "comment"), ws. split; [exact Ew|reflexivity].
  - unfold cell_lines in H. destruct (fs_periodic s); [|destruct H].
    destruct H as [<-|[<-|[<-|[]]]]; (eexists; eexists; split; [apply row_words|reflexivity]).
  - apply in_map_iff in H as (a & <- & H). eexists; eexists; split; [apply atom_words|reflexivity]. apply (symbol_known em n); auto. apply (Ha a H).
  - destruct H as [<-|[<-|[]]]; (eexists; eexists; split; [apply value_words; [now apply lit_plain|discriminate]|reflexivity]).
Qed.

(** ** Remapping *)
Definition remapped (s : fstruct) (a b : fatom) : Prop :=
  fa_index b = fa_index a /\ fa_indexStructure b = fa_indexStructure a /\ fa_tag b = fa_tag a /\ fa_element b = fa_element a /\ fa_charge b = fa_charge a /\
  fa_chargeRef b = fa_chargeRef a /\ fa_f b = fa_f a /\ fa_fRef b = fa_fRef a /\ fa_perEl b = fa_perEl a /\
  (exists m, fa_r b = vadd (fa_r a) (lattice (fs_box s) m)) /\ (exists c, in_cell c /\ fa_r b = GeometrySpec.combine (fs_box s) c).
Lemma remap_all s l : det (fs_box s) <> 0 -> (forall a, In a l -> int_range (matvec (calculateInverseBox (fs_box s)) (fa_r a))) ->
  exists l', omap (remapAtom (fs_box s) (calculateInverseBox (fs_box s))) l = Some l' /\ Forall2 (remapped s) l l'.
Proof.
  intros Hd. induction l as [|a l IH]; intros H; [exists []; split; auto|].
  destruct IH as (l' & E & F); [intros; apply H; now right|].
  destruct (remap_correct _ _ Hd (H a (or_introl eq_refl))) as (r & Er & C & M & _).
  eexists. split.
  - cbn [omap]. unfold remapAtom at 1. rewrite Er, E. reflexivity.
  - constructor; auto. unfold remapped. cbn. auto 12.
Qed.
Lemma remap_none box l : det box <> 0 -> (forall a, In a l -> exists c, in_cell c /\ fa_r a = GeometrySpec.combine box c) ->
  omap (remapAtom box (calculateInverseBox box)) l = Some l.
Proof.
  intros Hd. induction l as [|a l IH]; intros H; auto. cbn [omap]. destruct (H a (or_introl eq_refl)) as (c & Hc & Er).
  unfold remapAtom at 1. rewrite Er, remap_in_cell by auto. rewrite <- Er, IH by (intros; apply H; now right). destruct a; reflexivity.
Qed.

(** ** One structure *)
Definition present (per : list nat) (n : nat) : nat := List.length (filter (fun e => Nat.ltb 0 (nth e per 0%nat)) (seq 0 n)).
Definition finish (n : nat) (ref : bool) (s : fstruct) (per : list nat) (l : list fatom) : fstruct :=
  set_fatoms (set_present (read_raw n ref s per) (present per n)) (List.length (fs_atoms s)) per l.
Definition raw_atoms (n : nat) (ref : bool) (s : fstruct) : list fatom := mapi (fun i a => read_atom ref n i 0 a) (fs_atoms s).
Lemma count_raw n ref s per : countPresent (read_raw n ref s per) = set_present (read_raw n ref s per) (present per n).
Proof. unfold countPresent, read_raw, with_cell, present. destruct (fs_periodic s); reflexivity. Qed.
Lemma raw_in n ref s a' : In a' (raw_atoms n ref s) -> exists i a, nth_error (fs_atoms s) i = Some a /\ a' = read_atom ref n i 0 a.
Proof.
  intros H. apply In_nth_error in H as (i & H). unfold raw_atoms in H. rewrite nth_error_mapi in H. destruct (nth_error (fs_atoms s) i) as [a|] eqn:E; [|discriminate].
  injection H as <-. now exists i, a.
Qed.
Lemma read_file em n ref s rest : complete_map em n -> stored n ref s -> proper_cell ref s ->
  exists per l', readFromFile em (Strings.split (text_of (file_lines em ref s) ++ rest) ch_lf) (newStructure n) = Some (finish n ref s per l', Strings.split rest ch_lf) /\
    List.length per = n /\ (forall e, nth e per 0%nat = List.length (filter (fun a => Nat.eqb (fa_element a) e) (fs_atoms s))) /\
    (if fs_periodic s then omap (remapAtom (fs_box s) (calculateInverseBox (fs_box s))) (raw_atoms n ref s) = Some l' /\ Forall2 (remapped s) (raw_atoms n ref s) l' else l' = raw_atoms n ref s).
Proof.
  intros Hm Hs Hp. destruct (read_loop em n ref s Hm Hs Hp) as (per & E & Lp & Fp).
  unfold text_of. rewrite split_lines by now apply (lines_plain em n).
  rewrite file_lines_inner in *. cbn [app]. unfold readFromFile. change (words_of (lit "begin")) with [lit "begin"].
  change (str_eqb (lit "begin") (lit "begin")) with true. cbn iota.
  rewrite <- app_assoc. cbn [app]. rewrite collect_until by now apply (inner_not_end em n ref s).
  unfold readFromLines. change (words_of (lit "begin")) with [lit "begin"].
  change (str_eqb (lit "begin") (lit "begin")) with true. cbn iota. rewrite E. rewrite count_raw. cbv zeta.
  assert (Pp : fs_periodic (set_present (read_raw n ref s per) (present per n)) = fs_periodic s).
  { unfold read_raw, with_cell. destruct (fs_periodic s) eqn:Ep; cbn; auto. }
  rewrite Pp. destruct (fs_periodic s) eqn:Ep.
  - destruct (Hp Ep) as (Hd & _ & Hr).
    destruct (remap_all s (raw_atoms n ref s) Hd) as (l' & El & F).
    { intros a' Ha'. apply raw_in in Ha' as (i & a & Hn & ->). cbn. apply Hr. now apply nth_error_In in Hn. }
    exists per, l'.
    assert (Eb : fs_box (set_present (read_raw n ref s per) (present per n)) = fs_box s /\ fs_invbox (set_present (read_raw n ref s per) (present per n)) = calculateInverseBox (fs_box s) /\
      fs_atoms (set_present (read_raw n ref s per) (present per n)) = raw_atoms n ref s).
    { unfold read_raw, with_cell. rewrite Ep. repeat split. }
    destruct Eb as (-> & -> & ->). rewrite El. split; auto.
  - exists per, (raw_atoms n ref s). split; [|auto]. f_equal. f_equal. unfold finish, read_raw, with_cell. rewrite Ep. reflexivity.
Qed.
Lemma Forall2_mapi {A B} (f : nat -> A -> B) (P : A -> B -> Prop) l : (forall i a, nth_error l i = Some a -> P a (f i a)) -> Forall2 P l (mapi f l).
Proof.
  unfold mapi. intros H. assert (G : forall l k, (forall i a, nth_error l i = Some a -> P a (f (k + i)%nat a)) -> Forall2 P l (map (fun p => f (fst p) (snd p)) (List.combine (seq k (List.length l)) l))).
  { clear. induction l as [|a l IH]; intros k H; [constructor|]. cbn [List.length seq List.combine map fst snd]. constructor.
    - specialize (H 0%nat a eq_refl). now rewrite Nat.add_0_r in H.
    - apply (IH (S k)). intros i b Hb. rewrite Nat.add_succ_comm. now apply (H (S i)). }
  apply (G l 0%nat). auto.
Qed.
Lemma Forall2_trans' {A B C} (P : A -> B -> Prop) (Q : B -> C -> Prop) (W : A -> C -> Prop) l1 l2 l3 :
  (forall a b c, P a b -> Q b c -> W a c) -> Forall2 P l1 l2 -> Forall2 Q l2 l3 -> Forall2 W l1 l3.
Proof. intros H F. revert l3. induction F; intros l3 G; inversion G; subst; constructor; eauto. Qed.
Lemma F2_nth {A B} (P : A -> B -> Prop) l l' : Forall2 P l l' -> forall i b, nth_error l' i = Some b -> exists a, nth_error l i = Some a /\ P a b.
Proof. induction 1; intros i c Hi; destruct i; cbn in Hi; try discriminate; [injection Hi as <-; exists x; auto|]. now apply IHForall2. Qed.

Theorem round_trip em n ref s rest : complete_map em n -> stored n ref s -> proper_cell ref s ->
  exists text s', writeToFile em ref s = Some text /\
    readFromFile em (Strings.split (text ++ rest) ch_lf) (newStructure n) = Some (s', Strings.split rest ch_lf) /\ same_structure ref s s'.
Proof.
  intros Hm Hs Hp. destruct (read_file em n ref s rest Hm Hs Hp) as (per & l' & E & Lp & Fp & Hl).
  exists (text_of (file_lines em ref s)), (finish n ref s per l'). split; [now apply (written em n)|]. split; auto.
  unfold same_structure. split. { unfold finish, read_raw, with_cell. destruct (fs_periodic s) eqn:Ep; cbn; auto. }
  split. { intros Ep. unfold finish, read_raw, with_cell. rewrite Ep. cbn. auto. }
  split. { unfold finish, read_raw, with_cell. destruct (fs_periodic s); reflexivity. }
  split; [reflexivity|]. split; [reflexivity|]. split; [reflexivity|]. split; [|split; [|exact Fp]].
  - change (fs_atoms (finish n ref s per l')) with l'. unfold same_atom. destruct (fs_periodic s) eqn:Ep.
    + destruct Hl as [_ F]. eapply Forall2_trans'; [|apply (Forall2_mapi (fun i a => read_atom ref n i 0 a) (fun a b => exists i, b = read_atom ref n i 0 a))|exact F].
      * intros a b c (i & ->) (H1 & H2 & H3 & H4 & H5 & H6 & H7 & H8 & H9 & H10 & H11). cbn in *. auto 10.
      * intros i a _. now exists i.
    + subst l'. apply Forall2_mapi. intros i a _. cbn. auto.
  - change (fs_atoms (finish n ref s per l')) with l'. intros i a' Hn. destruct (fs_periodic s).
    + destruct Hl as [_ F]. destruct (F2_nth _ _ _ F i a' Hn) as (a & Ha & R1 & _ & R3 & _). unfold raw_atoms in Ha. rewrite nth_error_mapi in Ha.
      destruct (nth_error (fs_atoms s) i); [|discriminate]. injection Ha as <-. cbn in *. auto.
    + subst l'. unfold raw_atoms in Hn. rewrite nth_error_mapi in Hn. destruct (nth_error (fs_atoms s) i); [|discriminate]. injection Hn as <-. cbn; auto.
Qed.

(** ** Positions inside the cell *)
Lemma round_trip_wrapped em n ref s rest : complete_map em n -> stored n ref s -> proper_cell ref s -> (fs_periodic s = true -> wrapped s) ->
  exists text s', writeToFile em ref s = Some text /\
    readFromFile em (Strings.split (text ++ rest) ch_lf) (newStructure n) = Some (s', Strings.split rest ch_lf) /\ same_structure ref s s' /\
    map fa_r (fs_atoms s') = map fa_r (fs_atoms s).
Proof.
  intros Hm Hs Hp Hw. destruct (round_trip em n ref s rest Hm Hs Hp) as (text & s' & W & E & S). exists text, s'. split; auto. split; auto. split; auto.
  destruct (read_file em n ref s rest Hm Hs Hp) as (per & l' & E' & _ & _ & Hl).
  rewrite (written em n ref s Hm Hs) in W. injection W as <-. rewrite E' in E. injection E as <-.
  change (fs_atoms (finish n ref s per l')) with l'.
  assert (El : l' = raw_atoms n ref s).
  { destruct (fs_periodic s) eqn:Ep; auto. destruct Hl as [El _]. rewrite remap_none in El.
    - now injection El. - apply (Hp Ep).
    - intros a Ha. apply raw_in in Ha as (i & a0 & Hn & ->). cbn. apply (Hw eq_refl). now apply nth_error_In in Hn. }
  subst l'. apply SetupProofs.list_nth_ext. intros i. rewrite !nth_error_map. unfold raw_atoms. rewrite nth_error_mapi.
  destruct (nth_error (fs_atoms s) i); reflexivity.
Qed.
Lemma off_diagonal_spec b : off_diagonal b = true <-> dbl_min < vy (m0 b) \/ dbl_min < vz (m0 b) \/ dbl_min < vx (m1 b) \/ dbl_min < vz (m1 b) \/ dbl_min < vx (m2 b) \/ dbl_min < vy (m2 b).
Proof.
  unfold off_diagonal. rewrite !orb_true_iff.
  assert (G : forall a, gtR a dbl_min = true <-> dbl_min < a). { intros a. unfold gtR. destruct (Rlt_dec dbl_min a); split; intros; auto; discriminate. }
  rewrite !G. tauto.
Qed.
Theorem exact_round_trip em n s rest : complete_map em n -> stored n true s -> proper_cell true s -> (fs_periodic s = true -> wrapped s) -> as_read n s ->
  exists text, writeToFile em true s = Some text /\
    readFromFile em (Strings.split (text ++ rest) ch_lf) (newStructure n) = Some (s, Strings.split rest ch_lf).
Proof.
  intros Hm Hs Hp Hw (A1 & A2 & A3 & A4 & A5 & A6 & A7 & A8 & A9 & A10 & A11).
  destruct (read_file em n true s rest Hm Hs Hp) as (per & l' & E & Lp & Fp & Hl).
  exists (text_of (file_lines em true s)). split; [now apply (written em n)|]. rewrite E. f_equal. f_equal.
  assert (Er : raw_atoms n true s = fs_atoms s).
  { apply SetupProofs.list_nth_ext. intros i. unfold raw_atoms. rewrite nth_error_mapi. destruct (nth_error (fs_atoms s) i) as [a|] eqn:Ea; auto. cbn [option_map]. f_equal.
    destruct (A11 i a Ea) as (B1 & B2 & B3 & B4 & B5 & B6). destruct a. cbn in *. subst. reflexivity. }
  assert (El : l' = fs_atoms s).
  { destruct (fs_periodic s) eqn:Ep; [|congruence]. destruct Hl as [El _]. rewrite Er, remap_none in El.
    - now injection El. - apply (Hp Ep). - apply (Hw eq_refl). }
  assert (Ep : per = fs_perElement s).
  { apply (nth_ext _ _ 0%nat 0%nat). congruence. intros e _. now rewrite Fp, A10. }
  subst l' per. clear E Hl Er Fp Lp. unfold finish, read_raw, with_cell, present. rewrite <- A7.
  unfold derived_cell in A8. unfold energy_of, total_charge_of. destruct (fs_periodic s) eqn:Ep.
  - destruct A8 as (V & I & T). assert (Et : off_diagonal (fs_box s) = fs_triclinic s).
    { fold dbl_min in T. rewrite <- off_diagonal_spec in T. destruct T as [T1 T2]. destruct (off_diagonal (fs_box s)), (fs_triclinic s); auto. now rewrite T2. }
    destruct s. cbn in *. subst. rewrite orb_false_r. reflexivity.
  - destruct A8 as (V & I & B & T). destruct s. cbn in *. subst. reflexivity.
Qed.

(** ** Several structures *)
Lemma file_starts em ref s rest : exists r, file_lines em ref s ++ rest = lit "begin" :: r.
Proof. rewrite file_lines_inner. cbn [app]. eauto. Qed.
Theorem several em n ref l : complete_map em n -> (forall s, In s l -> stored n ref s /\ proper_cell ref s) ->
  exists texts l', omap (writeToFile em ref) l = Some texts /\
    readStructures (List.length l) em n (Strings.split (List.concat texts) ch_lf) = Some l' /\ Forall2 (same_structure ref) l l'.
Proof.
  intros Hm. induction l as [|s l IH]; intros H.
  - exists [], []. auto using Forall2_nil.
  - destruct IH as (texts & l' & W & E & F); [intros; apply H; now right|].
    destruct (H s (or_introl eq_refl)) as [Hs Hp].
    destruct (round_trip em n ref s (List.concat texts) Hm Hs Hp) as (text & s' & W1 & E1 & S1).
    exists (text :: texts), (s' :: l'). split; [cbn [omap]; now rewrite W1, W|]. split; [|constructor; auto].
    cbn [List.length List.concat readStructures]. destruct (Strings.split (text ++ List.concat texts) ch_lf) as [|x r] eqn:Ex.
    + exfalso. rewrite (written em n ref s Hm Hs) in W1. injection W1 as <-. unfold text_of in Ex. rewrite split_lines in Ex by now apply (lines_plain em n).
      destruct (file_starts em ref s (Strings.split (List.concat texts) ch_lf)) as (q & Eq). assert (X := eq_trans (eq_sym Eq) Ex). discriminate X.
    + rewrite E1, E. reflexivity.
Qed.
