(** Training and test set files (C94). *)
From Coq Require Import Reals Lra ZArith List Ascii Bool Arith Lia Permutation.
From Verif Require Import Base.Vec3 Base.SumR Model.Strings Model.ElementMap Model.NeighborList Model.Units Model.Errors Model.StructureFile Model.Prediction Model.Dataset Model.SetFiles
  Spec.UnitsSpec Spec.StructureFileSpec Spec.PredictionSpec Spec.ConvertSpec Spec.SetFilesSpec
  Proofs.StringProofs Proofs.UnitsProofs Proofs.NormalizationProofs Proofs.StructureFileText Proofs.StructureFileProofs Proofs.StructureFileRound Proofs.StructureFileRead Proofs.PredictionProofs Proofs.CollectiveProofs Proofs.StructureFileExamples.
From Coq Require Import List.
Import ListNotations.
Local Open Scope R_scope.

Lemma nth_seq_id {A} (l : list A) d : map (fun i => nth i l d) (seq 0 (List.length l)) = l.
Proof. induction l as [|a l IH]; auto. cbn [List.length seq map nth]. f_equal. rewrite <- seq_shift, map_map. exact IH. Qed.
Section Sets.
Variables (em : element_map) (n : nat) (offsets : list R).
Hypotheses (Cm : complete_map em n) (Lo : List.length offsets = n).
Definition M0 : pmode := mkPMode n offsets false 0 0 0 0.
Lemma units0 : proper_units M0.
Proof. split; [exact Lo|discriminate]. Qed.
Lemma total0 s : total_offset M0 s = offset_sum offsets s.
Proof. reflexivity. Qed.
Lemma remove_ok s : consistent n s -> shiftRef removeEnergyOffset offsets s = Some (set_refs s (fs_energyRef s - offset_sum offsets s) (fs_chargeRef s)).
Proof.
  intros C. unfold shiftRef. change offsets with (pm_offsets M0) at 1. rewrite (shift_minus M0 s units0 C (q_of s) eq_refl). reflexivity.
Qed.
Lemma distributed_memory s : consistent n s -> exists m, distributed_structure offsets s = Some m /\ in_memory offsets s m.
Proof. intros C. eexists. split; [apply remove_ok; exact C|reflexivity]. Qed.
Lemma add_ok s m : consistent n s -> in_memory offsets s m -> shiftRef addEnergyOffset offsets m = Some s.
Proof.
  intros C ->. unfold shiftRef. change (addEnergyOffset offsets) with (addEnergyOffset (pm_offsets M0)). rewrite (shift_plus M0 s units0 C true) by reflexivity. cbn [obind]. f_equal.
  rewrite total0. cbn [q_of set_energies qs_energyRef set_refs fs_energyRef fs_chargeRef]. destruct s. unfold set_refs. cbn. f_equal. ring.
Qed.
Definition fine (s : fstruct) : Prop := consistent n s /\ stored n true s /\ proper_cell true s.
Lemma local l mem : (forall s, In s l -> fine s) -> Forall2 (in_memory offsets) l mem ->
  exists ta te, omap (writeToFile em true) (filter training l) = Some ta /\ omap (writeToFile em true) (filter test l) = Some te /\
    writeSetsLocal em offsets mem = Some (List.concat ta, List.concat te, mem).
Proof.
  intros H F. induction F as [|s m l mem Hm F IH].
  - exists [], []. auto.
  - destruct IH as (ta & te & A & B & E); [intros; apply H; now right|]. destruct (H s (or_introl eq_refl)) as (C & St & Pc).
    destruct (round_trip em n true s [] Cm St Pc) as (t & _ & W & _).
    cbn [writeSetsLocal]. rewrite (add_ok s m C Hm). cbn [obind]. rewrite (remove_ok s C). unfold in_memory in Hm. rewrite <- Hm. rewrite E.
    cbn [filter]. unfold training at 1, test at 1. destruct (fs_sample s); cbn [obind].
    + exists ta, te. split; [exact A|]. split; [exact B|]. reflexivity.
    + rewrite W. cbn [obind]. exists (t :: ta), te. split; [cbn [omap]; rewrite W; fold (omap (writeToFile em true)); now rewrite A|]. split; [exact B|]. reflexivity.
    + rewrite W. cbn [obind]. exists ta, (t :: te). split; [exact A|]. split; [cbn [omap]; rewrite W; fold (omap (writeToFile em true)); now rewrite B|]. reflexivity.
Qed.
Lemma omap_app {A B} (f : A -> option B) l k x y : omap f l = Some x -> omap f k = Some y -> omap f (l ++ k) = Some (x ++ y).
Proof.
  revert x. induction l as [|a l IH]; intros x Hx Hy; [cbn in Hx; injection Hx as <-; exact Hy|]. cbn [omap app] in *. fold (omap f) in *. destruct (f a); [|discriminate].
  destruct (omap f l); [|discriminate]. injection Hx as <-. now rewrite (IH l0 eq_refl Hy).
Qed.
Lemma all_local orig procs : (forall s, In s (List.concat orig) -> fine s) -> Forall2 (Forall2 (in_memory offsets)) orig procs ->
  exists res ta te, omap (writeSetsLocal em offsets) procs = Some res /\ map snd res = procs /\ List.length res = List.length procs /\
    omap (writeToFile em true) (filter training (List.concat orig)) = Some ta /\ omap (writeToFile em true) (filter test (List.concat orig)) = Some te /\
    List.concat (map (fun r => fst (fst r)) res) = List.concat ta /\ List.concat (map (fun r => snd (fst r)) res) = List.concat te.
Proof.
  intros H F. induction F as [|l mem orig procs Hl F IH].
  - exists [], [], []. auto 10.
  - destruct IH as (res & ta & te & A & B & L & C & D & E1 & E2); [intros; apply H; cbn; apply in_or_app; now right|].
    destruct (local l mem) as (xa & xe & X1 & X2 & X3); [intros; apply H; cbn; apply in_or_app; now left|exact Hl|].
    exists ((List.concat xa, List.concat xe, mem) :: res), (xa ++ ta), (xe ++ te). cbn [omap map List.concat List.length fst snd]. rewrite X3. fold (omap (writeSetsLocal em offsets)). rewrite A.
    split; [reflexivity|]. split; [now rewrite B|]. split; [now rewrite L|]. rewrite !filter_app.
    split; [now apply omap_app|]. split; [now apply omap_app|]. rewrite E1, E2, !concat_app. auto.
Qed.
Lemma combine_texts (res : list (str * str * list fstruct)) (f : str * str * list fstruct -> str) m : m = List.length res ->
  exists g, combineFiles m (fun i => option_map f (nth_error res i)) = (true, g) /\ f_combined g = List.concat (map f res).
Proof.
  intros ->. set (d := ([], [], []) : str * str * list fstruct).
  destruct (combine_files (List.length res) (fun i => option_map f (nth_error res i)) (fun i => f (nth i res d))) as (g & E & X & _).
  { intros i Hi. rewrite (nth_error_nth' res d Hi). reflexivity. }
  exists g. split; [exact E|]. rewrite X. f_equal. rewrite <- (map_map (fun i => nth i res d) f). f_equal. apply nth_seq_id.
Qed.
Lemma read_structures fuel stream l : readStructures fuel em n stream = Some l -> ConvertSpec.read_all em n stream l.
Proof.
  revert stream l. induction fuel as [|k IH]; intros stream l; destruct stream as [|x stream]; cbn [readStructures].
  - intros H. injection H as <-. constructor.
  - discriminate.
  - intros H. injection H as <-. constructor.
  - destruct (readFromFile em (x :: stream) (newStructure n)) as [[s rest]|] eqn:E; [|discriminate]. destruct (readStructures k em n rest) as [r|] eqn:E2; [|discriminate].
    intros H. injection H as <-. eapply read_more; [discriminate|exact E|]. now apply IH.
Qed.
Theorem set_files orig procs : (forall s, In s (List.concat orig) -> fine s) -> Forall2 (Forall2 (in_memory offsets)) orig procs ->
  exists train testf lt le, writeSetsToFiles em offsets procs = Some (train, testf, procs) /\
    ConvertSpec.read_all em n (Strings.split train ch_lf) lt /\ Forall2 (same_structure true) (filter training (List.concat orig)) lt /\
    ConvertSpec.read_all em n (Strings.split testf ch_lf) le /\ Forall2 (same_structure true) (filter test (List.concat orig)) le /\
    ((forall s, In s (List.concat orig) -> fs_sample s <> ST_UNKNOWN) -> (List.length lt + List.length le = List.length (List.concat orig))%nat).
Proof.
  intros H F. destruct (all_local orig procs H F) as (res & ta & te & A & B & L & C & D & E1 & E2).
  assert (G : forall (p : fstruct -> bool) s, In s (filter p (List.concat orig)) -> stored n true s /\ proper_cell true s).
  { intros p s Hs. apply filter_In in Hs as [Hs _]. apply H in Hs. unfold fine in Hs. tauto. }
  destruct (several em n true (filter training (List.concat orig)) Cm (G training)) as (ta' & lt & W1 & R1 & S1). rewrite C in W1. injection W1 as <-.
  destruct (several em n true (filter test (List.concat orig)) Cm (G test)) as (te' & le & W2 & R2 & S2). rewrite D in W2. injection W2 as <-.
  destruct (combine_texts res (fun r => fst (fst r)) (List.length procs) (eq_sym L)) as (g1 & K1 & T1).
  destruct (combine_texts res (fun r => snd (fst r)) (List.length procs) (eq_sym L)) as (g2 & K2 & T2).
  exists (List.concat ta), (List.concat te), lt, le. split.
  { unfold writeSetsToFiles. rewrite A. cbn [obind]. unfold str in *. rewrite K1, K2. cbn [andb]. rewrite T1, T2, E1, E2, B. reflexivity. }
  split; [eapply read_structures; exact R1|]. split; [exact S1|]. split; [eapply read_structures; exact R2|]. split; [exact S2|].
  intros Lb. rewrite <- (F2_length _ _ _ S1), <- (F2_length _ _ _ S2). clear - Lb. induction (List.concat orig) as [|s l IH]; [reflexivity|].
  specialize (IH (fun x Hx => Lb x (or_intror Hx))). assert (X := Lb s (or_introl eq_refl)). cbn [filter List.length]. unfold training at 1, test at 1. destruct (fs_sample s); cbn [List.length]; [congruence|lia|lia].
Qed.
End Sets.
