(** Conversion to XYZ and POSCAR (C93): structures without cell, examples. *)
From Coq Require Import Reals Lra ZArith List Ascii String Bool Arith Lia Permutation.
From Verif Require Import Base.Vec3 Model.Strings Model.Printf Model.SymLines Model.ElementMap Model.Geometry Model.NeighborList Model.Units Model.Errors Model.StructureFile Model.DataFiles Model.Convert
  Spec.StringSpec Spec.ElementSpec Spec.PrintfSpec Spec.StructureFileSpec Spec.PredictionSpec Spec.ConvertSpec
  Proofs.StringProofs Proofs.ElementMapProofs Proofs.PrintfProofs Proofs.StructureFileText Proofs.StructureFileRound Proofs.StructureFileRead Proofs.StructureFileExamples Proofs.DataFilesText Proofs.ConvertProofs Proofs.ConvertMain.
From Coq Require Import List.
Import ListNotations.
Local Open Scope R_scope.

Definition lone : fstruct := mkFS false false 0 1 2 1 0 0 0 0 0 ST_UNKNOWN (lit "one atom") zero_mat zero_mat [1%nat; 0%nat]
  [mkFA 0 0 0 0 vzero 0 0 vzero vzero [0%nat; 0%nat]].
Lemma lone_consistent : consistent 2 lone.
Proof.
  split; [reflexivity|]. split; [reflexivity|]. split; [reflexivity|]. split; [|split; [|discriminate]].
  - intros [|[|e]]; try reflexivity. cbn. destruct e; reflexivity.
  - intros [|i] a H; [injection H as <-; cbn; auto|]. destruct i; discriminate.
Qed.
Lemma lines_split text lines : text_lines text lines -> Strings.split text ch_lf = lines.
Proof.
  intros [-> F]. rewrite <- (app_nil_r (List.concat _)), StructureFileText.split_lines by (intros l Hl; rewrite Forall_forall in F; auto). cbn. now rewrite app_nil_r.
Qed.
Theorem no_cell : exists s text, consistent 2 s /\ printable s /\ plain_comment (fs_comment s) /\ writeToFilePoscar H2O (lit "O H") s = Some text /\
  forall lines comment symbols b groups, text_lines text lines -> ~ poscar lines comment symbols b groups.
Proof.
  set (head := lit "one atom, ATOM=O H").
  exists lone, (List.concat (map (fun l => l ++ [ch_lf]) [head; lit "1.0"; lit "0 1"; lit "Cartesian"; triple vzero])).
  split; [exact lone_consistent|]. split; [split; [reflexivity|split; [discriminate|]]|split; [|split]].
  - intros a [<-|[]]. assert (D : double 0) by (apply (double_int 0); reflexivity). repeat split; exact D.
  - split; [cbn; intuition discriminate|]. split; [cbn; intuition discriminate|]. cbn; lia.
  - unfold writeToFilePoscar. change (omap (em_index H2O) (Strings.split (lit "O H") ch_space)) with (Some [1%nat; 0%nat]). cbn [obind].
    match goal with |- outputs ?l = _ => assert (G : given l [lit "one atom, "; lit "ATOM=O"; lit " H"; [ch_lf]; lit "1.0" ++ [ch_lf]; lit "0"; lit " 1"; [ch_lf]; lit "Cartesian" ++ [ch_lf]; triple vzero ++ [ch_lf]]) end.
    { do 9 (constructor; [vm_compute; reflexivity|]). constructor; [unfold writePoscarAtom; apply line_short; rewrite triple_length; lia|constructor]. }
    rewrite (outputs_given _ _ G). f_equal.
  - intros lines comment symbols b groups T (r0 & r1 & r2 & counts & ws & bodies & E & (w & W & R) & _).
    assert (T2 : text_lines (List.concat (map (fun l => l ++ [ch_lf]) [head; lit "1.0"; lit "0 1"; lit "Cartesian"; triple vzero])) [head; lit "1.0"; lit "0 1"; lit "Cartesian"; triple vzero]).
    { split; [reflexivity|]. repeat (constructor; [first [apply triple_no_lf|vm_compute; intuition discriminate]|]). constructor. }
    apply lines_split in T, T2. rewrite T in T2. rewrite E in T2. injection T2 as _ E3 _. subst r0.
    apply is_words_iff in W. vm_compute in W. subst w. discriminate R.
Qed.

Lemma ion_printable : printable read_ion.
Proof.
  destruct read_ion_case as ((_ & B & _ & _ & A) & _). split; [reflexivity|]. split; [exact B|]. intros a Ha. apply A; auto.
Qed.
Lemma ion_file : exists stream, read_all H2O 2 stream [read_ion; read_ion].
Proof.
  destruct read_ion_case as (St & Pc & W & Ar).
  destruct (exact_round_trip H2O 2 read_ion [] H2O_complete St Pc (fun _ => W) Ar) as (t & Et & R0).
  destruct (exact_round_trip H2O 2 read_ion t H2O_complete St Pc (fun _ => W) Ar) as (t' & Et' & R1). rewrite Et in Et'. injection Et' as <-.
  exists (Strings.split (t ++ t) ch_lf). rewrite app_nil_r in R0.
  eapply read_more; [|exact R1|eapply read_more; [|exact R0|apply read_none]]; intros E; [rewrite E in R1; discriminate|rewrite E in R0; discriminate].
Qed.
Lemma convert_case : chemical [lit "O"; lit "H"] /\ registerElements em_init (join (lit " ") [lit "O"; lit "H"]) = Some (H2O, 2%nat) /\
  (exists stream, read_all H2O 2 stream [read_ion; read_ion]) /\ Forall printable [read_ion; read_ion] /\
  Forall (fun s => fs_periodic s = true /\ plain_comment (fs_comment s)) [read_ion; read_ion].
Proof.
  split; [split|].
  - constructor; [intros [E|[]]; discriminate|]. constructor; [intros []|constructor].
  - intros s [<-|[<-|[]]]; [exists 8%nat|exists 1%nat]; (split; [lia|reflexivity]).
  - split; [vm_compute; reflexivity|]. split; [exact ion_file|]. split.
    + apply Forall_forall. intros s [<-|[<-|[]]]; exact ion_printable.
    + destruct read_ion_case as (B & _). apply Forall_forall. intros s [<-|[<-|[]]]; (split; [reflexivity|exact (proj1 B)]).
Qed.
