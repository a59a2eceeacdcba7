(** Predictions (C91): an example with normalized units. *)
From Coq Require Import Reals Lra ZArith Permutation Bool Arith Lia.
From Coquelicot Require Import Coquelicot.
From Coq Require Import List Ascii String.
From Verif Require Import Base.Vec3 Base.SumR Model.Strings Model.ElementMap Model.NeuralNetwork Model.Scaling Model.Geometry Model.NeighborList Model.SymFunctions Model.SymCache Model.SymSetup Model.SymGroups
  Model.Forces Model.GroupEvaluation Model.Units Model.StructureFile Model.Prediction
  Spec.NetworkSpec Spec.GeometrySpec Spec.NeighborSpec Spec.SymSpec Spec.SetupSpec Spec.GroupSpec Spec.ForceSpec Spec.EvaluationSpec Spec.UnitsSpec Spec.PrintfSpec Spec.StructureFileSpec Spec.PredictionSpec
  Proofs.NeighborProofs Proofs.NeighborMore Proofs.GroupApi Proofs.ForceExamples Proofs.GroupForceExamples Proofs.KspaceProofs Proofs.PrintfProofs Proofs.StructureFileProofs Proofs.StructureFileRound Proofs.StructureFileExamples Proofs.GroupForces.
Import ListNotations.
Local Open Scope R_scope.

(** The box of a structure without periodic boundary conditions does not matter. *)
Definition other_box (b : mat) (s : structure) : structure :=
  mkStruct (s_periodic s) b (s_atoms s) (s_numElements s) (s_hasNL s) (s_sorted s) (s_maxrc s).
Lemma other_range b s rc i j m : s_periodic s = false -> in_range (other_box b s) rc i j m <-> in_range s rc i j m.
Proof.
  intros H. split; intros (ai & aj & H1 & H2 & H3 & H4 & H5); exists ai, aj; cbn [other_box s_atoms s_periodic] in *; repeat (split; [assumption|]);
    rewrite (H3 H) in *; unfold displacement, position_of_image in *; rewrite lattice_0 in *; exact H5.
Qed.
Lemma other_neighbourhood b s rc i e : s_periodic s = false -> neighbourhood (other_box b s) rc i e -> neighbourhood s rc i e.
Proof.
  intros H (L & H1 & H2 & F). exists L. split; auto. split; [intros j m; rewrite H2; now apply other_range|].
  assert (X : forall p, In p L -> s_periodic s = false -> snd p = (0, 0, 0)%Z).
  { intros [j m] Hp Hs. apply H2 in Hp as (ai & aj & _ & _ & K & _). now apply K. }
  clear H2 H1. induction F as [|p y L e Hpy F IH]; constructor.
  - destruct p as [j m]. destruct Hpy as (ai & aj & K1 & K2 & ->). exists ai, aj. split; auto. split; auto.
    assert (Z0 := X (j, m) (or_introl eq_refl) H). cbn [snd] in Z0. cbn [fst snd]. rewrite Z0. unfold displacement, position_of_image. now rewrite !lattice_0.
  - apply IH. intros q Hq. apply X. now right.
Qed.
Lemma other_everywhere b s P rc Q : s_periodic s = false -> everywhere P rc s Q -> everywhere P rc (other_box b s) Q.
Proof. intros H E i a e f H1 H2. apply E with i; auto. eapply other_neighbourhood; eauto. Qed.
Lemma other_regular b s P rc : s_periodic s = false -> regular_networks P rc s -> regular_networks P rc (other_box b s).
Proof. intros H E i a e H1 H2. apply E with i; auto. eapply other_neighbourhood; eauto. Qed.
Lemma other_no_self b s rc : s_periodic s = false -> no_self_image s rc -> no_self_image (other_box b s) rc.
Proof. intros H E i m X. apply (E i m). now apply (other_range b). Qed.

(** A bent molecule with positions in units of which two are one unit of the potential's. *)
Definition bent : fstruct :=
  mkFS false false 0 3 2 2 0 (-3/2) 0 0 0 ST_UNKNOWN (lit "bent molecule") zero_mat zero_mat [2%nat; 1%nat]
    [mkFA 0 0 0 0 vzero 0 (-1/2) vzero (mkVec (1/2) 0 0) [0%nat; 0%nat];
     mkFA 1 0 1 0 (mkVec 2 0 0) 0 (1/2) vzero (mkVec (-1/2) 0 0) [0%nat; 0%nat];
     mkFA 2 0 2 1 (mkVec 0 (3/2) 0) 0 0 vzero vzero [0%nat; 0%nat]].
Definition bent_mode : pmode := mkPMode 2 [-37; -1/2] true (-5) 3 2 1.
Lemma bent_stored : stored 2 true bent /\ proper_cell true bent /\ as_read 2 bent.
Proof.
  assert (D : forall z, (-10 <= z <= 10)%Z -> double (IZR z) /\ double (IZR z / 2)).
  { intros z Hz. split; [apply double_int|apply double_half]; lia. }
  split; [|split].
  - split; [|split; [|split; [|split]]].
    + split; [cbn; intuition discriminate|]. split; [cbn; intuition discriminate|]. cbn; lia.
    + discriminate.
    + cbn. apply D; lia.
    + cbn. apply (D 0%Z); lia.
    + intros a [<-|[<-|[<-|[]]]]; cbn; unfold double_vec; cbn; repeat split; try lia; try (apply D; lia).
  - discriminate.
  - split; [reflexivity|]. split; [reflexivity|]. split; [reflexivity|]. split; [reflexivity|]. split; [reflexivity|]. split; [reflexivity|]. split; [reflexivity|].
    split; [unfold derived_cell; cbn; auto|]. split; [reflexivity|]. split.
    + intros e. destruct e as [|[|e]]; try reflexivity. cbn. destruct e; reflexivity.
    + intros i a H. destruct i as [|[|[|i]]]; cbn in H; try (injection H as <-; cbn; auto 10). destruct i; discriminate.
Qed.
Lemma bent_read : exists text, readFromFile H2O (Strings.split text ch_lf) (newStructure 2) = Some (bent, Strings.split [] ch_lf).
Proof.
  destruct bent_stored as (A & B & C). destruct (exact_round_trip H2O 2 bent [] H2O_complete A B) as (text & _ & H); auto; [discriminate|].
  exists (text ++ [])%list. exact H.
Qed.
Lemma bent_units : in_model_units bent_mode bent = other_box zero_mat three.
Proof.
  unfold in_model_units, bent, other_box, three. cbn. unfold vzero, smul, fresh_atom. cbn. repeat f_equal; lra.
Qed.
Lemma bent_ok : (exists text, readFromFile H2O (Strings.split text ch_lf) (newStructure 2) = Some (bent, Strings.split [] ch_lf)) /\
  proper_units bent_mode /\ (fs_periodic bent = true -> det (fs_box bent) <> 0) /\ sensible 2 chain_rc (chain_pot chain_ang 1) /\ 0 <= chain_rc /\
  everywhere (chain_pot chain_ang 1) chain_rc (in_model_units bent_mode bent) evaluable /\
  everywhere (chain_pot chain_ang 1) chain_rc (in_model_units bent_mode bent) smooth_at /\
  regular_networks (chain_pot chain_ang 1) chain_rc (in_model_units bent_mode bent) /\
  no_self_image (in_model_units bent_mode bent) chain_rc /\ in_range (in_model_units bent_mode bent) chain_rc 0 1 (0, 0, 0)%Z.
Proof.
  destruct three_ok as (A1 & _ & _ & A2 & A3 & A4 & A5 & _). rewrite bent_units.
  assert (S : everywhere (chain_pot chain_ang 1) chain_rc (other_box zero_mat three) smooth_at) by now apply other_everywhere.
  split; [exact bent_read|]. split; [split; [reflexivity|intros _; cbn; lra]|]. split; [discriminate|]. split; [exact A1|].
  split; [unfold chain_rc; lra|]. split; [intros i a e f H1 H2 H3; apply (S i a e f H1 H2 H3)|]. split; [exact S|].
  split; [now apply other_regular|]. split; [now apply other_no_self|]. now apply other_range.
Qed.
Lemma bent_default_ok : sensible 2 chain_rc (scaled_potential duo_sc duo) /\ cached_and_grouped (SymCache.text_of R (fun x => x) 1) (fun x => x) 1 duo_sc 2 duo /\
  everywhere (scaled_potential duo_sc duo) chain_rc (in_model_units bent_mode bent) evaluable /\
  everywhere (scaled_potential duo_sc duo) chain_rc (in_model_units bent_mode bent) distinct_neighbors /\
  everywhere (scaled_potential duo_sc duo) chain_rc (in_model_units bent_mode bent) smooth_at /\
  regular_networks (scaled_potential duo_sc duo) chain_rc (in_model_units bent_mode bent).
Proof.
  destruct duo_ok as (A1 & A2 & _ & _ & A3 & A4 & A5 & _). rewrite bent_units.
  assert (S : everywhere (scaled_potential duo_sc duo) chain_rc (other_box zero_mat three) smooth_at) by now apply other_everywhere.
  split; auto. split; auto. split; [intros i a e f H1 H2 H3; apply (S i a e f H1 H2 H3)|]. split; [now apply other_everywhere|]. split; auto. now apply other_regular.
Qed.
