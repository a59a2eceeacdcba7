(** Concrete cases for C68. *)
From Coq Require Import Reals Lra Lia ZArith Bool Arith Permutation.
From Coquelicot Require Import Coquelicot.
From Coq Require Import List.
From Verif Require Import Base.Vec3 Base.SumR Model.NeuralNetwork Model.Scaling Model.NeighborList Model.SymFunctions
  Model.SymCache Model.SymSetup Model.SymGroups Model.Forces Model.GroupEvaluation
  Spec.NetworkSpec Spec.GeometrySpec Spec.NeighborSpec Spec.SymSpec Spec.SetupSpec Spec.GroupSpec Spec.ForceSpec Spec.EvaluationSpec Spec.InvarianceSpec
  Proofs.NeighborProofs Proofs.NeighborMore Proofs.SymExamples Proofs.ForceLocal Proofs.ForceProofs Proofs.ForceExamples Proofs.GroupForces Proofs.GroupForceExamples.
Import ListNotations.
Local Open Scope R_scope.

(** A quarter turn and a shift. *)
Definition quarter (v : vec) : vec := mkVec (1 - vy v) (vx v + 2) (vz v).
Lemma quarter_isometry : isometry quarter.
Proof. intros x y. unfold norm. f_equal. unfold norm2, quarter, vsub; cbn. ring. Qed.

(** The chain turned, in reverse order, with a sheared cell; its first atom in
    another image. *)
Definition turned_box : mat := mkMat (mkVec 0 4 0) (mkVec (-100) 4 0) (mkVec 0 0 100).
Definition turned : structure :=
  mkStruct true turned_box [fresh_atom 1 (mkVec (-2) 2 0) 2; fresh_atom 0 (mkVec (-99) 6 0) 2] 2 false false 0.
Definition swap (i : nat) : nat := (1 - i)%nat.
Lemma turned_det : det turned_box = 40000. Proof. unfold det, dot, cross, turned_box; cbn. ring. Qed.
Lemma turned_unprocessed : unprocessed chain_rc turned.
Proof.
  split; [|split; [|split; [|split]]].
  - intros a [<-|[<-|[]]]; cbn; auto 10.
  - intros a [<-|[<-|[]]]; reflexivity.
  - intros a [<-|[<-|[]]]; reflexivity.
  - intros _. split; [cbn [turned s_box]; rewrite turned_det; lra|]. intros a [<-|[<-|[]]].
    + exists (mkVec (48/100) (2/100) 0). split; [unfold in_cell; cbn; lra|apply vec_eq; cbn; lra].
    + exists (mkVec (51/100) (99/100) 0). split; [unfold in_cell; cbn; lra|apply vec_eq; cbn; lra].
  - cbn. unfold chain_rc. lra.
Qed.
Lemma turned_same : same_system quarter swap chain turned.
Proof.
  split; [exact quarter_isometry|]. split; [reflexivity|]. split.
  - intros _. split; intros [[a b] c].
    + exists (a - b, b, c)%Z. unfold linear_part, quarter, lattice, combine. cbn. apply vec_eq; cbn; rewrite ?minus_IZR; ring.
    + exists (a + b, b, c)%Z. unfold linear_part, quarter, lattice, combine. cbn. apply vec_eq; cbn; rewrite ?plus_IZR; ring.
  - split; [reflexivity|]. split.
    + intros [|[|i]] [|[|j]] Hi Hj; cbn in *; try lia; discriminate.
    + intros [|[|i]] a E; [| |destruct i; discriminate]; injection E as <-; eexists.
      * exists (0, 1, 0)%Z. split; [reflexivity|]. split; [reflexivity|]. split; [|discriminate].
        unfold quarter, lattice, combine; apply vec_eq; cbn; lra.
      * exists (0, 0, 0)%Z. split; [reflexivity|]. split; [reflexivity|]. split; [|discriminate].
        unfold quarter, lattice, combine; apply vec_eq; cbn; lra.
Qed.
Lemma both_listed rc s t : unprocessed rc s -> unprocessed rc t -> exists nsort fuel s' t', is_sort nsort /\
  calculateNeighborList nsort fuel rc false s = Some s' /\ calculateNeighborList nsort fuel rc false t = Some t'.
Proof.
  intros (U1 & _ & _ & W1 & _) (U2 & _ & _ & W2 & _). destruct id_sort_exists as [nsort Hs].
  destruct (list_terminates nsort rc false s) as (f1 & F1); [exact U1|intros H; now apply W1|].
  destruct (list_terminates nsort rc false t) as (f2 & F2); [exact U2|intros H; now apply W2|].
  destruct (F1 (Nat.max f1 f2) ltac:(lia)) as (s' & E1). destruct (F2 (Nat.max f1 f2) ltac:(lia)) as (t' & E2).
  exists nsort, (Nat.max f1 f2), s', t'. auto.
Qed.
Lemma smooth_evaluable P rc s : everywhere P rc s smooth_at -> everywhere P rc s evaluable.
Proof. intros H i a e f H1 H2 H3. exact (proj1 (H i a e f H1 H2 H3)). Qed.
Lemma turned_ok : sensible 2 chain_rc (chain_pot chain_ang 0) /\ same_system quarter swap chain turned /\
  unprocessed chain_rc chain /\ unprocessed chain_rc turned /\
  (exists nsort fuel s' t', is_sort nsort /\ calculateNeighborList nsort fuel chain_rc false chain = Some s' /\
     calculateNeighborList nsort fuel chain_rc false turned = Some t') /\
  everywhere (chain_pot chain_ang 0) chain_rc chain evaluable /\ in_range chain chain_rc 0 0 (1, 0, 0)%Z.
Proof.
  destruct chain_ok as (_ & H2 & _ & _ & _ & _ & H3). split; [apply chain_sensible; auto|]. split; [exact turned_same|]. split; [exact H2|]. split; [exact turned_unprocessed|].
  split; [apply both_listed; [exact H2|exact turned_unprocessed]|]. split; [apply smooth_evaluable, chain_smooth; auto|exact H3].
Qed.

(** The three atoms turned, with the last one first. *)
Definition three_turned : structure :=
  mkStruct false chain_box [fresh_atom 1 (mkVec (-2) 2 0) 2; fresh_atom 0 (mkVec 1 2 0) 2; fresh_atom 0 (mkVec 1 6 0) 2] 2 false false 0.
Definition cycle (i : nat) : nat := match i with 2%nat => O | _ => S i end.
Lemma three_turned_unprocessed : unprocessed chain_rc three_turned.
Proof.
  split; [|split; [|split; [|split]]].
  - intros a [<-|[<-|[<-|[]]]]; cbn; auto 10.
  - intros a [<-|[<-|[<-|[]]]]; reflexivity.
  - intros a [<-|[<-|[<-|[]]]]; reflexivity.
  - discriminate.
  - cbn. unfold chain_rc. lra.
Qed.
Lemma three_turned_same : same_system quarter cycle three three_turned.
Proof.
  split; [exact quarter_isometry|]. split; [reflexivity|]. split; [discriminate|]. split; [reflexivity|]. split.
  - intros [|[|[|i]]] [|[|[|j]]] Hi Hj; cbn in *; try lia; discriminate.
  - intros [|[|[|i]]] a E; [| | |destruct i; discriminate]; injection E as <-; eexists; exists (0, 0, 0)%Z;
      (split; [reflexivity|]; split; [reflexivity|]; split; [|reflexivity]); unfold quarter, lattice, combine; apply vec_eq; cbn; lra.
Qed.
Lemma three_turned_ok : sensible 2 chain_rc (scaled_potential duo_sc duo) /\ cached_and_grouped (text_of R (fun x => x) 1) (fun x => x) 1 duo_sc 2 duo /\
  same_system quarter cycle three three_turned /\ unprocessed chain_rc three /\ unprocessed chain_rc three_turned /\
  (exists nsort fuel s' t', is_sort nsort /\ calculateNeighborList nsort fuel chain_rc false three = Some s' /\
     calculateNeighborList nsort fuel chain_rc false three_turned = Some t') /\
  everywhere (scaled_potential duo_sc duo) chain_rc three evaluable /\ everywhere (scaled_potential duo_sc duo) chain_rc three distinct_neighbors /\
  in_range three chain_rc 0 1 (0, 0, 0)%Z /\ in_range three chain_rc 0 2 (0, 0, 0)%Z.
Proof.
  destruct duo_ok as (H1 & H2 & H3 & _ & H4 & H5 & H6 & H7 & H8 & H9 & _).
  split; [exact H1|]. split; [exact H2|]. split; [exact three_turned_same|]. split; [exact H3|]. split; [exact three_turned_unprocessed|].
  split; [apply both_listed; [exact H3|exact three_turned_unprocessed]|]. split; [now apply smooth_evaluable|auto 10].
Qed.
