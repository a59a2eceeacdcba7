(** Examples for the set-up of symmetry functions. *)
From Coq Require Import Reals Lra Lia ZArith Bool Arith Permutation Sorted.
From Coquelicot Require Import Coquelicot.
From Coq Require Import List.
From Verif Require Import Base.Vec3 Base.SumR Base.Loop Model.CoreFunction Model.CutoffFunction Model.CompactScreening
  Model.Strings Model.Scaling Model.NeighborList Model.SymFunctions Model.SymSetup
  Spec.CompactSpec Spec.SymSpec Spec.SetupSpec Proofs.SymApi Proofs.SymExamples Proofs.SetupProofs.
Import ListNotations.
Local Open Scope R_scope.

(** Insertion sort sorts with any strict weak order. *)
Fixpoint insert {A} (lt : A -> A -> bool) (x : A) (l : list A) : list A :=
  match l with [] => [x] | y :: r => if lt y x then y :: insert lt x r else x :: y :: r end.
Definition isort {A} (lt : A -> A -> bool) (l : list A) : list A := fold_right (insert lt) [] l.
Lemma insert_perm {A} (lt : A -> A -> bool) x l : Permutation (x :: l) (insert lt x l).
Proof.
  induction l as [|y r IH]; cbn; auto. destruct (lt y x); auto. eapply perm_trans; [apply perm_swap|]. now constructor.
Qed.
Lemma insertion_sorts {A} (lt : A -> A -> bool) : strict_weak_order (fun _ => True) lt -> sorts lt (isort lt).
Proof.
  intros (I & T & N). assert (NT : forall x y z, lt y x = false -> lt z y = false -> lt z x = false).
  { intros x y z A0 B. destruct (lt z x) eqn:C; auto. destruct (lt x y) eqn:D.
    - assert (X := T z x y Logic.I Logic.I Logic.I C D). congruence.
    - destruct (lt y z) eqn:E. { assert (X := T y z x Logic.I Logic.I Logic.I E C). congruence. }
      destruct (N x y z Logic.I Logic.I Logic.I D A0 E B). congruence. }
  intros l. split; induction l as [|x l IH]; cbn; auto; try constructor.
  - eapply perm_trans; [|apply insert_perm]. now constructor.
  - fold (isort lt l). revert IH. generalize (isort lt l). intros l'. induction l' as [|y r IHr]; intros IH; cbn; [constructor; constructor|].
    apply StronglySorted_inv in IH. destruct IH as (S & F). destruct (lt y x) eqn:E.
    + constructor; auto. apply (Permutation_Forall (insert_perm lt x r)). constructor; auto.
      destruct (lt x y) eqn:E2; auto. assert (X := T x y x Logic.I Logic.I Logic.I E2 E). rewrite I in X; auto.
    + constructor; [constructor; auto|]. constructor; auto. eapply Forall_impl; [|exact F]. cbn. intros z Hz. eapply NT; eauto.
Qed.
Lemma isort_sorts : sorts sf_lt (isort sf_lt).
Proof. apply insertion_sorts, sf_lt_order. Qed.

Lemma ex_sorted : sortSymmetryFunctions (isort sf_lt) [ex_rad2; ex_rad] = [set_index 0 ex_rad; set_index 1 ex_rad2].
Proof.
  unfold sortSymmetryFunctions, isort. cbn [fold_right insert].
  assert (E : sf_lt ex_rad ex_rad2 = true).
  { unfold sf_lt. cbn. repeat (destruct (Rlt_dec _ _); try lra); auto. }
  rewrite E. reflexivity.
Qed.

Lemma ex_addMember : addMember (sf_kind ex_rad) (sf_kind ex_rad2) = true /\ addMember (sf_kind ex_rad) (sf_kind ex_ang) = false.
Proof. split; [|reflexivity]. apply addMember_iff. cbn. unfold common_cutoff. auto. Qed.
Lemma ex_groups : setupGroups (fun l => l) (fun l => l) [ex_rad; ex_ang; ex_rad2] = [[ex_rad; ex_rad2]; [ex_ang]].
Proof.
  unfold setupGroups. cbn [fold_left place]. destruct ex_addMember as (A & B). rewrite B. cbn [place]. rewrite A. reflexivity.
Qed.

(** The same atom in units half as long. *)
Definition ex_atom2 : atom :=
  mkAtom 0 vzero true true 2 2 [1;1]%nat [0;1;2]%nat [mkNb 1 0 0 2 (mkVec 2 0 0); mkNb 2 0 1 2 (mkVec 0 2 0)] [].
Lemma ex_atom2_scaled : env_of (a_nbs ex_atom2) = scaled 2 (env_of (a_nbs ex_atom)).
Proof. unfold ex_atom2, scaled, env_of. cbn. unfold smul. cbn. repeat f_equal; ring. Qed.
Lemma ex_good2 : good_list ex_atom2.
Proof.
  split; [reflexivity|]. split.
  - intros n [<-|[<-|[]]]; cbn [nb_d nb_dr]; unfold norm, norm2; cbn [vx vy vz];
      replace (_ + _) with (2 * 2) by ring; rewrite sqrt_square; lra.
  - intros rc. split; [cbn; lia|]. cbn. intros j n Hj Hn. destruct j as [|[|[|j]]]; try lia; discriminate.
Qed.
Lemma ex_numbered : numbered [ex_rad; ex_ang; ex_comp].
Proof. intros [|[|[|[|j]]]] f E; try discriminate; injection E as <-; reflexivity. Qed.
Lemma ex_smooth_all f : In f [ex_rad; ex_ang; ex_comp] -> no_slots f /\ admissible (sf_kind f) /\
  smooth_at (sf_kind f) (env_of (a_nbs ex_atom)) /\ scaling_setup (sf_scaling (sf_c f)).
Proof.
  intros H. split; [now apply ex_all|]. destruct H as [<-|[<-|[<-|[]]]].
  - destruct ex_smooth_rad. auto using ex_scaling.
  - destruct ex_smooth_ang. auto using ex_scaling.
  - destruct ex_smooth_comp. auto using ex_scaling.
Qed.
Lemma ex_memory : exists fs' table nums, setupMemory 2 [ex_rad; ex_ang; ex_comp] = (fs', table, nums) /\
  table 0%nat = [0;1;2]%nat /\ table 1%nat = [1;2]%nat /\ nums = [3;2]%nat.
Proof. do 3 eexists. split; [reflexivity|]. split; [reflexivity|]. split; reflexivity. Qed.
Lemma ex_elements n : In n (a_nbs ex_atom) -> (nb_element n < 2)%nat.
Proof. intros [<-|[<-|[]]]; cbn; lia. Qed.
