(** Concrete cases for the data set analysis (C87, C88). *)
From Coq Require Import Reals Lra Lia ZArith Bool Arith Permutation Sorted.
From Coq Require Import List.
From Verif Require Import Base.Vec3 Base.SumR Model.Geometry Model.NeighborList Model.SymLines Model.DataAnalysis Spec.NeighborSpec Spec.SetupSpec
  Spec.ScalingSpec Spec.DataAnalysisSpec Proofs.SetupExamples Proofs.NeighborMore Proofs.NeighborSort Proofs.EnvironmentProofs.
Import ListNotations.
Local Open Scope R_scope.

(** Structures with the neighbor lists calculated by the library are as supposed. *)
Theorem listed_after nsort nsort' fuel rc b G s s' : is_sort nsort -> is_sort nsort' -> no_list s -> zero_counters s -> wrapped s ->
  0 <= Rmax rc (s_maxrc s) -> calculateNeighborList nsort fuel rc b s = Some s' ->
  forall t, In t (sort_lists nsort' [map (fun a => mkEnv a (G a)) (s_atoms s')]) -> listed (s_numElements s) t.
Proof.
  intros S1 S2 NL ZC W RC C t T. destruct (list_correct _ _ _ _ _ _ S1 NL W RC C) as (LEN & AT).
  unfold sort_lists in T. cbn [map] in T. destruct T as [<- | []]. rewrite map_map. cbn [ea_atom ea_G]. intros a A. apply in_map_iff in A. destruct A as (x & <- & X).
  apply In_nth_error in X. destruct X as (i & X). cbn [ea_atom a_element a_perEl a_nbs].
  destruct (nth_error (s_atoms s) i) as [ai|] eqn:Ei.
  2:{ exfalso. apply nth_error_None in Ei. rewrite <- LEN in Ei. apply nth_error_None in Ei. congruence. }
  destruct (AT i ai Ei) as (ai2 & L & nbs & E2 & _ & EL & PM & F & ND & IN). rewrite X in E2. injection E2 as <-.
  destruct (S2 (a_nbs x)) as (P2 & Q2). destruct (counters_correct _ _ _ _ _ _ _ _ S1 NL ZC C X) as (_ & CNT & _).
  split; [|split; [|split]].
  - rewrite EL. apply (NL ai). eapply nth_error_In; eauto.
  - intros e E. rewrite (CNT e E). f_equal. unfold of_element.
    assert (PF : forall l m, Permutation l m -> length (filter (fun n => Nat.eqb e (nb_element n)) l) = length (filter (fun n => Nat.eqb (nb_element n) e) m)).
    { clear. intros l m H. rewrite (filter_ext (fun n => Nat.eqb (nb_element n) e) (fun n => Nat.eqb e (nb_element n))) by (intros; apply Nat.eqb_sym).
      induction H; cbn; auto; try congruence; repeat destruct (Nat.eqb _ _); cbn; auto. }
    apply PF. now symmetry.
  - intros n N. rewrite map_length, LEN. apply (Permutation_in _ P2) in N. apply (Permutation_in _ PM) in N.
    clear - F N NL. induction F as [|p m L nbs (aj & A1 & A2 & _ & A3 & _) _ IH]; [destruct N|]. destruct N as [<- | N]; auto.
    rewrite A2, A3. split; [apply (NL aj); eapply nth_error_In; eauto | apply nth_error_Some; congruence].
  - exact Q2.
Qed.

(** H, O and H on a line. *)
Definition ho_cell : structure := mkStruct false (mkMat vzero vzero vzero)
  [fresh_atom 0 (mkVec 0 0 0) 2; fresh_atom 1 (mkVec 1 0 0) 2; fresh_atom 0 (mkVec (-2) 0 0) 2] 2 false false 0.
Definition ho_lists : list atom :=
  [set_hasNL true (mkAtom 0 (mkVec 0 0 0) false false 2 3 [1; 1]%nat [0; 1; 2]%nat
     [mkNb 1 1 1 (norm (vsub (mkVec 0 0 0) (mkVec 1 0 0))) (vsub (mkVec 0 0 0) (mkVec 1 0 0)); mkNb 2 2 0 (norm (vsub (mkVec 0 0 0) (mkVec (-2) 0 0))) (vsub (mkVec 0 0 0) (mkVec (-2) 0 0))] []);
   set_hasNL true (mkAtom 1 (mkVec 1 0 0) false false 2 3 [2; 0]%nat [1; 0; 2]%nat
     [mkNb 0 0 0 (norm (vsub (mkVec 1 0 0) (mkVec 0 0 0))) (vsub (mkVec 1 0 0) (mkVec 0 0 0)); mkNb 2 2 0 (norm (vsub (mkVec 1 0 0) (mkVec (-2) 0 0))) (vsub (mkVec 1 0 0) (mkVec (-2) 0 0))] []);
   set_hasNL true (mkAtom 0 (mkVec (-2) 0 0) false false 2 3 [1; 1]%nat [2; 0; 1]%nat
     [mkNb 0 0 0 (norm (vsub (mkVec (-2) 0 0) (mkVec 0 0 0))) (vsub (mkVec (-2) 0 0) (mkVec 0 0 0)); mkNb 1 1 1 (norm (vsub (mkVec (-2) 0 0) (mkVec 1 0 0))) (vsub (mkVec (-2) 0 0) (mkVec 1 0 0))] [])].
Lemma ho_fresh : no_list ho_cell /\ zero_counters ho_cell /\ wrapped ho_cell.
Proof.
  split; [|split]; [| |intros H; discriminate H]; intros a [<- | [<- | [<- | []]]]; cbn; auto; repeat split; auto; lia.
Qed.
Lemma ho_calculated : exists s', calculateNeighborList (isort nb_lt) 1 10 false ho_cell = Some s' /\ s_atoms s' = ho_lists.
Proof.
  unfold calculateNeighborList. cbn [s_periodic ho_cell s_maxrc s_atoms mapi length seq combine map fst snd sequence calculate_atom push_unique fresh_atom
    a_element a_r a_hasNL a_sorted a_numN a_numU a_perEl a_unique a_nbs a_cutoffs repeat fold_left nonperiodic_step nth_error Nat.eqb push_neighbor incr_at app].
  rewrite (Rmax_left 10 0) by lra. unfold calculate_atom.
  cbn [s_periodic ho_cell s_maxrc s_atoms length seq fold_left nonperiodic_step nth_error Nat.eqb push_unique fresh_atom
    a_element a_r a_hasNL a_sorted a_numN a_numU a_perEl a_unique a_nbs a_cutoffs repeat app].
  repeat (cbn [push_neighbor incr_at push_unique fresh_atom repeat a_element a_r a_hasNL a_sorted a_numN a_numU a_perEl a_unique a_nbs a_cutoffs app nonperiodic_step nth_error Nat.eqb];
    match goal with |- context [Rle_dec ?a ?b] => destruct (Rle_dec a b) as [_|N]; [|exfalso; apply N; unfold norm2, vsub; cbn [vx vy vz]; lra] end).
  eexists. split; reflexivity.
Qed.
Lemma norm_line a b x : 0 <= x -> a - b = x \/ b - a = x -> norm (vsub (mkVec a 0 0) (mkVec b 0 0)) = x.
Proof.
  intros X H. unfold norm, norm2, vsub. cbn [vx vy vz]. replace (_ + _ + _) with (x * x) by (destruct H as [<- | <-]; ring). now apply sqrt_square.
Qed.
(** The columns of two hydrogen atoms: values of O then H for one, H then O for
    the other. *)
Theorem columns : exists nsort nsort' fuel rc s s' G lines i j,
  is_sort nsort /\ is_sort nsort' /\ no_list s /\ zero_counters s /\ wrapped s /\ 0 <= Rmax rc (s_maxrc s) /\
  calculateNeighborList nsort fuel rc false s = Some s' /\
  (forall a, In a (s_atoms s') -> length (G a) = 1%nat) /\
  writeAtomicEnvironmentFile 2 [[1; 1]; [0; 0]]%nat (sort_lists nsort' [map (fun a => mkEnv a (G a)) (s_atoms s')]) = Done lines /\
  exists li lj ai aj ci cj, nth_error lines i = Some li /\ nth_error lines j = Some lj /\ fst li = fst lj /\
    nth_error (snd li) 1 = Some ci /\ nth_error (snd lj) 1 = Some cj /\ In ai (s_atoms s') /\ In aj (s_atoms s') /\
    (forall a, In a (s_atoms s') -> G a = [ci] <-> a = ai) /\ (forall a, In a (s_atoms s') -> G a = [cj] <-> a = aj) /\
    a_element ai <> a_element aj.
Proof.
  destruct ho_calculated as (s' & C & A). destruct ho_fresh as (F1 & F2 & F3).
  assert (IS : is_sort (isort nb_lt)) by (apply neighbor_sort, neighbor_sort_exists).
  set (G := fun a : atom => [vx (a_r a)]).
  exists (isort nb_lt), (isort nb_lt), 1%nat, 10, ho_cell, s', G.
  exists [(0%nat, [0; 1; -2]); (1%nat, [1]); (0%nat, [-2; 0; 1])], 0%nat, 2%nat.
  split; [exact IS|]. split; [exact IS|]. split; [exact F1|]. split; [exact F2|]. split; [exact F3|].
  split; [cbn; rewrite Rmax_left by lra; lra|]. split; [exact C|]. split; [reflexivity|]. rewrite A. split.
  - unfold sort_lists, ho_lists. cbn [map ea_atom ea_G set_hasNL a_element a_r a_hasNL a_sorted a_numN a_numU a_perEl a_unique a_nbs a_cutoffs isort fold_right insert]. unfold nb_lt. cbn [nb_d].
    rewrite (norm_line 0 1 1), (norm_line 0 (-2) 2), (norm_line 1 0 1), (norm_line 1 (-2) 3), (norm_line (-2) 0 2), (norm_line (-2) 1 3) by lra.
    repeat match goal with |- context [Rlt_dec ?a ?b] => first [destruct (Rlt_dec a b) as [_|N]; [|exfalso; apply N; lra] | destruct (Rlt_dec a b) as [N|_]; [exfalso; lra|]] end.
    reflexivity.
  - exists (0%nat, [0; 1; -2]), (0%nat, [-2; 0; 1]). cbn [nth_error fst snd].
    exists (nth 1 ho_lists (fresh_atom 0 vzero 0)), (nth 0 ho_lists (fresh_atom 0 vzero 0)), 1, 0.
    split; [reflexivity|]. split; [reflexivity|]. split; [reflexivity|]. split; [reflexivity|]. split; [reflexivity|].
    split; [right; left; reflexivity|]. split; [left; reflexivity|]. unfold G. split; [|split; [|discriminate]].
    + intros a [<- | [<- | [<- | []]]]; cbn; split; intros Q; try reflexivity; try (injection Q as Q; lra); discriminate.
    + intros a [<- | [<- | [<- | []]]]; cbn; split; intros Q; try reflexivity; try (injection Q as Q; lra); discriminate.
Qed.

(** Two processes, one element, two symmetry functions. *)
Definition ex_procs : list (list (nat * list R)) := [[(0%nat, [1; 5]); (0%nat, [3; 5])]; [(0%nat, [2; 5])]].
Lemma ex_histogram : finite_values ex_procs /\ known [2%nat] ex_procs /\ varies (all_values 0 0 ex_procs) /\ ~ varies (all_values 0 1 ex_procs).
Proof.
  assert (M : forall x, 0 <= x <= 8 -> finite_double x).
  { intros x X. unfold finite_double, Scaling.dbl_max. assert (8 <= 2 ^ 1023). { replace 8 with (2 ^ 3) by ring. apply Rle_pow; [lra | lia]. }
    assert (0 < / 2 ^ 52 < 1) by (split; [apply Rinv_0_lt_compat; lra | rewrite <- Rinv_1; apply Rinv_lt_contravar; lra]). nra. }
  split; [|split; [|split]].
  - intros atoms a [<- | [<- | []]]; cbn [In]; [intros [<- | [<- | []]] | intros [<- | []]]; cbn [snd]; apply Forall_cons; (try (apply M; lra)); apply Forall_cons; (try (apply M; lra)); apply Forall_nil.
  - intros atoms a [<- | [<- | []]]; cbn [In]; [intros [<- | [<- | []]] | intros [<- | []]]; exists 2%nat; split; (reflexivity || cbn; lia).
  - exists 1, 3. cbn. split; [auto|]. split; [auto | lra].
  - intros (x & y & X & Y & L). cbn in X, Y. destruct X as [<- | [<- | [<- | []]]]; destruct Y as [<- | [<- | [<- | []]]]; lra.
Qed.
