(** What an evaluation returns, in terms of atomic energies and of the
    environments of the atoms (C68-C70). *)
From Coq Require Import Reals Lra Lia ZArith List Permutation Bool Arith.
From Coquelicot Require Import Coquelicot.
From Coq Require Import List.
From Verif Require Import Base.Vec3 Base.SumR Model.NeuralNetwork Model.Scaling Model.NeighborList Model.SymFunctions Model.SymCache Model.SymSetup
  Model.SymGroups Model.Forces Model.GroupEvaluation
  Spec.NetworkSpec Spec.GeometrySpec Spec.NeighborSpec Spec.SymSpec Spec.GroupSpec Spec.ForceSpec Spec.EvaluationSpec
  Proofs.NeighborProofs Proofs.SymGrad Proofs.SetupProofs Proofs.GroupApi Proofs.ForceNet Proofs.ForceLocal Proofs.ForceAssembly Proofs.ForceProofs Proofs.GroupForces
  Proofs.Covering Proofs.SameSystem Proofs.SymLabelled Proofs.Pull.
Import ListNotations.
Local Open Scope R_scope.

Definition work_of (ys : list eatom) (u : nat -> vec) : R :=
  rsum (map (fun iy => dot (e_f (snd iy)) (u (fst iy))) (List.combine (seq 0 (length ys)) ys)).
Definition outcome (P : potential) (rc : R) (s : structure) (E : R) (ys : list eatom) : Prop :=
  has_energy P rc s E /\ length ys = length (s_atoms s) /\
  (forall en i y, has_atomic_energies P rc s en -> nth_error ys i = Some y -> e_energy y = en i) /\
  (forall all, (all = true -> harmless rc P s) -> forall u LL, (forall j, (j < length (s_atoms s))%nat -> sites s rc j (LL j)) ->
   work_of ys u = - sumn (length (s_atoms s)) (fun j => work_on P (a_element (at_ s j)) (map (pull all s u j) (LL j)))).
Lemma sites_exist s rc : nice s -> exists LL, forall j, (j < length (s_atoms s))%nat -> sites s rc j (LL j).
Proof.
  intros Hd. destruct (choose_list (sites s rc) (length (s_atoms s))) as (l & L & F).
  { intros j _. destruct (neighbourhood_exists s rc j Hd) as (e & K & K1 & K2 & _). exists K. now split. }
  exists (fun j => nth j l []). intros j Hj. apply F. apply nth_error_nth'. lia.
Qed.

Lemma evaluation_outcome N rc P s nsort fuel s' : sensible N rc P -> 0 <= rc -> s_numElements s = N -> unprocessed rc s -> is_sort nsort ->
  calculateNeighborList nsort fuel rc false s = Some s' -> everywhere P rc s evaluable ->
  exists E ys, evaluateNNP nsort fuel (p_weight P) (setupMemoryAll N (map (p_fs P) (seq 0 N))) (p_net P) rc s = Some (E, ys) /\
    outcome P rc s E ys.
Proof.
  intros HP Hrc HN Hs Hsort Es' Hev.
  assert (Hper : nice s). { intros H. destruct Hs as (_ & _ & _ & Hw & _). now apply Hw. }
  destruct (evaluation_stages N rc P s nsort fuel s' HP Hrc HN Hs Hsort Es' Hev) as (xs & ys & Ev & Lx & Ly & Hready & Hsym & HY).
  exists (calculateEnergy xs), ys. split; [exact Ev|]. split; [eapply energy_stage; eauto using all_functions, all_done|]. split; [auto|]. split.
  - intros en i y Hen Hy. destruct (HY i y Hy) as (x & Hx & -> & _).
    destruct (Hready i x Hx) as (ai & Ei & Hl & (_ & SD) & (En & _)). assert (E1 : a_element (e_atom x) = a_element ai) by apply Hl.
    rewrite E1 in *. rewrite En. assert (Hi : (i < length (s_atoms s))%nat) by (apply nth_error_Some; congruence).
    rewrite (Hen i (env_of (a_nbs (e_atom x))) Hi). 2:{ eapply listed_neighbourhood; eauto. }
    rewrite (at_nth s i ai Ei).
    assert (He : (a_element ai < N)%nat). { rewrite <- HN. apply Hs. eapply nth_error_In; eauto. }
    destruct (HP _ He) as (_ & Hwf & Hact & HI). destruct (numLayers (p_net P (a_element ai))) as [|LT] eqn:EL; [destruct Hwf as [H3 _]; rewrite EL in H3; lia|].
    apply (alike_output _ _ _ _ (alike_refl _) Hwf Hact) with (LT := LT); auto.
    intros c Hc. rewrite HI in Hc. destruct (nth_error (p_fs P (a_element ai)) c) as [f|] eqn:Ef; [|apply nth_error_None in Ef; lia].
    destruct (SD c f Ef) as (f' & _ & _ & _ & _ & G' & _). unfold sf_input. rewrite Ef. exact G'.
  - intros all Hh u LL HL.
    assert (Hwork : work_of ys u = sumn (length (s_atoms s)) (fun i => Fdot N P s xs i (u i))).
    { unfold work_of. rewrite rsum_combine_seq, Ly. apply sumn_ext. intros i Hi.
      destruct (nth_error ys i) as [y|] eqn:Ey; [|apply nth_error_None in Ey; lia].
      destruct (HY i y Ey) as (x & _ & _ & D). unfold nthR. rewrite Ey. cbn [fst snd]. apply D. }
    rewrite Hwork. eapply work_pull; eauto.
Qed.

Lemma outcome_same P rc s E xs ys : outcome P rc s E xs -> Forall2 same_but_cache xs ys -> outcome P rc s E ys.
Proof.
  intros (H1 & H2 & H3 & H4) F. split; auto. split; [rewrite <- H2; symmetry; apply (Forall2_length_eq F)|]. split.
  - intros en i y Hen Hy. assert (Q := F2_nth_error _ _ _ F i). rewrite Hy in Q. destruct (nth_error xs i) as [x|] eqn:Ex; [|contradiction].
    destruct Q as (_ & _ & _ & _ & X & _). rewrite <- X. eauto.
  - intros all A u LL HL. rewrite <- (H4 all A u LL HL). unfold work_of. symmetry. apply (work_same xs ys u F).
Qed.
Lemma grouped_outcome T (T_dec : forall a b : T, {a = b} + {a <> b}) fmt conv gsort msort N rc P sc s nsort fuel s' :
  (forall l, Permutation l (gsort l)) -> (forall l, Permutation l (msort l)) -> conv <> 0 ->
  sensible N rc (scaled_potential sc P) -> cached_and_grouped (text_of T fmt conv) fmt conv sc N P -> 0 <= rc -> s_numElements s = N -> unprocessed rc s -> is_sort nsort ->
  calculateNeighborList nsort fuel rc false s = Some s' -> everywhere (scaled_potential sc P) rc s evaluable -> everywhere (scaled_potential sc P) rc s distinct_neighbors ->
  exists es E ys, setupAll (text T) (text_dec T_dec) (text_of T fmt conv) gsort msort N true (map (p_fs P) (seq 0 N)) = Some es /\
    evaluateGroups nsort fuel (p_weight P) (setupScaling sc es) (p_net P) rc s = Some (E, ys) /\ outcome (scaled_potential sc P) rc s E ys.
Proof.
  intros H1 H2 H3 H4 H5 H6 H7 H8 H9 H10 H11 H12.
  destruct (grouped_evaluation T T_dec fmt conv gsort msort H1 H2 H3 N rc P sc H4 H5 s nsort fuel s' H6 H7 H8 H9 H10
     (scaled_everywhere sc P rc s _ H11) (scaled_everywhere sc P rc s _ H12)) as (es & E & xs & ys & A & B & C & D).
  destruct (evaluation_outcome N rc (scaled_potential sc P) s nsort fuel s' H4 H6 H7 H8 H9 H10 H11) as (E' & xs' & B' & O).
  change (p_weight (scaled_potential sc P)) with (p_weight P) in B'. change (p_net (scaled_potential sc P)) with (p_net P) in B'.
  rewrite B in B'. injection B' as <- <-. exists es, E, ys. split; auto. split; auto. eapply outcome_same; eauto.
Qed.

Lemma work_single ys i y v : nth_error ys i = Some y -> work_of ys (fun k => if Nat.eqb k i then v else vzero) = dot (e_f y) v.
Proof.
  intros Hy. unfold work_of. rewrite rsum_combine_seq. assert (Hi : (i < length ys)%nat) by (apply nth_error_Some; congruence).
  rewrite (sumn_single _ _ i Hi).
  - unfold nthR. rewrite Hy. cbn [fst snd]. now rewrite Nat.eqb_refl.
  - intros k Hk Hne. unfold nthR. destruct (nth_error ys k); auto. cbn [fst snd]. apply Nat.eqb_neq in Hne. rewrite Hne.
    unfold dot, vzero; cbn. ring.
Qed.
