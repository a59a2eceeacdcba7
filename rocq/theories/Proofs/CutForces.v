(** Short-range forces and derivatives of electronegativities from lists longer
    than the cutoff radius of the symmetry functions. *)
From Coq Require Import Reals Lra ZArith List Lia Bool Arith Permutation Sorted.
From Coquelicot Require Import Coquelicot.
From Coq Require Import List.
From Verif Require Import Base.RealBase Base.Loop Base.Vec3 Base.SumR Model.Scaling Model.NeighborList Model.SymFunctions Model.SymSetup Model.Forces
  Model.Evaluation4G
  Spec.GeometrySpec Spec.NeighborSpec Spec.SymSpec Spec.SetupSpec Spec.ForceSpec
  Proofs.NeighborProofs Proofs.NeighborMore Proofs.SetupProofs Proofs.ForceAssembly Proofs.ForceProofs Proofs.Truncate Proofs.LongLists.
Import ListNotations.
Local Open Scope R_scope.

Definition cut (rc : R) (x : eatom) : eatom := mkEAtom (cut_atom rc (e_atom x)) (e_store x) (e_dEdG x) (e_energy x) (e_f x).

Lemma dot_zero_eq p : (forall w, dot p w = 0) -> p = vzero.
Proof.
  intros H. destruct p as [x y z]. pose proof (H (mkVec 1 0 0)). pose proof (H (mkVec 0 1 0)). pose proof (H (mkVec 0 0 1)).
  unfold dot in *; cbn in *. unfold vzero. f_equal; lra.
Qed.
Lemma vadd_0_r' v : vadd v vzero = v.
Proof. destruct v. unfold vadd, vzero; cbn. f_equal; ring. Qed.
Lemma ofold_filter {A S} (p : A -> bool) (f : A -> S -> option S) l s : (forall a s, In a l -> p a = false -> f a s = Some s) ->
  ofold f l s = ofold f (filter p l) s.
Proof.
  revert s. induction l as [|a l IH]; intros s H; cbn [ofold filter]; auto. destruct (p a) eqn:E; cbn [ofold].
  - destruct (f a s); auto. apply IH. intros; apply H; auto. now right.
  - rewrite H by (auto; now left). apply IH. intros; apply H; auto. now right.
Qed.

Section CutForces.
Variables (N n : nat) (rc : R) (P : potential).
Hypothesis Hnum : forall e, (e < N)%nat -> numbered (p_fs P e).
Let elems := setupMemoryAll N (map (p_fs P) (seq 0 N)).
Variable xs : list eatom.
Hypothesis Hlen : length xs = n.
Hypothesis Hel : forall i x, nth_error xs i = Some x -> (a_element (e_atom x) < N)%nat.
Hypothesis Hlong : forall i x, nth_error xs i = Some x -> long N n rc i (e_atom x).
Hypothesis Hfar : forall i x, nth_error xs i = Some x -> untouched (e_atom x) rc (e_store x).
Hypothesis Hsym : forall i j x y, nth_error xs i = Some x -> nth_error xs j = Some y ->
    Permutation (map nb_dr (filter (fun n => Nat.eqb (nb_index n) j) (a_nbs (e_atom x))))
              (map (fun n => vopp (nb_dr n)) (filter (fun n => Nat.eqb (nb_index n) i) (a_nbs (e_atom y)))).

Lemma elem_at' e : (e < N)%nat -> nth_error elems e = Some (el_of N P e).
Proof.
  intros H. unfold elems, setupMemoryAll. rewrite !nth_error_map, (nth_error_nth' _ 0%nat) by now rewrite seq_length.
  rewrite seq_nth by auto. reflexivity.
Qed.
Lemma pairForce_far i x k m : nth_error xs i = Some x -> nth_error (a_nbs (e_atom x)) k = Some m -> rc <= nb_d m ->
  pairForce (el_of N P (a_element (e_atom x))) x k m = Some vzero.
Proof.
  intros Hx Hm Hd. pose proof (Hel i x Hx) as He. destruct (Hlong i x Hx) as (_ & _ & _ & Hv & _).
  destruct (pairForce_ok N (p_fs P (a_element (e_atom x))) (el_of N P (a_element (e_atom x))) x k m (Hnum _ He) (el_of_memory _ _ _)) as (p & Ep & D).
  { now apply (Hv m (nth_error_In _ _ Hm)). }
  rewrite Ep. f_equal. apply dot_zero_eq. intros w. rewrite D. unfold PD. rewrite sumn_zero; [ring|].
  intros c _. unfold entry. destruct (nth_error _ c); [|ring]. destruct (depends _ _); [|ring].
  rewrite (Hfar i x Hx k m _ Hm Hd). rewrite dot_vzero_l'. ring.
Qed.
Lemma force_from_cut i j x f : nth_error xs j = Some x -> force_from elems xs rc i j f = force_from elems (map (cut rc) xs) rc i j f.
Proof.
  intros Hx. unfold force_from. rewrite nth_error_map, Hx. cbn [option_map]. cbn [cut e_atom cut_atom a_element].
  rewrite (elem_at' _ (Hel j x Hx)). pose proof (Hlong j x Hx) as HL. destruct (HL) as (_ & _ & Hst & _).
  change (getStoredMinNumNeighbors (cut_atom rc (e_atom x)) rc) with (length (near rc (e_atom x))). rewrite near_length.
  set (K := count_below rc (a_nbs (e_atom x))) in *.
  rewrite (ofold_bounds0 _ (getStoredMinNumNeighbors (e_atom x) rc) K).
  - apply ofold_ext_in. intros k g Hk. apply in_seq in Hk. cbn [cut_atom a_nbs]. rewrite near_nth by (fold K; lia).
    destruct (nth_error (a_nbs (e_atom x)) k); auto.
  - intros k g Hk. destruct Hk as [Hk|Hk]; [lia|].
    destruct (nth_error (a_nbs (e_atom x)) k) as [m|] eqn:Em.
    2:{ apply nth_error_None in Em. destruct HL as ((H1 & _ & H3) & _). pose proof (proj1 (H3 rc)). lia. }
    destruct (Nat.eqb (nb_index m) i); auto. rewrite (pairForce_far j x k m Hx Em), vadd_0_r'; auto.
    pose proof (beyond _ _ _ _ _ HL k m ltac:(lia) Em). lra.
Qed.
Lemma force_from_unseen i j xi x f : nth_error xs i = Some xi -> nth_error xs j = Some x -> sees (near rc (e_atom xi)) j = false ->
  force_from elems (map (cut rc) xs) rc i j f = Some f.
Proof.
  intros Hi Hx Hs. unfold force_from. rewrite nth_error_map, Hx. cbn [option_map]. cbn [cut e_atom cut_atom a_element].
  rewrite (elem_at' _ (Hel j x Hx)). apply ofold_id. intros k g Hk. apply in_seq in Hk.
  change (getStoredMinNumNeighbors (cut_atom rc (e_atom x)) rc) with (length (near rc (e_atom x))) in Hk.
  cbn [cut_atom a_nbs]. destruct (nth_error (near rc (e_atom x)) k) as [m|] eqn:Em; [|apply nth_error_None in Em; lia].
  destruct (Nat.eqb_spec (nb_index m) i) as [E|]; auto. exfalso.
  assert (Hm : In m (near rc (e_atom x))) by (eapply nth_error_In; eauto).
  apply (near_in _ _ _ _ _ (Hlong j x Hx)) in Hm as [Hm Hd].
  pose proof (Hsym i j xi x Hi Hx) as Pm.
  assert (Hin : In (vopp (nb_dr m)) (map (fun n => vopp (nb_dr n)) (filter (fun n => Nat.eqb (nb_index n) i) (a_nbs (e_atom x))))).
  { apply (in_map (fun n => vopp (nb_dr n))). apply filter_In. split; auto. now apply Nat.eqb_eq. }
  apply (Permutation_in _ (Permutation_sym Pm)) in Hin. apply in_map_iff in Hin as (m' & E' & H'). apply filter_In in H' as [H1 H2].
  assert (In m' (near rc (e_atom xi))).
  { apply (near_in _ _ _ _ _ (Hlong i xi Hi)). split; auto. destruct (Hlong i xi Hi) as ((_ & D1 & _) & _). destruct (Hlong j x Hx) as ((_ & D2 & _) & _).
    rewrite (D1 m' H1), E', norm_opp, <- (D2 m Hm). exact Hd. }
  assert (X : sees (near rc (e_atom xi)) j = true) by (apply existsb_exists; eauto). congruence.
Qed.
Lemma force_atom_cut i x : nth_error xs i = Some x -> force_atom elems xs rc i x =
  match force_atom elems (map (cut rc) xs) rc i (cut rc x) with
  | Some y => Some (mkEAtom (e_atom x) (e_store x) (e_dEdG x) (e_energy x) (e_f y))
  | None => None
  end.
Proof.
  intros Hx. unfold force_atom. cbn [cut e_atom cut_atom a_element e_store]. rewrite (elem_at' _ (Hel i x Hx)).
  destruct (Hlong i x Hx) as (_ & _ & _ & Hv & U & EU & _ & HU). 
  assert (EC : a_unique (cut_atom rc (e_atom x)) = i :: filter (sees (near rc (e_atom x))) U) by (unfold cut_atom; cbn [a_unique]; rewrite EU; reflexivity).
  rewrite EU, EC.
  change (selfForce (length (el_fs (el_of N P (a_element (e_atom x))))) (cut rc x)) with (selfForce (length (el_fs (el_of N P (a_element (e_atom x))))) x).
  assert (HUx : forall j, In j U -> exists y, nth_error xs j = Some y).
  { intros j Hj. apply HU in Hj as (_ & m & Hm & <-). destruct (Hv m Hm) as (_ & H & _). rewrite <- Hlen in H.
    apply nth_error_Some in H. destruct (nth_error xs (nb_index m)); [eauto|congruence]. }
  rewrite (ofold_ext_in (force_from elems xs rc i) (force_from elems (map (cut rc) xs) rc i)).
  2:{ intros j f Hj. destruct (HUx j Hj) as (y & Hy). eapply force_from_cut; eauto. }
  rewrite (ofold_filter (sees (near rc (e_atom x)))).
  2:{ intros j f Hj E. destruct (HUx j Hj) as (y & Hy). eapply force_from_unseen; eauto. }
  destruct (ofold _ _ _); reflexivity.
Qed.
Lemma forces_cut ys' : calculateForces elems rc (map (cut rc) xs) = Some ys' -> exists ys, calculateForces elems rc xs = Some ys /\ length ys = n /\
  forall i y', nth_error ys' i = Some y' -> exists x y, nth_error xs i = Some x /\ nth_error ys i = Some y /\
    y = mkEAtom (e_atom x) (e_store x) (e_dEdG x) (e_energy x) (e_f y').
Proof.
  intros E. unfold calculateForces in *. pose proof (sequence_all _ _ E) as E0. apply sequence_spec in E as [L' H'].
  rewrite mapi_length, map_length in L'.
  assert (Q : forall i x, nth_error xs i = Some x -> exists y', nth_error ys' i = Some y' /\
     force_atom elems xs rc i x = Some (mkEAtom (e_atom x) (e_store x) (e_dEdG x) (e_energy x) (e_f y'))).
  { intros i x Hx. rewrite (force_atom_cut i x Hx).
    pose proof (H' i (force_atom elems (map (cut rc) xs) rc i (cut rc x))) as H2.
    rewrite nth_error_mapi, nth_error_map, Hx in H2. specialize (H2 eq_refl).
    destruct (force_atom elems (map (cut rc) xs) rc i (cut rc x)) as [y'|] eqn:Ey.
    - exists y'. split; auto.
    - exfalso. apply E0. rewrite <- Ey. apply (nth_error_In _ i). rewrite nth_error_mapi, nth_error_map, Hx. reflexivity. }
  destruct (sequence_some (mapi (force_atom elems xs rc) xs)) as [ys Eys].
  { intros o Ho. apply In_nth_error in Ho as (i & Ho). rewrite nth_error_mapi in Ho. destruct (nth_error xs i) as [x|] eqn:Ex; [|discriminate].
    cbn in Ho. injection Ho as <-. destruct (Q i x Ex) as (y' & _ & ->). discriminate. }
  exists ys. split; auto. apply sequence_spec in Eys as [L H]. rewrite mapi_length in L. split; [congruence|].
  intros i y' Hy'. destruct (nth_error xs i) as [x|] eqn:Ex.
  2:{ apply nth_error_None in Ex. assert (i < length ys')%nat by (apply nth_error_Some; congruence). lia. }
  destruct (Q i x Ex) as (y'' & E1 & E2). rewrite Hy' in E1. injection E1 as <-.
  exists x. eexists. split; auto. split; [|reflexivity]. symmetry. apply H. rewrite nth_error_mapi, Ex. cbn. now rewrite E2.
Qed.
End CutForces.
