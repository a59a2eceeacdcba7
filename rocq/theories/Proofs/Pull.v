(** The forces of an evaluation as a function of the environments (C68, C70):
    what the forces do along displacements of the atoms, term by term. *)
From Coq Require Import Reals Lra Lia ZArith List Permutation Bool Arith FunctionalExtensionality.
From Coquelicot Require Import Coquelicot.
From Coq Require Import List.
From Verif Require Import Base.Vec3 Base.SumR Model.NeuralNetwork Model.Scaling Model.NeighborList Model.SymFunctions Model.SymCache Model.SymSetup
  Model.Forces Spec.NetworkSpec Spec.GeometrySpec Spec.NeighborSpec Spec.SymSpec Spec.ForceSpec
  Proofs.NeighborProofs Proofs.SymGrad Proofs.SymInv Proofs.SymLabelled Proofs.ForceNet Proofs.ForceLocal Proofs.ForceProofs
  Proofs.Covering Proofs.SameSystem.
Import ListNotations.
Local Open Scope R_scope.

(** A neighbor of atom j, and the change of the vector to it when the atoms move
    along u (own images move with the atom if [all], and are taken to stay where
    they are otherwise). *)
Definition moving (all : bool) (u : nat -> vec) (j k : nat) : vec := if (negb all && Nat.eqb k j)%bool then vzero else u k.
Definition pull (all : bool) (s : structure) (u : nat -> vec) (j : nat) (q : nat * image) : labelled :=
  (view s j q, vsub (u j) (moving all u j (fst q))).
(** Change of the energy of an atom. *)
Definition work_on (P : potential) (e : nat) (l : list labelled) : R :=
  sumn (length (p_fs P e)) (fun c => calculateDEdG (evaluate (p_net P e) (sf_input (p_weight P) (p_fs P e) (map fst l))) c *
    match nth_error (p_fs P e) c with
    | Some f => change (p_weight P) (scalingFactor (sf_scaling (sf_c f))) (sf_kind f) l
    | None => 0
    end).
Lemma work_on_permut P e l l' : Permutation l l' -> work_on P e l = work_on P e l'.
Proof.
  intros H. unfold work_on. apply sumn_ext. intros c _.
  replace (sf_input (p_weight P) (p_fs P e) (map fst l')) with (sf_input (p_weight P) (p_fs P e) (map fst l)).
  - f_equal. destruct (nth_error _ c); auto. now apply change_permut.
  - apply functional_extensionality. intros i. unfold sf_input. destruct (nth_error _ i); auto. f_equal. apply sf_value_permut. now apply Permutation_map.
Qed.
Section Evaluation.
Variables (N : nat) (rc : R) (P : potential) (s : structure).
Hypothesis HP : sensible N rc P.
Hypothesis HN : s_numElements s = N.
Hypothesis Hs : unprocessed rc s.
Variable xs : list eatom.
Hypothesis Hlen : length xs = length (s_atoms s).
Hypothesis Hready : forall i x, nth_error xs i = Some x -> ready N rc P s i x.
Hypothesis Hsym : forall i j x y, nth_error xs i = Some x -> nth_error xs j = Some y ->
    Permutation (map nb_dr (filter (fun n => Nat.eqb (nb_index n) j) (a_nbs (e_atom x))))
              (map (fun n => vopp (nb_dr n)) (filter (fun n => Nat.eqb (nb_index n) i) (a_nbs (e_atom y)))).

Lemma labels_pull all u j aj L nbs : nth_error (s_atoms s) j = Some aj -> Forall2 (stored s aj) L nbs ->
  labels (u j) (fun k => match nth_error nbs k with Some m => moving all u j (nb_index m) | None => vzero end) nbs =
  map (pull all s u j) L.
Proof.
  intros Ej H. unfold labels.
  assert (G : forall (l : list neighbor) L o (v : nat -> vec), Forall2 (stored s aj) L l ->
    (forall k m, nth_error l k = Some m -> v (o + k)%nat = moving all u j (nb_index m)) ->
    map (fun jn => (nb_element (snd jn), nb_dr (snd jn), vsub (u j) (v (fst jn)))) (List.combine (seq o (length l)) l) = map (pull all s u j) L).
  { clear L nbs H. induction l as [|m l IH]; intros L o v H Hv; inversion H as [|q m' L' l' Hq Hr E1 E2]; subst; auto.
    cbn [length seq List.combine map fst snd]. f_equal.
    - destruct Hq as (aq & Eq & H1 & _ & H3 & H4 & _). unfold pull, view. rewrite (at_nth _ _ _ Ej), (at_nth _ _ _ Eq), H3, H4. f_equal.
      f_equal. rewrite <- H1, <- (Hv 0%nat m eq_refl). f_equal. lia.
    - apply IH; auto. intros k m' Em. rewrite <- (Hv (S k) m') by exact Em. f_equal. lia. }
  apply (G nbs L 0%nat (fun k => match nth_error nbs k with Some m => moving all u j (nb_index m) | None => vzero end)); auto.
  intros k m Em. cbn. now rewrite Em.
Qed.
Lemma work_pull all u LL : (all = true -> harmless rc P s) -> (forall j, (j < length (s_atoms s))%nat -> sites s rc j (LL j)) ->
  sumn (length (s_atoms s)) (fun i => Fdot N P s xs i (u i)) =
  - sumn (length (s_atoms s)) (fun j => work_on P (a_element (at_ s j)) (map (pull all s u j) (LL j))).
Proof.
  intros Ha HL. erewrite work by eauto using all_functions. f_equal. apply sumn_ext. intros j Hj.
  set (x := nth j xs _). assert (Ex : nth_error xs j = Some x) by (apply nth_error_nth'; lia).
  destruct (Hready j x Ex) as (aj & Ej & Hl & (Ln & SD) & (_ & ND)).
  assert (Ee : a_element (e_atom x) = a_element aj) by apply Hl. assert (Gl : good_list (e_atom x)) by apply Hl.
  assert (Ea : (a_element aj < N)%nat). { rewrite <- HN. apply Hs. eapply nth_error_In; eauto. }
  rewrite (at_nth _ _ _ Ej). rewrite Ee in *.
  assert (Hl' := Hl). destruct Hl' as (_ & _ & _ & _ & (L & L1 & L2 & L3) & _).
  rewrite (work_on_permut P _ _ (map (pull all s u j) L)). 2:{ apply Permutation_map. apply (sites_unique s rc j); [auto|split; auto]. }
  rewrite <- (labels_pull all u j aj L (a_nbs (e_atom x)) Ej L3). unfold work_on. apply sumn_ext. intros c Hc.
  destruct (nth_error (p_fs P (a_element aj)) c) as [f|] eqn:Ef; [|apply nth_error_None in Ef; lia].
  destruct (HP _ Ea) as ((_ & _ & Hf) & Hwf & Hact & HI). destruct (Hf f (nth_error_In _ _ Ef)) as (_ & Had & _).
  f_equal.
  - rewrite ND by auto. destruct (numLayers (p_net P (a_element aj))) as [|LT] eqn:EL; [destruct Hwf as [H3 _]; rewrite EL in H3; lia|].
    apply (alike_DEdG _ _ _ _ (alike_refl _) Hwf Hact) with (LT := LT); auto; [|rewrite HI; auto].
    intros q Hq. rewrite HI in Hq. destruct (nth_error (p_fs P (a_element aj)) q) as [h|] eqn:Eh; [|apply nth_error_None in Eh; lia].
    destruct (SD q h Eh) as (h' & _ & _ & _ & _ & G' & _). unfold sf_input. rewrite Eh, G'. do 2 f_equal.
    rewrite (labels_pull all u j aj L (a_nbs (e_atom x)) Ej L3). rewrite map_map. cbn [pull fst].
    clear - L3 Ej. induction L3 as [|q m L nbs H _ IH]; auto. cbn [env_of map]. f_equal; [|exact IH].
    destruct H as (aq & Eq & H1 & _ & H3 & H4 & _). unfold view. now rewrite (at_nth _ _ _ Ej), (at_nth _ _ _ Eq), H3, H4.
  - assert (HT : TD N P xs j c (u j) (others xs u j) = TD N P xs j c (u j)
      (fun k => match nth_error (a_nbs (e_atom x)) k with Some m => moving all u j (nb_index m) | None => vzero end)).
    { destruct all; [|reflexivity]. eapply TD_all; eauto using all_functions. fold x. now rewrite Ee. }
    rewrite HT. destruct (SD c f Ef) as (f' & Ef' & K & Sc & _ & _ & D). unfold TD. fold x. rewrite Ee, Ef', D.
    rewrite directional_change; [|auto|rewrite K; auto]. rewrite K, Sc. reflexivity.
Qed.
End Evaluation.
