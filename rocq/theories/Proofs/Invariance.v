(** Energies and forces do not depend on the description of the structure
    (C68). *)
From Coq Require Import Reals Lra Lia ZArith List Permutation Bool Arith.
From Coquelicot Require Import Coquelicot.
From Coq Require Import List.
From Verif Require Import Base.Vec3 Base.SumR Model.NeuralNetwork Model.Scaling Model.NeighborList Model.SymFunctions Model.SymCache Model.SymSetup
  Model.SymGroups Model.Forces Model.GroupEvaluation
  Spec.NetworkSpec Spec.GeometrySpec Spec.NeighborSpec Spec.SymSpec Spec.GroupSpec Spec.ForceSpec Spec.EvaluationSpec Spec.InvarianceSpec
  Proofs.NeighborProofs Proofs.SymInv Proofs.GroupApi Proofs.ForceLocal Proofs.ForceProofs Proofs.GroupForces
  Proofs.Isometry Proofs.Covering Proofs.SameSystem Proofs.SymLabelled Proofs.Pull Proofs.Outcome.
Import ListNotations.
Local Open Scope R_scope.

Definition same_results (g : vec -> vec) (p : nat -> nat) (ys ys' : list eatom) : Prop :=
  forall i y, nth_error ys i = Some y -> exists y', nth_error ys' (p i) = Some y' /\ e_energy y' = e_energy y /\
    e_f y' = linear_part g (e_f y).
Lemma unprocessed_nice rc s : unprocessed rc s -> nice s.
Proof. intros (_ & _ & _ & Hw & _) H. now apply Hw. Qed.

Section Outcomes.
Variables (g : vec -> vec) (p : nat -> nat) (s s' : structure) (P : potential) (rc E E' : R) (ys ys' : list eatom).
Hypothesis HS : same_system g p s s'.
Hypothesis Hd : nice s.
Hypothesis Hd' : nice s'.
Hypothesis O : outcome P rc s E ys.
Hypothesis O' : outcome P rc s' E' ys'.

Lemma outcome_energy : E' = E.
Proof. destruct O as (H & _). destruct O' as (H' & _). eapply energy_unique; [exact H'|]. eapply same_energy; eauto. Qed.
Lemma outcome_at i y : nth_error ys i = Some y -> exists y', nth_error ys' (p i) = Some y' /\ e_energy y' = e_energy y.
Proof.
  intros Hy. destruct O as (_ & L & En & _). destruct O' as (_ & L' & En' & _).
  assert (Hi : (i < length (s_atoms s))%nat) by (rewrite <- L; apply nth_error_Some; congruence).
  assert (Hp := same_lt g p s s' HS i Hi). assert (LL := same_length g p s s' HS).
  destruct (nth_error ys' (p i)) as [y'|] eqn:Ey'; [|apply nth_error_None in Ey'; lia]. exists y'. split; auto.
  destruct (atomic_energies_exist P rc s Hd) as (en & Hen). destruct (preimage g p s s' HS) as (r & Hr).
  rewrite (En en i y Hen Hy). rewrite (En' (fun k => en (r k)) (p i) y'); [now rewrite (Hr i Hi)| |exact Ey'].
  apply (same_energies g p s s' HS Hd Hd'). intros k e Lk He. rewrite (Hr k Lk). now apply Hen.
Qed.
Lemma same_pull all u u' j L : (j < length (s_atoms s))%nat -> (forall k, (k < length (s_atoms s))%nat -> u' (p k) = linear_part g (u k)) ->
  sites s rc j L -> exists L', sites s' rc (p j) L' /\
    map (pull all s' u' (p j)) L' = map (fun x => (fst (fst x), linear_part g (snd (fst x)), linear_part g (snd x))) (map (pull all s u j) L).
Proof.
  intros Hj Hu HL. assert (HG := same_iso g p s s' HS).
  destruct (match_sites (linear_part g) s s' j (p j) (matched g p s s' j)) with (rc := rc) (L := L) as (L' & H1 & H2); auto.
  - intros v. apply (lp_norm g HG).
  - intros q q' H. split; apply H.
  - apply (matched_total g p s s' HS j Hj).
  - apply (matched_onto g p s s' HS j Hj).
  - apply (matched_fun g p s s' Hd' j).
  - apply (matched_inj g p s s' HS Hd j).
  - apply (matched_self g p s s' HS j Hj).
  - apply (matched_same g p s s' HS j).
  - exists L'. split; auto. rewrite map_map. clear HL H1. induction H2 as [|q q' L L' H F IH]; auto. cbn [map]. rewrite IH. f_equal.
    destruct (matched_same g p s s' HS j _ _ H) as [X Y]. assert (Hq : (fst q < length (s_atoms s))%nat) by apply H.
    assert (Eq : fst q' = p (fst q)) by apply H. unfold pull. cbn [fst snd].
    replace (view s' (p j) q') with (fst (view s j q), linear_part g (snd (view s j q))) by (rewrite <- X, <- Y; symmetry; apply surjective_pairing).
    f_equal. rewrite (lp_sub g HG), Hu by auto. f_equal. unfold moving. rewrite Eq.
    replace (Nat.eqb (p (fst q)) (p j)) with (Nat.eqb (fst q) j).
    + destruct (negb all && Nat.eqb (fst q) j)%bool; [symmetry; apply (lp_zero g)|auto].
    + destruct (Nat.eqb_spec (fst q) j) as [-> | Ne]; [now rewrite Nat.eqb_refl|]. symmetry. apply Nat.eqb_neq. intros Z0. apply Ne. now apply (same_inj g p s s' HS).
Qed.
Lemma work_on_rotated e l : 
  work_on P e (map (fun x => (fst (fst x), linear_part g (snd (fst x)), linear_part g (snd x))) l) = work_on P e l.
Proof.
  assert (HG := same_iso g p s s' HS). unfold work_on. apply sumn_ext. intros c _.
  replace (map fst (map _ l)) with (rotated g (map fst l)) by (unfold rotated; now rewrite !map_map).
  rewrite (same_input g p s s' HS). f_equal. destruct (nth_error _ c); auto. apply change_rotated; [apply (lp_dot g HG)|]. apply (lp_sub g HG).
Qed.
Lemma outcome_work u u' : (forall k, (k < length (s_atoms s))%nat -> u' (p k) = linear_part g (u k)) -> work_of ys' u' = work_of ys u.
Proof.
  intros Hu. destruct O as (_ & L & _ & F). destruct O' as (_ & L' & _ & F').
  destruct (sites_exist s rc Hd) as (LL & HL). destruct (sites_exist s' rc Hd') as (LL' & HL').
  rewrite (F false ltac:(discriminate) u LL HL), (F' false ltac:(discriminate) u' LL' HL'). f_equal.
  assert (EL := same_length g p s s' HS). rewrite EL in *.
  rewrite <- (sumn_perm _ _ p); [|apply (same_lt g p s s' HS)|apply (same_inj g p s s' HS)].
  apply sumn_ext. intros j Hj. destruct (same_pull false u u' j (LL j) Hj Hu (HL j Hj)) as (K & K1 & K2).
  destruct (same_atom_at g p s s' HS j Hj) as (m & Hp & -> & _).
  rewrite (work_on_permut P _ _ (map (pull false s' u' (p j)) K)).
  - rewrite K2. apply work_on_rotated.
  - apply Permutation_map. eapply sites_unique; [apply HL'; auto|auto].
Qed.
Lemma outcome_force : forall i y y', nth_error ys i = Some y -> nth_error ys' (p i) = Some y' -> e_f y' = linear_part g (e_f y).
Proof.
  intros i y y' Hy Hy'. assert (HG := same_iso g p s s' HS). destruct O as (_ & L & _).
  assert (Hi : (i < length (s_atoms s))%nat) by (rewrite <- L; apply nth_error_Some; congruence).
  apply dot_ext. intros w. destruct (lp_surj g HG w) as (v & <-). rewrite (lp_dot g HG).
  rewrite <- (work_single ys i y v Hy), <- (work_single ys' (p i) y' (linear_part g v) Hy'). apply outcome_work.
  intros k Hk. destruct (Nat.eqb_spec k i) as [-> | Ne]; [now rewrite Nat.eqb_refl|].
  destruct (Nat.eqb_spec (p k) (p i)) as [Ep|_]; [|symmetry; apply (lp_zero g)]. elim Ne. apply (same_inj g p s s' HS); auto.
Qed.
End Outcomes.

(** ** Evaluation one by one *)
Theorem invariant_energy N rc P g p s1 s2 nsort fuel1 fuel2 s1' s2' : sensible N rc P -> 0 <= rc -> is_sort nsort -> same_system g p s1 s2 ->
  s_numElements s1 = N -> unprocessed rc s1 -> calculateNeighborList nsort fuel1 rc false s1 = Some s1' ->
  s_numElements s2 = N -> unprocessed rc s2 -> calculateNeighborList nsort fuel2 rc false s2 = Some s2' ->
  everywhere P rc s1 evaluable ->
  exists E ys1 ys2,
    evaluateNNP nsort fuel1 (p_weight P) (setupMemoryAll N (map (p_fs P) (seq 0 N))) (p_net P) rc s1 = Some (E, ys1) /\
    evaluateNNP nsort fuel2 (p_weight P) (setupMemoryAll N (map (p_fs P) (seq 0 N))) (p_net P) rc s2 = Some (E, ys2) /\
    length ys1 = length (s_atoms s1) /\
    (forall i y, nth_error ys1 i = Some y ->
       exists y', nth_error ys2 (p i) = Some y' /\ e_energy y' = e_energy y /\ e_f y' = linear_part g (e_f y)).
Proof.
  intros HP Hrc Hsort HS N1 U1 L1 N2 U2 L2 Hev. assert (D1 := unprocessed_nice _ _ U1). assert (D2 := unprocessed_nice _ _ U2).
  destruct (evaluation_outcome N rc P s1 nsort fuel1 s1' HP Hrc N1 U1 Hsort L1 Hev) as (E & ys1 & Ev1 & O1).
  destruct (evaluation_outcome N rc P s2 nsort fuel2 s2' HP Hrc N2 U2 Hsort L2) as (E' & ys2 & Ev2 & O2).
  { apply (same_everywhere g p s1 s2 HS D1 D2 P rc evaluable); auto. intros k e e' C. eapply evaluable_congruent; eauto. }
  assert (E' = E) by (apply (outcome_energy g p s1 s2 P rc E E' ys1 ys2); auto). subst E'.
  exists E, ys1, ys2. split; auto. split; auto. split; [apply O1|].
  intros i y Hy. destruct (outcome_at g p s1 s2 P rc E E ys1 ys2 HS D1 D2 O1 O2 i y Hy) as (y' & A & B). exists y'. split; auto. split; auto. eapply (outcome_force g p s1 s2); eauto.
Qed.
(** ** With cache and groups *)
Theorem invariant_default T (T_dec : forall a b : T, {a = b} + {a <> b}) fmt conv gsort msort N rc P sc g p s1 s2 nsort fuel1 fuel2 s1' s2' :
  (forall l, Permutation l (gsort l)) -> (forall l, Permutation l (msort l)) -> conv <> 0 ->
  sensible N rc (scaled_potential sc P) -> cached_and_grouped (text_of T fmt conv) fmt conv sc N P -> 0 <= rc -> is_sort nsort -> same_system g p s1 s2 ->
  s_numElements s1 = N -> unprocessed rc s1 -> calculateNeighborList nsort fuel1 rc false s1 = Some s1' ->
  s_numElements s2 = N -> unprocessed rc s2 -> calculateNeighborList nsort fuel2 rc false s2 = Some s2' ->
  everywhere (scaled_potential sc P) rc s1 evaluable -> everywhere (scaled_potential sc P) rc s1 distinct_neighbors ->
  exists es E ys1 ys2, setupAll (text T) (text_dec T_dec) (text_of T fmt conv) gsort msort N true (map (p_fs P) (seq 0 N)) = Some es /\
    evaluateGroups nsort fuel1 (p_weight P) (setupScaling sc es) (p_net P) rc s1 = Some (E, ys1) /\
    evaluateGroups nsort fuel2 (p_weight P) (setupScaling sc es) (p_net P) rc s2 = Some (E, ys2) /\
    length ys1 = length (s_atoms s1) /\
    (forall i y, nth_error ys1 i = Some y ->
       exists y', nth_error ys2 (p i) = Some y' /\ e_energy y' = e_energy y /\ e_f y' = linear_part g (e_f y)).
Proof.
  intros HG HM Hc HP HC Hrc Hsort HS N1 U1 L1 N2 U2 L2 Hev Hdi. assert (D1 := unprocessed_nice _ _ U1). assert (D2 := unprocessed_nice _ _ U2).
  set (Q := scaled_potential sc P) in *.
  destruct (grouped_outcome T T_dec fmt conv gsort msort N rc P sc s1 nsort fuel1 s1' HG HM Hc HP HC Hrc N1 U1 Hsort L1 Hev Hdi) as (es & E & ys1 & Ees & Ev1 & O1).
  destruct (grouped_outcome T T_dec fmt conv gsort msort N rc P sc s2 nsort fuel2 s2' HG HM Hc HP HC Hrc N2 U2 Hsort L2) as (es' & E' & ys2 & Ees' & Ev2 & O2).
  { apply (same_everywhere g p s1 s2 HS D1 D2 Q rc evaluable); auto. intros k e e' C. eapply evaluable_congruent; eauto. }
  { apply (same_everywhere g p s1 s2 HS D1 D2 Q rc distinct_neighbors); auto. intros k e e' C. eapply distinct_congruent; eauto. }
  rewrite Ees in Ees'. injection Ees' as <-.
  assert (E' = E) by (apply (outcome_energy g p s1 s2 Q rc E E' ys1 ys2); auto). subst E'.
  exists es, E, ys1, ys2. split; auto. split; auto. split; auto. split; [apply O1|].
  intros i y Hy. destruct (outcome_at g p s1 s2 Q rc E E ys1 ys2 HS D1 D2 O1 O2 i y Hy) as (y' & A & B). exists y'. split; auto. split; auto. eapply (outcome_force g p s1 s2); eauto.
Qed.
