(** Consequences for whole lists of functions (C28, C32). *)
From Coq Require Import Reals ZArith Lra Lia Bool Arith Permutation.
From Coquelicot Require Import Coquelicot.
From Coq Require Import List.
From Verif Require Import Base.RealBase Base.Vec3 Base.SumR Base.Loop Model.CoreFunction Model.CutoffFunction
  Model.CompactScreening Model.Strings Model.Scaling Model.NeighborList Model.SymFunctions Model.SymCache
  Spec.CompactSpec Spec.SymSpec Proofs.CutoffProofs Proofs.CompactProofs
  Proofs.ScalingProofs Proofs.SymEval Proofs.SymTerms Proofs.SymKinds Proofs.SymKindsAng
  Proofs.SymGrad Proofs.CacheProofs.
Import ListNotations.
Local Open Scope R_scope.

(** ** Lists of functions *)
Definition ready (asg : assignment) (a : atom) (f : symfnc) : Prop :=
  slots_ok asg (a_nbs a) f /\ admissible (sf_kind f) /\ evaluable (sf_kind f) (env_of (a_nbs a)).
Definition put_values (Z : nat -> R) (a : atom) (fs : list symfnc) (g : nat -> R) (i : nat) : R :=
  fold_left (fun v f => if Nat.eqb i (sf_index (sf_c f))
                        then scale (sf_scaling (sf_c f)) (sf_value Z (sf_kind f) (env_of (a_nbs a))) else v) fs (g i).

Lemma calculateAll_effect Z asg a fs : consistent asg -> good_list a -> (forall f, In f fs -> ready asg a f) ->
  forall deriv s, coherent asg (a_nbs a) s -> exists s', calculateAll Z fs a deriv s = Some s' /\
    coherent asg (a_nbs a) s' /\ (forall i, st_G s' i = put_values Z a fs (st_G s) i) /\
    forall l, st_D s' l = vadd (st_D s l) (if deriv then vsum (map (fun f => ev_at l (contributions Z f a)) fs) else vzero).
Proof.
  intros Hc Hg. induction fs as [|f fs IH]; intros Hr deriv s Hs.
  - exists s. split; [reflexivity|]. split; auto. split; auto. intros l. destruct deriv; simpl; vring.
  - destruct (Hr f (or_introl eq_refl)) as (R1 & R2 & R3).
    destruct (calculate_effect Z f asg a Hc Hg R1 R2 R3 deriv s Hs) as (s1 & E1 & C1 & G1 & D1).
    destruct (IH ltac:(intros; apply Hr; right; auto) deriv s1 C1) as (s2 & E2 & C2 & G2 & D2).
    exists s2. unfold calculateAll in *. cbn [ofold]. rewrite E1. split; [exact E2|]. split; auto. split.
    + intros i. rewrite G2. unfold put_values. cbn [fold_left]. rewrite G1. reflexivity.
    + intros l. rewrite D2, D1. destruct deriv; simpl; vring.
Qed.

Lemma put_same Z a fs gs g i : Forall2 same_function fs gs -> put_values Z a fs g i = put_values Z a gs g i.
Proof.
  intros H. unfold put_values. generalize (g i). induction H as [|f f' fs gs (S1 & S2 & S3 & S4) H IH]; intros v; auto.
  simpl. rewrite S1, S3, S4. apply IH.
Qed.
Lemma contrib_same Z a fs gs l : Forall2 same_function fs gs ->
  map (fun f => ev_at l (contributions Z f a)) fs = map (fun f => ev_at l (contributions Z f a)) gs.
Proof. intros H. induction H; simpl; auto. rewrite (contributions_same Z _ _ a H), IHForall2. auto. Qed.

Lemma put_numbered Z a fs g j f : numbered fs -> nth_error fs j = Some f ->
  put_values Z a fs g j = scale (sf_scaling (sf_c f)) (sf_value Z (sf_kind f) (env_of (a_nbs a))).
Proof.
  assert (X : forall fs o v, (forall i f, nth_error fs i = Some f -> sf_index (sf_c f) = (o + i)%nat) ->
    forall f, nth_error fs j = Some f ->
    fold_left (fun v f => if Nat.eqb (o + j) (sf_index (sf_c f))
       then scale (sf_scaling (sf_c f)) (sf_value Z (sf_kind f) (env_of (a_nbs a))) else v) fs v =
    scale (sf_scaling (sf_c f)) (sf_value Z (sf_kind f) (env_of (a_nbs a)))).
  { clear fs f. revert j. intros j0. intros fs. revert j0. induction fs as [|h fs IH]; intros j0 o v H f Hf; [destruct j0; discriminate|].
    cbn [fold_left]. destruct j0.
    - injection Hf as ->. rewrite (H 0%nat f eq_refl), Nat.eqb_refl.
      assert (Y : forall l w o', (o < o')%nat -> (forall i f, nth_error l i = Some f -> sf_index (sf_c f) = (o' + i)%nat) ->
        fold_left (fun v f => if Nat.eqb (o + 0) (sf_index (sf_c f))
          then scale (sf_scaling (sf_c f)) (sf_value Z (sf_kind f) (env_of (a_nbs a))) else v) l w = w).
      { induction l as [|h l IHl]; intros w o' Ho Hl; auto. cbn [fold_left]. rewrite (Hl 0%nat h eq_refl).
        destruct (Nat.eqb_spec (o + 0) (o' + 0)); [lia|]. apply (IHl w (S o')); [lia|].
        intros i f' Hi. rewrite (Hl (S i) f' Hi). lia. }
      apply (Y fs _ (S o)); [lia|]. intros i f' Hi. rewrite (H (S i) f' Hi). lia.
    - replace (o + S j0)%nat with (S o + j0)%nat by lia. apply IH; auto.
      intros i f' Hi. rewrite (H (S i) f' Hi). lia. }
  intros Hn Hf. unfold put_values. apply (X fs 0%nat); auto.
Qed.
Lemma put_outside Z a fs g i : (forall f, In f fs -> sf_index (sf_c f) <> i) -> put_values Z a fs g i = g i.
Proof.
  unfold put_values. generalize (g i). induction fs as [|f fs IH]; intros v H; auto. cbn [fold_left].
  destruct (Nat.eqb_spec i (sf_index (sf_c f))) as [E|]; [elim (H f); simpl; auto|]. apply IH. intros; apply H; simpl; auto.
Qed.

(** ** Cache (C32) *)
Definition no_assignment : assignment := fun _ _ _ _ => False.
Lemma no_assignment_consistent : consistent no_assignment. Proof. intros e c0 c1 F d0 d1 H []. Qed.
Lemma no_slots_ok nbs f : no_slots f -> slots_ok no_assignment nbs f.
Proof. intros H. split; [intros; left; apply H|]. intros _ e e' _ _ _ _ N. elim N. apply H. Qed.

Lemma fresh_coherent asg nbs s : fresh s -> coherent asg nbs s.
Proof. intros H j n c0 c1 F _ _. left. apply H. Qed.

Lemma with_ci_same ci f : same_function (with_ci ci f) f.
Proof. repeat split. Qed.

Section CacheThm.
Variables (K : Type) (K_dec : forall a b : K, {a = b} + {a <> b}) (key : symfnc -> K) (numElements : nat).
Lemma cache_slots_ok fs fs' sizes : numbered fs -> (forall f, In f fs -> no_slots f) ->
  setupCache K K_dec key numElements fs = Some (fs', sizes) ->
  forall nbs f', In f' fs' -> both_cached nbs f' -> slots_ok (setup_asg K K_dec key numElements fs) nbs f'.
Proof.
  intros Hn Hs E nbs f' Hf' Hb. destruct (setup_slots K K_dec key numElements fs Hn Hs) as (fs2 & sz & E2 & _ & _ & _ & P).
  rewrite E in E2. injection E2 as <- <-. apply In_nth_error in Hf'. destruct Hf' as (j & Hj).
  destruct (P j f' Hj) as (f & ci & Hf & -> & Hci). split; [|exact Hb].
  intros e _. cbn [with_ci sf_c sf_ci sf_kind]. destruct (Hci e) as [|(q & g & Hq & Hg & Hk & _)]; auto.
  right. exists (2 * q)%nat, (2 * q + 1)%nat, []. split; auto.
  exists q, g, f. repeat split; auto. eapply nth_error_In; eauto.
Qed.

Theorem cache_transparent Z a fs fs' sizes (sel : list nat) gs' gs :
  numbered fs -> (forall f, In f fs -> no_slots f) ->
  (forall f g, In f fs -> In g fs -> key f = key g ->
     forall r, cached_function (sf_kind f) r = cached_function (sf_kind g) r) ->
  setupCache K K_dec key numElements fs = Some (fs', sizes) ->
  (forall f', In f' fs' -> both_cached (a_nbs a) f') ->
  good_list a ->
  (forall f, In f fs -> admissible (sf_kind f) /\ evaluable (sf_kind f) (env_of (a_nbs a))) ->
  Forall2 (fun j f' => nth_error fs' j = Some f') sel gs' ->
  Forall2 (fun j f => nth_error fs j = Some f) sel gs ->
  forall deriv s, fresh s -> exists s1 s2,
    calculateAll Z gs' a deriv s = Some s1 /\ calculateAll Z gs a deriv s = Some s2 /\
    (forall i, st_G s1 i = st_G s2 i) /\ (forall l, st_D s1 l = st_D s2 l).
Proof.
  intros Hn Hs Hk E Hb Hg Ha S1 S2 deriv s Hf.
  destruct (setup_slots K K_dec key numElements fs Hn Hs) as (fs2 & sz & E2 & _ & _ & _ & P).
  rewrite E in E2. injection E2 as <- <-.
  assert (SF : Forall2 same_function gs' gs).
  { clear - S1 S2 P. revert gs S2. induction S1 as [|j f' sel gs' H S1 IH]; intros gs S2.
    - inversion S2. constructor.
    - inversion S2; subst. constructor; auto. destruct (P j f' H) as (f & ci & Hf & -> & _).
      rewrite Hf in H2. injection H2 as <-. apply with_ci_same. }
  destruct (calculateAll_effect Z (setup_asg K K_dec key numElements fs) a gs') with (deriv := deriv) (s := s)
    as (s1 & X1 & _ & G1 & D1); auto.
  { apply setup_asg_consistent. auto. }
  { intros f' Hf'. assert (I : In f' fs').
    { clear - S1 Hf'. induction S1; [contradiction|]. destruct Hf' as [<-|]; auto. eapply nth_error_In; eauto. }
    split; [eapply cache_slots_ok; eauto|]. apply In_nth_error in I. destruct I as (j & Hj).
    destruct (P j f' Hj) as (f & ci & Hf2 & -> & _). exact (Ha f (nth_error_In _ _ Hf2)). }
  { apply fresh_coherent; auto. }
  destruct (calculateAll_effect Z no_assignment a gs) with (deriv := deriv) (s := s)
    as (s2 & X2 & _ & G2 & D2); auto.
  { apply no_assignment_consistent. }
  { intros f Hf2. assert (I : In f fs).
    { clear - S2 Hf2. induction S2; [contradiction|]. destruct Hf2 as [<-|]; auto. eapply nth_error_In; eauto. }
    split; [apply no_slots_ok; auto|]. apply Ha; auto. }
  { apply fresh_coherent; auto. }
  exists s1, s2. split; auto. split; auto. split.
  - intros i. rewrite G1, G2. apply put_same. auto.
  - intros l. rewrite D1, D2. now rewrite (contrib_same Z a gs' gs l SF).
Qed.

(** Slots: within the allocated size, shared only by functions with the same
    text, used at least twice. *)
Theorem cache_slots fs : numbered fs -> (forall f, In f fs -> no_slots f) ->
  exists fs' sizes, setupCache K K_dec key numElements fs = Some (fs', sizes) /\
    Forall2 same_function fs' fs /\
    (forall f' e, In f' fs' -> sf_ci (sf_c f') e = [] \/ exists c0 c1, sf_ci (sf_c f') e = [c0; c1] /\
         (c0 < sizes e)%nat /\ (c1 < sizes e)%nat /\ c0 <> c1) /\
    (forall i j f f' g g' e c, nth_error fs i = Some f -> nth_error fs' i = Some f' ->
       nth_error fs j = Some g -> nth_error fs' j = Some g' ->
       In c (sf_ci (sf_c f') e) -> In c (sf_ci (sf_c g') e) ->
       key f = key g /\ sf_ci (sf_c f') e = sf_ci (sf_c g') e) /\
    (forall e c, (e < numElements)%nat -> (c < sizes e)%nat -> exists i j f' g', i <> j /\
       nth_error fs' i = Some f' /\ nth_error fs' j = Some g' /\
       In c (sf_ci (sf_c f') e) /\ In c (sf_ci (sf_c g') e)).
Proof.
  intros Hn Hs. destruct (setup_slots K K_dec key numElements fs Hn Hs) as (fs' & sz & E & HL & HS & HU & P).
  exists fs', sz. split; auto. split; [|split; [|split]].
  - clear - HL P.
    assert (X : forall j f', nth_error fs' j = Some f' -> exists f, nth_error fs j = Some f /\ same_function f' f).
    { intros j f' Hj. destruct (P j f' Hj) as (f & ci & Hf & -> & _). exists f. split; auto. apply with_ci_same. }
    clear P. revert fs HL X. induction fs' as [|f' fs' IH]; intros [|f fs] HL X; try discriminate; constructor.
    + destruct (X 0%nat f' eq_refl) as (h & Hh & S). injection Hh as <-. auto.
    + apply IH; [injection HL; auto|]. intros j g' Hj. apply (X (S j) g' Hj).
  - intros f' e Hf'. apply In_nth_error in Hf'. destruct Hf' as (j & Hj).
    destruct (P j f' Hj) as (f & ci & Hf & -> & Hci).
    cbn [with_ci sf_c sf_ci]. destruct (Hci e) as [|(q & g & -> & Hq & _)]; auto. right.
    exists (2 * q)%nat, (2 * q + 1)%nat. split; auto. rewrite HS.
    assert (q < length (shared K K_dec key numElements e fs))%nat by (apply nth_error_Some; congruence). lia.
  - intros i j f f' g g' e c Hf Hi Hg Hj. destruct (P i f' Hi) as (f2 & ci & Hf2 & -> & Hci).
    destruct (P j g' Hj) as (g2 & ci' & Hg2 & -> & Hci').
    rewrite Hf in Hf2. injection Hf2 as <-. rewrite Hg in Hg2. injection Hg2 as <-.
    cbn [with_ci sf_c sf_ci]. intros N1 N2.
    destruct (Hci e) as [X|(q & h & X & Hq & Kq & _)]; rewrite X in N1; [contradiction|].
    destruct (Hci' e) as [Y|(q' & h' & Y & Hq' & Kq' & _)]; rewrite Y in N2; [contradiction|].
    assert (q = q') by (destruct N1 as [<-|[<-|[]]], N2 as [|[|[]]]; lia). subst q'.
    rewrite X, Y. rewrite Hq in Hq'. injection Hq' as <-. split; congruence.
  - intros e c He Hc. rewrite HS in Hc.
    set (q := (c / 2)%nat). assert (Hq : (q < length (shared K K_dec key numElements e fs))%nat).
    { apply Nat.div_lt_upper_bound; lia. }
    assert (Hcq : c = (2 * q)%nat \/ c = (2 * q + 1)%nat).
    { unfold q. pose proof (Nat.div_mod c 2 ltac:(lia)). pose proof (Nat.mod_upper_bound c 2 ltac:(lia)). lia. }
    destruct (nth_error (shared K K_dec key numElements e fs) q) as [g|] eqn:Eg; [|apply nth_error_None in Eg; lia].
    assert (Ig := nth_error_In _ _ Eg). assert (L := shared_twice K K_dec key numElements e fs g Ig).
    assert (ND : NoDup (snd g)).
    { rewrite (proj2 (shared_ok K K_dec key numElements e fs) g Ig). apply members_nodup. exact Hn. }
    assert (HU' := fun s => HU e q g s He Eg).
    destruct (snd g) as [|s1 [|s2 r]]; [simpl in L; lia|simpl in L; lia|].
    destruct (HU' s1) as (f1 & F1 & C1); [simpl; auto|]. destruct (HU' s2) as (f2 & F2 & C2); [simpl; auto|].
    exists s1, s2, f1, f2. split. { inversion ND; subst. simpl in *. intros ->; tauto. }
    split; auto. split; auto. rewrite C1, C2. simpl. intuition.
Qed.
End CacheThm.
