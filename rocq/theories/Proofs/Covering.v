(** Structures in which atoms have the same environment (C68-C70). *)
From Coq Require Import Reals Lra Lia ZArith List Permutation Bool Arith.
From Coquelicot Require Import Coquelicot.
From Coq Require Import List.
From Verif Require Import Base.Vec3 Base.SumR Model.NeuralNetwork Model.Geometry Model.NeighborList Model.SymFunctions
  Spec.NetworkSpec Spec.GeometrySpec Spec.NeighborSpec Spec.SymSpec Spec.ForceSpec Spec.InvarianceSpec
  Proofs.GeometryProofs Proofs.NeighborProofs Proofs.NeighborMore Proofs.SymInv Proofs.ForceLocal Proofs.Isometry.
Import ListNotations.
Local Open Scope R_scope.

(** Atoms and periodic images present in a structure. *)
Definition site (s : structure) (q : nat * image) : Prop :=
  (fst q < length (s_atoms s))%nat /\ (s_periodic s = false -> snd q = (0, 0, 0)%Z).

(** The neighbors of an atom. *)
Definition sites (s : structure) (rc : R) (j : nat) (L : list (nat * image)) : Prop :=
  NoDup L /\ forall k m, In (k, m) L <-> in_range s rc j k m.
Lemma sites_unique s rc j L L' : sites s rc j L -> sites s rc j L' -> Permutation L L'.
Proof. intros (A & B) (A' & B'). apply NoDup_Permutation; auto. intros [k m]. now rewrite B, B'. Qed.

(** Sites of s and s' are matched: seen from atom i of s and atom i' of s'
    matched sites have the same element and relative vectors related by A. *)
Section Match.
Variables (A : vec -> vec) (s s' : structure) (i i' : nat).
Variable M : nat * image -> nat * image -> Prop.
Hypothesis A_norm : forall v, norm (A v) = norm v.
Hypothesis M_site : forall q q', M q q' -> site s q /\ site s' q'.
Hypothesis M_total : forall q, site s q -> exists q', M q q'.
Hypothesis M_onto : forall q', site s' q' -> exists q, M q q'.
Hypothesis M_fun : forall q q1 q2, M q q1 -> M q q2 -> q1 = q2.
Hypothesis M_inj : forall q1 q2 q', M q1 q' -> M q2 q' -> q1 = q2.
Hypothesis M_self : M (i, (0, 0, 0)%Z) (i', (0, 0, 0)%Z).
Hypothesis M_same : forall q q', M q q' -> fst (view s' i' q') = fst (view s i q) /\ snd (view s' i' q') = A (snd (view s i q)).

Lemma match_range rc q q' : M q q' -> in_range s rc i (fst q) (snd q) <-> in_range s' rc i' (fst q') (snd q').
Proof.
  intros H. destruct (M_site _ _ H) as [[S1 S2] [S1' S2']]. destruct (M_site _ _ M_self) as [[I1 _] [I1' _]]. cbn [fst] in I1, I1'.
  destruct (nth_error (s_atoms s) i) as [ai|] eqn:Ei; [|apply nth_error_None in Ei; lia].
  destruct (nth_error (s_atoms s') i') as [ai'|] eqn:Ei'; [|apply nth_error_None in Ei'; lia].
  destruct (nth_error (s_atoms s) (fst q)) as [aj|] eqn:Ej; [|apply nth_error_None in Ej; lia].
  destruct (nth_error (s_atoms s') (fst q')) as [aj'|] eqn:Ej'; [|apply nth_error_None in Ej'; lia].
  destruct (M_same _ _ H) as [_ D]. unfold view in D. cbn [snd] in D.
  rewrite (at_nth s i ai Ei), (at_nth s _ aj Ej), (at_nth s' i' ai' Ei'), (at_nth s' _ aj' Ej') in D.
  assert (W : (i, (0, 0, 0)%Z) = q <-> (i', (0, 0, 0)%Z) = q').
  { split; [intros <-|intros <-]; [eapply M_fun|eapply M_inj]; eauto. }
  destruct q as [j m], q' as [j' m']. cbn [fst snd] in *. split.
  - intros (bi & bj & Ebi & Ebj & Hm & Hs & Hr). rewrite Ei in Ebi. injection Ebi as <-. rewrite Ej in Ebj. injection Ebj as <-.
    exists ai', aj'. split; auto. split; auto. split; auto. split; [intros Z0; apply Hs; now apply W|]. rewrite D, A_norm. auto.
  - intros (bi & bj & Ebi & Ebj & Hm & Hs & Hr). rewrite Ei' in Ebi. injection Ebi as <-. rewrite Ej' in Ebj. injection Ebj as <-.
    exists ai, aj. split; auto. split; auto. split; auto. split; [intros Z0; apply Hs; now apply W|]. rewrite D, A_norm in Hr. auto.
Qed.
Lemma in_range_site s1 rc i1 j m : in_range s1 rc i1 j m -> site s1 (j, m).
Proof. intros (ai & aj & _ & Ej & Hm & _). split; auto. apply nth_error_Some. cbn. congruence. Qed.

Theorem match_sites rc L : sites s rc i L -> exists L', sites s' rc i' L' /\ Forall2 M L L'.
Proof.
  intros (L1 & L2).
  assert (X : exists L', Forall2 M L L').
  { assert (HL : forall q, In q L -> site s q) by (intros [j m] Hq; apply L2 in Hq; eapply in_range_site; eauto).
    clear - M_total HL. induction L as [|q L IH]; [exists []; constructor|].
    destruct IH as (L' & F). { intros x Hx. apply HL. now right. }
    destruct (M_total q (HL q (or_introl eq_refl))) as (q' & H). exists (q' :: L'). now constructor. }
  destruct X as (L' & F).
  assert (H1 : forall q', In q' L' -> exists q, In q L /\ M q q').
  { clear - F. induction F as [|q q' L L' H _ IH]; intros x Hx; [destruct Hx|]. destruct Hx as [<-|Hx]; [exists q; split; [now left|auto]|].
    destruct (IH x Hx) as (y & Hy & Hm). exists y. split; [now right|auto]. }
  assert (H2 : forall q, In q L -> exists q', In q' L' /\ M q q').
  { clear - F. induction F as [|q q' L L' H _ IH]; intros x Hx; [destruct Hx|]. destruct Hx as [<-|Hx]; [exists q'; split; [now left|auto]|].
    destruct (IH x Hx) as (y & Hy & Hm). exists y. split; [now right|auto]. }
  assert (R' : forall j m, In (j, m) L' <-> in_range s' rc i' j m).
  { intros j m. split.
    - intros Hq. destruct (H1 _ Hq) as ([j0 m0] & Hq0 & Hm). apply (match_range rc _ _ Hm). now apply L2.
    - intros Hr. destruct (M_onto (j, m)) as ([j0 m0] & Hm); [eapply in_range_site; eauto|].
      assert (In (j0, m0) L) by (apply L2; apply (match_range rc _ _ Hm); auto).
      destruct (H2 _ H) as (q' & Hq' & Hm'). now rewrite (M_fun _ _ _ Hm Hm'). }
  exists L'. split; [split; [|exact R']|exact F].
  clear - F L1 M_inj. induction F as [|q q' L L' H F IH]; [constructor|]. inversion L1 as [|x l N1 N2]; subst. constructor; auto.
    intros Hin. assert (exists x, In x L /\ M x q').
    { clear - F Hin. induction F as [|x y L L' H _ IH]; [destruct Hin|]. destruct Hin as [<-|Hin]; [exists x; split; [now left|auto]|].
      destruct (IH Hin) as (z & Hz & Hm). exists z. split; [now right|auto]. }
    destruct H0 as (x & Hx & Hm). apply N1. now rewrite (M_inj _ _ _ H Hm).
Qed.
Theorem match_neighbourhood rc e : neighbourhood s rc i e -> neighbourhood s' rc i' (map (fun n => (fst n, A (snd n))) e).
Proof.
  intros (L & L1 & L2 & L3). rewrite (seen_view _ _ _ _ L3). destruct (match_sites rc L (conj L1 L2)) as (L' & (L1' & R') & F).
  exists L'. split; [exact L1'|split; [exact R'|]].
  replace (map _ (map (view s i) L)) with (map (view s' i') L').
  - apply (view_seen s' rc). intros [j m] Hp. now apply R'.
  - rewrite map_map. clear - F M_same. induction F as [|q q' L L' H _ IH]; cbn [map]; auto. rewrite IH. f_equal.
    destruct (M_same _ _ H) as [X Y]. rewrite <- X, <- Y. apply surjective_pairing.
Qed.
End Match.
