(** All groups of an element together give what the functions give one by one. *)
From Coq Require Import Reals ZArith Lra Lia Bool Arith Permutation.
From Coquelicot Require Import Coquelicot.
From Coq Require Import List.
From Verif Require Import Base.RealBase Base.Vec3 Base.SumR Base.Loop Model.CoreFunction Model.CutoffFunction
  Model.CompactScreening Model.Strings Model.Scaling Model.NeighborList Model.SymFunctions Model.SymSetup Model.SymGroups
  Spec.CompactSpec Spec.SymSpec Spec.SetupSpec Spec.GroupSpec Proofs.CutoffProofs Proofs.CompactProofs Proofs.SymEval Proofs.SymGrad
  Proofs.SymAll Proofs.SetupProofs Proofs.GroupEval Proofs.GroupRad Proofs.GroupAng Proofs.GroupComp.
Import ListNotations.
Local Open Scope R_scope.

(** ** Members *)
Section MembersOf.
Context {P : Type}.
Variables (mk : P -> kind) (as_par : kind -> option P) (changed : P -> P -> bool) (norm : P -> R).
Hypothesis Has : forall k p, as_par k = Some p -> k = mk p.

Lemma members_of_ok fs : forall prev, (forall f, In f fs -> exists p, as_par (sf_kind f) = Some p) ->
  exists ms, members_of as_par changed norm prev fs = Some ms /\ map (of_member mk) ms = fs /\
    (forall m, In m ms -> m_norm m = norm (m_p m)) /\
    forall k m, nth_error ms k = Some m -> m_calc m =
      match k with
      | O => match prev with None => true | Some q => changed q (m_p m) end
      | S k' => match nth_error ms k' with Some q => changed (m_p q) (m_p m) | None => true end
      end.
Proof.
  induction fs as [|f r IH]; intros prev H; cbn [members_of].
  - exists []. split; auto. split; auto. split; [intros m []|]. intros [|k] m; discriminate.
  - destruct (H f (or_introl eq_refl)) as (p & Ep). rewrite Ep.
    destruct (IH (Some p)) as (ms & -> & E2 & N & C). { intros; apply H; right; auto. }
    eexists. split; [reflexivity|]. split; [|split].
    + cbn [map]. rewrite E2. f_equal. unfold of_member. cbn [m_c m_p]. rewrite <- (Has _ _ Ep). destruct f; reflexivity.
    + intros m [<-|Hm]; auto.
    + intros [|k] m Hk.
      * injection Hk as <-. reflexivity.
      * cbn [nth_error] in Hk. rewrite (C k m Hk). destruct k as [|k]; reflexivity.
Qed.
Lemma scale_member_of b sc ms : map (of_member mk) (map (scale_member b sc) ms) = map (set_scaling sc) (map (of_member mk) ms).
Proof. rewrite !map_map. apply map_ext. intros m. reflexivity. Qed.
Lemma scale_calc_ok b sc (ms : list (member P)) : calc_ok changed ms -> calc_ok changed (map (scale_member b sc) ms).
Proof.
  intros H k m Hk. rewrite nth_error_map in Hk. destruct (nth_error ms k) as [m'|] eqn:E; [|discriminate].
  injection Hk as <-. cbn [scale_member m_calc m_p]. rewrite (H k m' E). destruct k; auto.
  rewrite nth_error_map. destruct (nth_error ms k); auto.
Qed.
Lemma scale_scaled b sc (ms : list (member P)) m : In m (map (scale_member b sc) ms) -> scaled_member m.
Proof. intros H. apply in_map_iff in H. destruct H as (m' & <- & _). reflexivity. Qed.
Lemma scale_norm sc (ms : list (member P)) m : (forall m, In m ms -> m_norm m = norm (m_p m)) ->
  In m (map (scale_member true sc) ms) -> m_norm m = norm (m_p m) * factor_of m.
Proof. intros N H. apply in_map_iff in H. destruct H as (m' & <- & H). cbn. rewrite N; auto. Qed.
End MembersOf.

Lemma configured fc rc : cutoff_setup fc rc -> group_fc fc rc = Some fc.
Proof.
  intros (_ & t & al & E). unfold group_fc. destruct (configure_eq _ _ _ _ E) as (_ & Ec).
  replace (cf_type fc) with t by (rewrite Ec; auto). replace (cf_alpha fc) with al by (rewrite Ec; auto). exact E.
Qed.
Lemma common_fc fc rc gc qc : cutoff_setup fc rc -> cutoff_setup gc qc -> common_cutoff fc rc gc qc -> gc = fc /\ qc = rc.
Proof.
  intros H1 H2 (T & A & Rc). split; auto. assert (E1 := configured _ _ H1). assert (E2 := configured _ _ H2).
  unfold group_fc in *. rewrite T, A, Rc in E1. congruence.
Qed.
Lemma grow_fold l : forall M, exists M', fold_left grow l (0, M) = (0, M') /\ M <= M' /\ forall x, In x l -> snd x <= M'.
Proof.
  induction l as [|[rl rc] l IH]; intros M; cbn [fold_left].
  - exists M. split; auto. split; [lra|intros x []].
  - assert (G : grow (0, M) (rl, rc) = (0, Rmax M rc)).
    { unfold grow. f_equal. destruct (Rle_dec rl 0); auto. apply Rmin_left. lra. }
    rewrite G. destruct (IH (Rmax M rc)) as (M' & -> & B & C). exists M'. split; auto.
    assert (X := Rmax_l M rc). assert (Y := Rmax_r M rc). split; [lra|]. intros x [<-|Hx]; auto. cbn. lra.
Qed.
Lemma range_ok fs : exists M, group_range fs = (0, M) /\ forall f, In f fs -> snd (limits (sf_kind f)) <= M.
Proof.
  destruct (grow_fold (map (fun f => limits (sf_kind f)) fs) 0) as (M & E & _ & C). exists M. split; auto.
  intros f Hf. apply C. apply in_map_iff. exists f. auto.
Qed.

(** ** One group *)
Section One.
Variables (Z : nat -> R) (asg : assignment) (a : atom) (deriv : bool) (sc : nat -> scaling).
Hypothesis Hcons : consistent asg.
Hypothesis Hgl : good_list a.
Variables (added sorted : list symfnc).
Hypothesis Hperm : Permutation added sorted.
Hypothesis Hgrp : forall f h, In f added -> In h added -> groupable (sf_kind f) (sf_kind h).
Hypothesis Hready : forall f, In f added -> gready asg a f.
Hypothesis Hpar : forall f, In f added -> groupable_parameters (scalingFactor (sc (sf_index (sf_c f)))) (sf_kind f).
Hypothesis Hsame : forall f h, In f added -> In h added -> same_radial_part (sf_kind f) (sf_kind h).
Hypothesis Hdist : forall f, In f added -> distinct_neighbors (sf_kind f) (env_of (a_nbs a)).

Definition makes_effect (o : option group) : Prop :=
  exists g, o = Some g /\
    group_effect Z asg a (map (set_scaling sc) sorted) deriv (calculateGroup Z a deriv (set_group_scaling sc g)).

Lemma in_added f : In f sorted -> In f added.
Proof. intros H. apply (Permutation_in f (Permutation_sym Hperm) H). Qed.

(** What the scaled members are. *)
Lemma scaled_in {P} (mk : P -> kind) b ms m : map (of_member mk) ms = sorted -> In m (map (scale_member b sc) ms) ->
  exists f, In f added /\ sf_kind f = mk (m_p m) /\ of_member mk m = set_scaling sc f /\
    factor_of m = scalingFactor (sc (sf_index (sf_c f))).
Proof.
  intros E H. apply in_map_iff in H. destruct H as (m' & <- & H). exists (of_member mk m'). split.
  - apply in_added. rewrite <- E. apply in_map_iff. exists m'. auto.
  - split; [reflexivity|]. split; reflexivity.
Qed.
Lemma scaled_ready {P} (mk : P -> kind) b ms m : map (of_member mk) ms = sorted -> In m (map (scale_member b sc) ms) ->
  gready asg a (of_member mk m).
Proof. intros E H. destruct (scaled_in mk b ms m E H) as (f & Hf & _ & -> & _). exact (Hready f Hf). Qed.
Lemma nonempty_members {P} (mk : P -> kind) b ms : added <> [] -> map (of_member mk) ms = sorted ->
  map (scale_member b sc) ms <> [].
Proof.
  intros H E N. apply H. apply map_eq_nil in N. rewrite N in E. cbn in E. rewrite <- E in Hperm.
  apply Permutation_sym, Permutation_nil in Hperm. exact Hperm.
Qed.

Lemma make_expRad w p f0 : In f0 added -> sf_kind f0 = er_kind w p ->
  makes_effect (match group_fc (er_fc p) (er_rc p) with
      | None => None
      | Some fc => option_map (GExpRad w fc (er_rc p) (er_e1 p))
                     (members_of (as_expRad w) (fun _ _ => true) (fun _ => 1) None sorted)
      end).
Proof.
  intros H0 E0.
  assert (G : forall f, In f added -> exists q, sf_kind f = er_kind w q /\ er_fc q = er_fc p /\ er_rc q = er_rc p /\
     (w = false -> er_e1 q = er_e1 p)).
  { intros f Hf. assert (Gf := Hgrp f0 f H0 Hf). rewrite E0 in Gf.
    destruct (Hready f0 H0) as (_ & A0 & _). destruct (Hready f Hf) as (_ & Af & _). rewrite E0 in A0.
    destruct w; cbn [er_kind] in *; destruct (sf_kind f) as [q| q| | | | | | | | |]; try contradiction; cbn [groupable admissible] in *.
    - exists q. split; auto. destruct (common_fc _ _ _ _ A0 Af Gf). intuition discriminate.
    - exists q. split; auto. destruct Gf as (G1 & G2). destruct (common_fc _ _ _ _ A0 Af G2). auto. }
  assert (A0 : cutoff_setup (er_fc p) (er_rc p)).
  { destruct (Hready f0 H0) as (_ & A0 & _). rewrite E0 in A0. destruct w; exact A0. }
  rewrite (configured _ _ A0).
  destruct (members_of_ok (er_kind w) (as_expRad w) (fun _ _ => true) (fun _ => 1)) with (fs := sorted) (prev := @None er_par)
    as (ms & -> & Em & _ & _).
  { intros k q. destruct w, k; cbn; congruence. }
  { intros f Hf. destruct (G f (in_added f Hf)) as (q & -> & _). exists q. destruct w; reflexivity. }
  eexists. split; [reflexivity|]. cbn [set_group_scaling calculateGroup].
  rewrite <- Em, <- (scale_member_of (er_kind w) false). apply expRad_group_effect; auto.
  - intros m Hm. eapply scaled_ready; eauto.
  - intros m Hm. eapply scale_scaled; eauto.
  - intros m Hm. destruct (scaled_in (er_kind w) false ms m Em Hm) as (f & Hf & Ek & _).
    destruct (G f Hf) as (q & Eq & Q). rewrite Ek in Eq. destruct w; cbn in Eq; injection Eq as ->; exact Q.
  - eapply nonempty_members; eauto. intros N. rewrite N in H0. exact H0.
Qed.

Lemma make_compRad w M p f0 : In f0 added -> sf_kind f0 = cr_kind w p ->
  (forall f, In f added -> snd (limits (sf_kind f)) <= M) ->
  makes_effect (option_map (GCompRad w 0 M (cr_e1 p)) (members_of (as_compRad w) (fun _ _ => true) (fun _ => 1) None sorted)).
Proof.
  intros H0 E0 HM.
  assert (G : forall f, In f added -> exists q, sf_kind f = cr_kind w q /\ (w = false -> cr_e1 q = cr_e1 p)).
  { intros f Hf. assert (Gf := Hgrp f0 f H0 Hf). rewrite E0 in Gf.
    destruct w; cbn [cr_kind] in *; destruct (sf_kind f) as [| | | | |q|q| | | |]; try contradiction; cbn [groupable] in *;
      exists q; split; auto; discriminate. }
  destruct (members_of_ok (cr_kind w) (as_compRad w) (fun _ _ => true) (fun _ => 1)) with (fs := sorted) (prev := @None cr_par)
    as (ms & -> & Em & _ & _).
  { intros k q. destruct w, k; cbn; congruence. }
  { intros f Hf. destruct (G f (in_added f Hf)) as (q & -> & _). exists q. destruct w; reflexivity. }
  eexists. split; [reflexivity|]. cbn [set_group_scaling calculateGroup].
  rewrite <- Em, <- (scale_member_of (cr_kind w) false). apply compRad_group_effect; auto.
  - intros m Hm. eapply scaled_ready; eauto.
  - intros m Hm. eapply scale_scaled; eauto.
  - intros m Hm. destruct (scaled_in (cr_kind w) false ms m Em Hm) as (f & Hf & Ek & _).
    specialize (HM f Hf). destruct (G f Hf) as (q & Eq & Q). rewrite Ek in Eq, HM. split.
    + destruct w; exact HM.
    + destruct w; cbn in Eq; injection Eq as ->; exact Q.
Qed.

Lemma make_expAng t p f0 : In f0 added -> sf_kind f0 = ea_kind t p ->
  makes_effect (match group_fc (ea_fc p) (ea_rc p) with
      | None => None
      | Some fc => option_map (GExpAng t fc (ea_rc p) (ea_e1 p) (ea_e2 p))
                     (members_of (as_expAng t) exp_changed exp_norm None sorted)
      end).
Proof.
  intros H0 E0.
  assert (G : forall f, In f added -> exists q, sf_kind f = ea_kind t q /\ ea_fc q = ea_fc p /\ ea_rc q = ea_rc p /\
     (is_weighted t = false -> ea_e1 q = ea_e1 p /\ ea_e2 q = ea_e2 p)).
  { intros f Hf. assert (Gf := Hgrp f0 f H0 Hf). rewrite E0 in Gf.
    destruct (Hready f0 H0) as (_ & A0 & _). destruct (Hready f Hf) as (_ & Af & _). rewrite E0 in A0.
    destruct t; cbn [ea_kind is_weighted] in *; destruct (sf_kind f) as [| |q|q|q| | | | | |]; try contradiction; cbn [groupable admissible] in *;
      destruct A0 as (A0 & _), Af as (Af & _); exists q; (split; [reflexivity|]).
    - destruct Gf as (G1 & G2 & G3). destruct (common_fc _ _ _ _ A0 Af G3). auto.
    - destruct Gf as (G1 & G2 & G3). destruct (common_fc _ _ _ _ A0 Af G3). auto.
    - destruct (common_fc _ _ _ _ A0 Af Gf). intuition discriminate. }
  assert (A0 : cutoff_setup (ea_fc p) (ea_rc p)).
  { destruct (Hready f0 H0) as (_ & A0 & _). rewrite E0 in A0. destruct t; exact (proj1 A0). }
  rewrite (configured _ _ A0).
  destruct (members_of_ok (ea_kind t) (as_expAng t) exp_changed exp_norm) with (fs := sorted) (prev := @None ea_par)
    as (ms & -> & Em & Nm & Cm).
  { intros k q. destruct t, k; cbn; congruence. }
  { intros f Hf. destruct (G f (in_added f Hf)) as (q & -> & _). exists q. destruct t; reflexivity. }
  eexists. split; [reflexivity|]. cbn [set_group_scaling calculateGroup].
  assert (PP : forall m, In m (map (scale_member true sc) ms) -> ea_zeta (m_p m) <> 0 /\ ea_lambda (m_p m) <> 0 /\ factor_of m <> 0 /\
     (is_weighted t = false -> 0 <= ea_rs (m_p m))).
  { intros m Hm. destruct (scaled_in (ea_kind t) true ms m Em Hm) as (f & Hf & Ek & _ & Fm).
    assert (Q := Hpar f Hf). rewrite Ek, <- Fm in Q. destruct t; cbn in Q; intuition discriminate. }
  rewrite <- Em, <- (scale_member_of (ea_kind t) true). apply expAng_group_effect; auto.
  - intros m Hm. eapply scaled_ready; eauto.
  - intros m Hm. destruct (scaled_in (ea_kind t) true ms m Em Hm) as (f & Hf & Ek & _).
    destruct (G f Hf) as (q & Eq & Q). rewrite Ek in Eq. destruct t; cbn in Eq; injection Eq as ->; exact Q.
  - intros m Hm. split; [eapply scale_scaled; eauto|]. split; [apply PP; auto|]. eapply scale_norm; eauto.
  - intros m Hm. destruct (PP m Hm) as (Q1 & Q2 & _ & Q3). auto.
  - apply scale_calc_ok. exact Cm.
  - intros T. assert (Q := Hdist f0 H0). rewrite E0 in Q. destruct t; [exact Q|discriminate|exact Q].
  - eapply nonempty_members; eauto. intros N. rewrite N in H0. exact H0.
Qed.

Lemma make_compAng n w M p f0 : In f0 added -> sf_kind f0 = ca_kind n w p ->
  (forall f, In f added -> snd (limits (sf_kind f)) <= M) ->
  makes_effect (option_map (GCompAng n w 0 M (ca_e1 p) (ca_e2 p))
        (members_of (as_compAng n w) (if n then comp_changed else fun _ _ => true) (fun _ => 1) None sorted)).
Proof.
  intros H0 E0 HM.
  assert (G : forall f, In f added -> exists q, sf_kind f = ca_kind n w q /\ (w = false -> ca_e1 q = ca_e1 p /\ ca_e2 q = ca_e2 p)).
  { intros f Hf. assert (Gf := Hgrp f0 f H0 Hf). rewrite E0 in Gf.
    destruct n, w; cbn [ca_kind] in *; destruct (sf_kind f) as [| | | | | | |q|q|q|q]; try contradiction; cbn [groupable] in *;
      exists q; (split; [reflexivity|]); try discriminate; destruct Gf; auto. }
  destruct (members_of_ok (ca_kind n w) (as_compAng n w) (if n then comp_changed else fun _ _ => true) (fun _ => 1))
    with (fs := sorted) (prev := @None ca_par) as (ms & -> & Em & _ & Cm).
  { intros k q. destruct n, w, k; cbn; congruence. }
  { intros f Hf. destruct (G f (in_added f Hf)) as (q & -> & _). exists q. destruct n, w; reflexivity. }
  eexists. split; [reflexivity|]. cbn [set_group_scaling calculateGroup].
  rewrite <- Em, <- (scale_member_of (ca_kind n w) false). apply compAng_group_effect; auto.
  - intros m Hm. eapply scaled_ready; eauto.
  - intros m Hm. eapply scale_scaled; eauto.
  - intros m Hm. destruct (scaled_in (ca_kind n w) false ms m Em Hm) as (f & Hf & Ek & _).
    specialize (HM f Hf). assert (Q := Hpar f Hf). destruct (G f Hf) as (q & Eq & Qe). rewrite Ek in Eq, HM, Q. split; [|split].
    + destruct n, w; exact HM.
    + destruct n, w; exact Q.
    + destruct n, w; cbn in Eq; injection Eq as ->; exact Qe.
  - apply scale_calc_ok. exact Cm.
  - intros T m m' Hm Hm' E1 E2. destruct (scaled_in (ca_kind n w) false ms m Em Hm) as (f & Hf & Ek & _).
    destruct (scaled_in (ca_kind n w) false ms m' Em Hm') as (f' & Hf' & Ek' & _).
    assert (Q := Hsame f f' Hf Hf'). rewrite Ek, Ek' in Q. rewrite T in Q. destruct w; exact (Q E1 E2).
  - eapply nonempty_members; eauto. intros N. rewrite N in H0. exact H0.
Qed.

Lemma make_group_effect : added <> [] -> makes_effect (make_group added sorted).
Proof.
  intros Hne. destruct added as [|f0 r] eqn:Ea; [contradiction|]. rewrite <- Ea in *.
  assert (H0 : In f0 added) by (rewrite Ea; left; auto).
  destruct (range_ok added) as (M & ER & HM).
  unfold make_group. rewrite Ea at 1. rewrite ER. cbv zeta.
  destruct (sf_kind f0) as [p|p|p|p|p|p|p|p|p|p|p] eqn:E0.
  - apply (make_expRad false p f0); auto.
  - apply (make_expRad true p f0); auto.
  - apply (make_expAng Narrow p f0); auto.
  - apply (make_expAng Wide p f0); auto.
  - apply (make_expAng NarrowWeighted p f0); auto.
  - apply (make_compRad false M p f0); auto.
  - apply (make_compRad true M p f0); auto.
  - apply (make_compAng true false M p f0); auto.
  - apply (make_compAng false false M p f0); auto.
  - apply (make_compAng true true M p f0); auto.
  - apply (make_compAng false true M p f0); auto.
Qed.
End One.

(** ** All groups *)
Lemma put_values_app Z a l l' g i : put_values Z a (l ++ l') g i = put_values Z a l' (put_values Z a l g) i.
Proof. unfold put_values. rewrite fold_left_app. reflexivity. Qed.
Lemma put_values_ext Z a l g g' i : (forall i, g i = g' i) -> put_values Z a l g i = put_values Z a l g' i.
Proof. intros H. unfold put_values. rewrite H. reflexivity. Qed.
Lemma put_values_other Z a l g i : (forall f, In f l -> sf_index (sf_c f) <> i) -> put_values Z a l g i = g i.
Proof.
  intros H. unfold put_values. generalize (g i). induction l as [|f l IH]; intros v; auto. cbn [fold_left].
  destruct (Nat.eqb_spec i (sf_index (sf_c f))) as [E|_]; [elim (H f (or_introl eq_refl)); auto|].
  apply IH. intros; apply H; right; auto.
Qed.
Lemma put_values_here Z a l g f : NoDup (map (fun f => sf_index (sf_c f)) l) -> In f l ->
  put_values Z a l g (sf_index (sf_c f)) = scale (sf_scaling (sf_c f)) (sf_value Z (sf_kind f) (env_of (a_nbs a))).
Proof.
  revert g. induction l as [|h l IH]; intros g N H; [contradiction|]. cbn [map] in N. inversion N as [|? ? N1 N2]; subst.
  change (h :: l) with ([h] ++ l). rewrite put_values_app. destruct H as [->|H]; [|apply IH; auto].
  rewrite put_values_other.
  - unfold put_values. cbn. rewrite Nat.eqb_refl. reflexivity.
  - intros f' Hf' E. apply N1. rewrite <- E. apply in_map_iff. exists f'. auto.
Qed.
Lemma put_values_perm Z a l l' g i : NoDup (map (fun f => sf_index (sf_c f)) l) -> Permutation l l' ->
  put_values Z a l g i = put_values Z a l' g i.
Proof.
  intros N P. assert (N' : NoDup (map (fun f => sf_index (sf_c f)) l')).
  { eapply Permutation_NoDup; [apply Permutation_map; exact P|exact N]. }
  destruct (in_dec Nat.eq_dec i (map (fun f => sf_index (sf_c f)) l)) as [H|H].
  - apply in_map_iff in H. destruct H as (f & <- & Hf). rewrite !put_values_here; auto. eapply Permutation_in; eauto.
  - rewrite !put_values_other; auto.
    + intros f Hf E. apply H. apply in_map_iff. exists f. split; auto. eapply Permutation_in; [apply Permutation_sym; exact P|auto].
    + intros f Hf E. apply H. apply in_map_iff. exists f. auto.
Qed.
Lemma vsum_perm l l' : Permutation l l' -> vsum l = vsum l'.
Proof. induction 1; cbn; auto; try congruence; try (rewrite IHPermutation; auto); vring. Qed.

Lemma groups_effect Z asg a deriv (gs : list group) (fss : list (list symfnc)) :
  Forall2 (fun g fs => group_effect Z asg a fs deriv (calculateGroup Z a deriv g)) gs fss ->
  group_effect Z asg a (concat fss) deriv (calculateGroups Z a deriv gs).
Proof.
  induction 1 as [|g fs gs fss H _ IH]; intros s Hc.
  - exists s. split; [reflexivity|]. split; auto. split; auto. intros x. destruct deriv; cbn; vring.
  - destruct (H s Hc) as (s1 & E1 & C1 & G1 & D1). destruct (IH s1 C1) as (s2 & E2 & C2 & G2 & D2).
    exists s2. unfold calculateGroups in *. cbn [ofold concat]. rewrite E1. split; auto. split; auto. split.
    + intros i. rewrite G2, put_values_app. apply put_values_ext. exact G1.
    + intros x. rewrite D2, D1. destruct deriv; [|vring]. rewrite map_app, vsum_app. vring.
Qed.

Theorem groups_result Z asg a deriv sc gsort msort fs :
  consistent asg -> good_list a ->
  (forall l, Permutation l (gsort l)) -> (forall l, Permutation l (msort l)) ->
  NoDup (map (fun f => sf_index (sf_c f)) fs) ->
  (forall f, In f fs -> gready asg a f /\ groupable_parameters (scalingFactor (sc (sf_index (sf_c f)))) (sf_kind f) /\
                        distinct_neighbors (sf_kind f) (env_of (a_nbs a))) ->
  (forall f h, In f fs -> In h fs -> same_radial_part (sf_kind f) (sf_kind h)) ->
  exists gs, setupSymmetryFunctionGroups gsort msort fs = Some gs /\
    forall s, coherent asg (a_nbs a) s -> exists s2,
      calculateGroups Z a deriv (map (set_group_scaling sc) gs) s = Some s2 /\
      (forall i, st_G s2 i = put_values Z a (map (set_scaling sc) fs) (st_G s) i) /\
      (forall x, st_D s2 x = vadd (st_D s x)
         (if deriv then vsum (map (fun f => ev_at x (contributions Z f a)) (map (set_scaling sc) fs)) else vzero)).
Proof.
  intros Hcons Hgl Pg Pm Nd Hf Hs.
  unfold setupSymmetryFunctionGroups.
  destruct (fold_place fs []) as ((G & _) & P). { split; [intros g []|constructor]. }
  cbn [concat] in P. rewrite app_nil_r in P.
  set (g0 := fold_left (fun gs f => place f gs) fs []) in *.
  assert (IN : forall g f, In g (gsort g0) -> In f g -> In f fs).
  { intros g f Hg Hfg. apply (Permutation_in f P). apply in_concat. exists g. split; auto.
    apply (Permutation_in g (Permutation_sym (Pg g0)) Hg). }
  assert (X : exists gs, oall (fun g => make_group g (msort g)) (gsort g0) = Some gs /\
    Forall2 (fun g l => group_effect Z asg a l deriv (calculateGroup Z a deriv g))
      (map (set_group_scaling sc) gs) (map (fun g => map (set_scaling sc) (msort g)) (gsort g0))).
  { assert (A : forall g, In g (gsort g0) -> makes_effect Z asg a deriv sc (msort g) (make_group g (msort g))).
    { intros g Hg. destruct (G g (Permutation_in g (Permutation_sym (Pg g0)) Hg)) as (G1 & G2).
      apply make_group_effect; auto; intros f Hfg; try (apply Hf; eapply IN; eauto).
      intros h Hh. apply Hs; eapply IN; eauto. }
    clear - A. induction (gsort g0) as [|g r IH].
    - exists []. split; auto. constructor.
    - destruct (A g (or_introl eq_refl)) as (gg & E & H). destruct IH as (gs & E2 & H2). { intros; apply A; right; auto. }
      exists (gg :: gs). cbn [oall]. rewrite E, E2. split; auto. cbn [map]. constructor; auto. }
  destruct X as (gs & E & F). exists gs. split; auto. intros s Hc.
  destruct (groups_effect Z asg a deriv _ _ F s Hc) as (s2 & E2 & _ & G2 & D2).
  assert (PP : Permutation (map (set_scaling sc) fs) (concat (map (fun g => map (set_scaling sc) (msort g)) (gsort g0)))).
  { rewrite <- (map_map msort (map (set_scaling sc))). rewrite <- concat_map. apply Permutation_map.
    rewrite <- P. rewrite (concat_perm _ _ (Pg g0)). apply concat_map_perm. exact Pm. }
  exists s2. split; auto. split.
  - intros i. rewrite G2. symmetry. apply put_values_perm; auto. rewrite map_map. exact Nd.
  - intros x. rewrite D2. f_equal. destruct deriv; auto. symmetry. apply vsum_perm. apply Permutation_map. exact PP.
Qed.
