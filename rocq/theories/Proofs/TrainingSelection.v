(** Selection settings of the properties after the set-up (C81). *)
From Coq Require Import Reals ZArith Lia Ascii String Bool Arith.
From Coq Require Import List.
From Verif Require Import Base.AssocMap Model.Strings Model.Printf Model.Settings Model.SymLines Model.NetworkSetup Model.DataFiles
  Model.Updaters Model.Selection Model.UpdatePlan Model.TrainingSetup Spec.TrainingSpec
  Proofs.SymLineProofs Proofs.NetworkSetupProofs Proofs.NetworkSetupMain Proofs.TrainingSchedule.
Import ListNotations.
Local Open Scope nat_scope.

Lemma has_true s k : has s k = Done true <-> keywordExists s k false = Some true.
Proof. unfold has. rewrite throwing_done. reflexivity. Qed.
Lemma has_false s k : has s k = Done false <-> absent s k.
Proof. unfold has, absent. rewrite throwing_done. reflexivity. Qed.
Lemma get_given s k v : get s k = Done v <-> given s k v.
Proof. unfold get, given. apply throwing_done. Qed.
Lemma get_int_given s k z : get_int s k = Done z <-> given_int s k z.
Proof.
  unfold get_int, given_int. rewrite bindo_done. split; intros (w & A & B); exists w; split; try exact B; now apply get_given.
Qed.
Lemma get_real_given s k x : get_real s k = Done x <-> given_real s k x.
Proof.
  unfold get_real, given_real. rewrite bindo_done. split.
  - intros (w & A & B). apply done_inj in B. exists w. split; [now apply get_given | now symmetry].
  - intros (w & A & ->). exists w. split; [now apply get_given | reflexivity].
Qed.
Lemma property_eqb_eq a b : property_eqb a b = true <-> a = b.
Proof. destruct a, b; cbn; split; congruence. Qed.

(** What one call does to a property it applies to. *)
Definition kw (base : string) (scope : option property) : str := lit base ++ suffix_of scope.
Definition updates (s : settings) (scope : option property) (p p' : tprop) : Prop :=
  ((absent s (kw "selection_mode" scope) /\ tr_schedule p' = tr_schedule p /\ tr_mode p' = tr_mode p) \/
   (exists v, given s (kw "selection_mode" scope) v /\ readSchedule v = Done (tr_schedule p') /\ mget Z.eqb 0%Z (tr_schedule p') = Some (tr_mode p'))) /\
  ((absent s (kw "rmse_threshold" scope) /\ tr_threshold p' = tr_threshold p) \/
   (exists v, given s (kw "rmse_threshold" scope) v /\ tr_threshold p' = atof v)) /\
  ((absent s (kw "rmse_threshold_trials" scope) /\ tr_trials p' = tr_trials p) \/
   (exists v z, given s (kw "rmse_threshold_trials" scope) v /\ atoi v = Done z /\ tr_trials p' = to_size z)) /\
  (tr_key p' = tr_key p /\ tr_metric p' = tr_metric p /\ tr_every p' = tr_every p /\ tr_always p' = tr_always p /\
   tr_fraction p' = tr_fraction p /\ tr_batch p' = tr_batch p /\ tr_patterns p' = tr_patterns p /\ tr_updates p' = tr_updates p).

Lemma setup_one s scope ps ps' : setupSelectionMode s scope ps = Done ps' ->
  exists f, ps' = apply_to scope f ps /\ forall p, updates s scope p (f p).
Proof.
  unfold setupSelectionMode. change (lit "selection_mode" ++ suffix_of scope) with (kw "selection_mode" scope).
  change (lit "rmse_threshold" ++ suffix_of scope) with (kw "rmse_threshold" scope).
  change (lit "rmse_threshold_trials" ++ suffix_of scope) with (kw "rmse_threshold_trials" scope).
  intro H. apply bindo_done in H. destruct H as (b1 & B1 & H). apply bindo_done in H. destruct H as (ps1 & P1 & H).
  apply bindo_done in H. destruct H as (b2 & B2 & H). apply bindo_done in H. destruct H as (ps2 & P2 & H).
  apply bindo_done in H. destruct H as (b3 & B3 & P3).
  assert (F1 : exists f, ps1 = apply_to scope f ps /\ forall p,
    ((absent s (kw "selection_mode" scope) /\ f p = p) \/
     (exists v m, given s (kw "selection_mode" scope) v /\ readSchedule v = Done m /\ f p = set_schedule m p))).
  { destruct b1.
    - apply bindo_done in P1. destruct P1 as (v & V & P1). apply bindo_done in P1. destruct P1 as (m & M & P1). apply done_inj in P1.
      exists (set_schedule m). split; [now symmetry|]. intro p. right. exists v, m. split; [now apply get_given | auto].
    - apply done_inj in P1. subst ps1. exists (fun p => p). split; [unfold apply_to; rewrite <- (map_id ps) at 1; apply map_ext; intro a; now destruct (in_scope scope a)|].
      intro p. left. split; [now apply has_false | reflexivity]. }
  assert (F2 : exists f, ps2 = apply_to scope f ps1 /\ forall p,
    ((absent s (kw "rmse_threshold" scope) /\ f p = p) \/
     (exists v, given s (kw "rmse_threshold" scope) v /\ f p = set_threshold (atof v) p))).
  { destruct b2.
    - apply bindo_done in P2. destruct P2 as (x & V & P2). apply done_inj in P2. apply get_real_given in V. destruct V as (v & V & ->).
      exists (set_threshold (atof v)). split; [now symmetry|]. intro p. right. exists v. auto.
    - apply done_inj in P2. subst ps2. exists (fun p => p). split; [unfold apply_to; rewrite <- (map_id ps1) at 1; apply map_ext; intro a; now destruct (in_scope scope a)|].
      intro p. left. split; [now apply has_false | reflexivity]. }
  assert (F3 : exists f, ps' = apply_to scope f ps2 /\ forall p,
    ((absent s (kw "rmse_threshold_trials" scope) /\ f p = p) \/
     (exists v z, given s (kw "rmse_threshold_trials" scope) v /\ atoi v = Done z /\ f p = set_trials (to_size z) p))).
  { destruct b3.
    - apply bindo_done in P3. destruct P3 as (z & V & P3). apply done_inj in P3. apply get_int_given in V. destruct V as (v & V & A).
      exists (set_trials (to_size z)). split; [now symmetry|]. intro p. right. exists v, z. auto.
    - apply done_inj in P3. subst ps'. exists (fun p => p). split; [unfold apply_to; rewrite <- (map_id ps2) at 1; apply map_ext; intro a; now destruct (in_scope scope a)|].
      intro p. left. split; [now apply has_false | reflexivity]. }
  destruct F1 as (f1 & E1 & F1), F2 as (f2 & E2 & F2), F3 as (f3 & E3 & F3).
  assert (K1 : forall p, tr_key (f1 p) = tr_key p) by (intro p; destruct (F1 p) as [(_ & ->)|(v & m & _ & _ & ->)]; reflexivity).
  assert (K2 : forall p, tr_key (f2 p) = tr_key p) by (intro p; destruct (F2 p) as [(_ & ->)|(v & _ & ->)]; reflexivity).
  exists (fun p => f3 (f2 (f1 p))). split.
  - subst. unfold apply_to. rewrite !map_map. apply map_ext. intro p.
    assert (S1 : in_scope scope (f1 p) = in_scope scope p) by (destruct scope; cbn; [now rewrite K1 | reflexivity]).
    assert (S2 : in_scope scope (f2 (f1 p)) = in_scope scope p) by (destruct scope; cbn; [now rewrite K2, K1 | reflexivity]).
    destruct (in_scope scope p) eqn:E; [rewrite S1, S2; reflexivity | now rewrite E, E].
  - intro p. unfold updates.
    destruct (F1 p) as [(A1 & ->)|(v1 & m & A1 & R1 & ->)]; [set (q := p)|set (q := set_schedule m p)];
    (assert (M : tr_schedule q = tr_schedule p /\ tr_mode q = tr_mode p \/
       exists v, given s (kw "selection_mode" scope) v /\ readSchedule v = Done (tr_schedule q) /\ mget Z.eqb 0%Z (tr_schedule q) = Some (tr_mode q));
     [first [left; split; reflexivity | right; exists v1; split; [exact A1|]; split; [exact R1|];
       destruct (schedule_first _ _ R1) as (m0 & G0); unfold q; cbn [set_schedule tr_schedule tr_mode]; rewrite G0; reflexivity]|]);
    clear M;
    (destruct (F2 q) as [(A2 & ->)|(v2 & A2 & ->)]; [set (q2 := q) | set (q2 := set_threshold (atof v2) q)]);
    (destruct (F3 q2) as [(A3 & ->)|(v3 & z & A3 & R3 & ->)]);
    (split; [first [left; split; [exact A1 | split; reflexivity] |
       right; exists v1; split; [exact A1|]; split; [exact R1|]; destruct (schedule_first _ _ R1) as (m0 & G0); cbn; rewrite G0; reflexivity]|]);
    (split; [first [left; split; [exact A2 | reflexivity] | right; exists v2; split; [exact A2 | reflexivity]]|]);
    (split; [first [left; split; [exact A3 | reflexivity] | right; exists v3, z; split; [exact A3|]; split; [exact R3 | reflexivity]]|]);
    repeat split.
Qed.

Lemma setup_keys s scope ps ps' : setupSelectionMode s scope ps = Done ps' -> map tr_key ps' = map tr_key ps.
Proof.
  intro H. destruct (setup_one _ _ _ _ H) as (f & -> & F). unfold apply_to. rewrite map_map. apply map_ext. intro p.
  destruct (in_scope scope p); [|reflexivity]. apply (F p).
Qed.
Lemma setup_own s ks : NoDup ks -> forall ps ps', foldo (fun k ps => setupSelectionMode s (Some k) ps) ks ps = Done ps' ->
  Forall2 (fun p p' => (In (tr_key p) ks -> updates s (Some (tr_key p)) p p') /\ (~ In (tr_key p) ks -> p' = p)) ps ps'.
Proof.
  induction ks as [|k ks IH]; intros N ps ps' H; cbn [foldo] in H.
  - apply done_inj in H. subst ps'. induction ps; constructor; auto. split; [intros [] | reflexivity].
  - inversion N as [|? ? N1 N2]; subst. apply bindo_done in H. destruct H as (ps1 & P1 & H). specialize (IH N2 _ _ H).
    destruct (setup_one _ _ _ _ P1) as (f & -> & F). clear P1 H. revert ps' IH. induction ps as [|p ps IHp]; intros ps' IH; cbn in IH.
    + inversion IH. constructor.
    + inversion IH as [|? p' ? ps1 Q1 Q2]; subst. constructor; [|now apply IHp]. clear IHp IH Q2.
      destruct (property_eqb k (tr_key p)) eqn:E.
      * apply property_eqb_eq in E. assert (Kf : tr_key (f p) = tr_key p) by apply (F p). rewrite Kf, <- E in Q1. destruct Q1 as (_ & Q1). specialize (Q1 N1). subst p'.
        split; [intros _; rewrite <- E; apply F | intro X; exfalso; apply X; left; exact E].
      * destruct Q1 as (Q1 & Q2). split; [intros [X|X]; [exfalso; apply property_eqb_eq in X; congruence | now apply Q1] | intro X; apply Q2; intro Y; apply X; now right].
Qed.

Definition selected_as (s : settings) (p : tprop) : Prop :=
  (exists v, effective s "selection_mode" (tr_key p) v /\
    match v with
    | Some v => readSchedule v = Done (tr_schedule p) /\ mget Z.eqb 0%Z (tr_schedule p) = Some (tr_mode p)
    | None => tr_schedule p = [] /\ tr_mode p = SM_RANDOM
    end) /\
  wanted_threshold s (tr_key p) (tr_threshold p) /\ wanted_trials s (tr_key p) (tr_trials p).
Lemma trials_size v z : atoi v = Done z -> ((0 <= z)%Z -> to_size z = z) /\ ((z < 0)%Z -> to_size z = (z + 2 ^ 64)%Z).
Proof. intro A. apply atoi_bound in A. split; intro H; [apply to_size_id; lia | apply to_size_neg; lia]. Qed.
Lemma kw_none base : kw base None = lit base.
Proof. apply app_nil_r. Qed.
Lemma two_steps s p0 p1 p2 : tr_schedule p0 = [] -> tr_mode p0 = SM_RANDOM -> tr_threshold p0 = 0%R -> tr_trials p0 = 0%Z ->
  updates s None p0 p1 -> updates s (Some (tr_key p1)) p1 p2 -> selected_as s p2.
Proof.
  intros S0 M0 T0 R0 (U1 & U2 & U3 & U4) (V1 & V2 & V3 & V4). assert (K2 : tr_key p2 = tr_key p1) by apply V4. rewrite !kw_none in *.
  assert (O : forall base, kw base (Some (tr_key p1)) = own base (tr_key p1)) by (intro base; unfold kw, own; destruct (tr_key p1); reflexivity).
  rewrite !O in *. unfold selected_as. rewrite K2. split; [|split].
  - destruct V1 as [(A & E & M)|(v & G & R & M)].
    + rewrite E, M. destruct U1 as [(A1 & E1 & M1)|(v & G & R & M1)].
      * exists None. split; [split; [exact A | exact A1]|]. rewrite E1, M1. auto.
      * exists (Some v). split; [right; split; [exact A | exact G] | split; [exact R | exact M1]].
    + exists (Some v). split; [left; exact G | auto].
  - unfold wanted_threshold. destruct V2 as [(A & E)|(v & G & E)]; rewrite E.
    + destruct U2 as [(A1 & E1)|(v & G & E1)].
      * exists None. split; [split; [exact A | exact A1] | now rewrite E1].
      * exists (Some v). split; [right; split; [exact A | exact G] | exact E1].
    + exists (Some v). split; [left; exact G | reflexivity].
  - unfold wanted_trials. destruct V3 as [(A & E)|(v & z & G & Z & E)]; rewrite E.
    + destruct U3 as [(A1 & E1)|(v & z & G & Z & E1)].
      * exists None. split; [split; [exact A | exact A1] | now rewrite E1].
      * exists (Some v). split; [right; split; [exact A | exact G]|]. exists z. rewrite E1. split; [exact Z | eapply trials_size; eauto].
    + exists (Some v). split; [left; exact G|]. exists z. split; [exact Z | eapply trials_size; eauto].
Qed.

Definition fresh (p : tprop) : Prop := tr_schedule p = [] /\ tr_mode p = SM_RANDOM /\ tr_threshold p = 0%R /\ tr_trials p = 0%Z.
Definition keeps (p p' : tprop) : Prop :=
  tr_key p' = tr_key p /\ tr_metric p' = tr_metric p /\ tr_every p' = tr_every p /\ tr_always p' = tr_always p.
Lemma selection_setup s ps ps' : NoDup (map tr_key ps) -> Forall fresh ps -> setupSelectionModes s ps = Done ps' ->
  Forall2 (fun p p' => keeps p p' /\ selected_as s p') ps ps'.
Proof.
  intros N F H. unfold setupSelectionModes in H. apply bindo_done in H. destruct H as (ps1 & P1 & H).
  pose proof (setup_keys _ _ _ _ P1) as K. rewrite <- K in N. pose proof (setup_own _ _ N _ _ H) as G.
  destruct (setup_one _ _ _ _ P1) as (f & E1 & Ff). clear H P1 N. assert (I : Forall (fun p => In (tr_key p) (map tr_key ps1)) ps1).
  { apply Forall_forall. intros p Hp. now apply in_map. }
  revert G I. generalize (map tr_key ps1) as ks. clear K. subst ps1. intros ks G. unfold apply_to in *. cbn [in_scope] in *. revert ps' G.
  induction ps as [|p ps IH]; intros ps' G I; cbn in *.
  - inversion G. constructor.
  - inversion G as [|? p' ? q G1 G2]; subst. inversion I as [|? ? I1 I2]; subst. inversion F as [|? ? F1 F2]; subst.
    constructor; [|now apply IH]. destruct G1 as (G1 & _). specialize (G1 I1). destruct F1 as (A & B & C & D).
    split; [|now apply (two_steps s p (f p))]. destruct G1 as (_ & _ & _ & (Q1 & Q2 & Q3 & Q4 & _)). destruct (Ff p) as (_ & _ & _ & (R1 & R2 & R3 & R4 & _)).
    unfold keeps. rewrite Q1, Q2, Q3, Q4, R1, R2, R3, R4. auto.
Qed.
