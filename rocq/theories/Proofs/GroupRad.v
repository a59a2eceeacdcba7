(** Radial symmetry function groups. *)
From Coq Require Import Reals ZArith Lra Lia Bool Arith Permutation.
From Coquelicot Require Import Coquelicot.
From Coq Require Import List.
From Verif Require Import Base.RealBase Base.Vec3 Base.SumR Base.Loop Model.CoreFunction Model.CutoffFunction
  Model.CompactScreening Model.Strings Model.Scaling Model.NeighborList Model.SymFunctions Model.SymSetup Model.SymGroups
  Spec.CompactSpec Spec.SymSpec Spec.GroupSpec Proofs.SymEval Proofs.SymTerms Proofs.SymKinds Proofs.SymKindsAng Proofs.SymGrad
  Proofs.SymAll Proofs.GroupEval.
Import ListNotations.
Local Open Scope R_scope.

(** The vectors of a member are filled. *)
Definition factor_of {P} (m : member P) : R := scalingFactor (sf_scaling (m_c m)).
Definition scaled_member {P} (m : member P) : Prop := m_scale m = Some (factor_of m).

Section Radial.
Variables (Z : nat -> R) (asg : assignment) (a : atom) (deriv : bool).
Hypothesis Hcons : consistent asg.
Hypothesis Hgl : good_list a.
Let nbs := a_nbs a.

(** ** From the sums to the values *)
Section Common.
Context {P : Type}.
Variables (mk : P -> kind) (body : member P -> rad_body) (ms : list (member P)).
Hypothesis Hready : forall m, In m ms -> gready asg a (of_member mk m).
Hypothesis Hbody : forall m, body_of Z (factor_of m) (mk (m_p m)) = RB (body m).

Lemma radial_values m N : In m ms -> N = bound a (rb_stored (body m)) ->
  rsum (map (at_nb nbs 0 (rval (body m))) (seq 0 N)) = sf_value Z (mk (m_p m)) (env_of nbs).
Proof.
  intros Hm ->. destruct (Hready m Hm) as (Hs & Ha & He). cbn [of_member sf_kind] in Ha.
  destruct (kind_cases Z (factor_of m) (mk (m_p m)) Ha)
    as [(b & t & sm & Eb & G & V & _) | (b & t & ev & sm & Eb & G & V & E & _)]; rewrite Hbody in Eb; [|discriminate].
  injection Eb as <-. rewrite V. exact (rad_value a (m_c m) (mk (m_p m)) Hgl (body m) t sm G).
Qed.
Lemma radial_derivatives m N x : N = bound a (rb_stored (body m)) ->
  vsum (map (fun j => ev_at x (at_nb nbs [] (rev_ (m_c m) (body m) deriv j) j)) (seq 0 N)) =
  if deriv then ev_at x (contributions Z (of_member mk m) a) else vzero.
Proof.
  intros ->. rewrite <- ev_at_flat_map. destruct deriv.
  - unfold contributions. cbn [of_member sf_c sf_kind]. fold (factor_of m). rewrite Hbody. reflexivity.
  - rewrite flat_nil; auto. intros j _. unfold at_nb. destruct (nth_error nbs j); auto.
    unfold rev_. now rewrite andb_false_r.
Qed.

Lemma radial_effect (step : nat -> gstate -> option gstate) N :
  (forall m, In m ms -> N = bound a (rb_stored (body m))) ->
  (forall j st, (j < length nbs)%nat -> coherent asg nbs (snd st) -> exists st', step j st = Some st' /\
     coherent asg nbs (snd st') /\
     (forall i, fst st' i = fst st i + at_m ms (fun m => at_nb nbs 0 (rval (body m)) j) i) /\
     dadds (snd st) (snd st')
       (fun x => vsum (map (fun m => ev_at x (at_nb nbs [] (rev_ (m_c m) (body m) deriv j) j)) ms))) ->
  (N <= length nbs)%nat ->
  group_effect Z asg a (map (of_member mk) ms) deriv
    (fun s => match ofold step (seq 0 N) (fun _ => 0, s) with
              | None => None
              | Some st => finish (fun _ v => Some v) ms st
              end).
Proof.
  intros HN Hstep Hlen s Hc.
  destruct (loop_eff gstate fst snd step (fun st => coherent asg nbs (snd st))
    (fun j m => at_nb nbs 0 (rval (body m)) j)
    (fun j m x => ev_at x (at_nb nbs [] (rev_ (m_c m) (body m) deriv j) j)) ms (seq 0 N)) with (st := (fun _ : nat => 0, s))
    as (st & E & I & V & D).
  { intros j st Hj. apply in_seq in Hj. apply Hstep. lia. }
  { exact Hc. }
  rewrite E. destruct st as [res s1]. cbn [fst snd] in *.
  destruct (finish_eff mk (fun _ v => Some v) Z a ms asg nbs res s1) as (s2 & E2 & C2 & G2 & D2); auto.
  { intros i m Hm. f_equal. rewrite V. unfold at_m. rewrite Hm, Rplus_0_l.
    apply radial_values; [eapply nth_error_In; eauto|]. apply HN. eapply nth_error_In; eauto. }
  exists s2. split; auto. split; auto. destruct D as [DG DD]. split.
  - intros i. rewrite G2. unfold put_values. rewrite DG. reflexivity.
  - intros x. rewrite D2, DD. f_equal.
    transitivity (vsum (map (fun m => if deriv then ev_at x (contributions Z (of_member mk m) a) else vzero) ms)).
    + apply vsum_ext. intros m Hm. apply radial_derivatives. auto.
    + destruct deriv; [rewrite map_map; reflexivity|apply vsum_map_zero; auto].
Qed.
End Common.

(** ** Exponential *)
Definition er_kind (w : bool) : er_par -> kind := if w then ExpRadWeighted else ExpRad.
Definition er_body (w : bool) (m : member er_par) : rad_body :=
  if w then expRadW_body Z (factor_of m) (m_p m) else expRad_body (factor_of m) (m_p m).

Section ExpRad.
Variables (w : bool) (fc : cutoff_function) (rc : R) (e1 : nat) (ms : list (member er_par)).
Hypothesis Hready : forall m, In m ms -> gready asg a (of_member (er_kind w) m).
Hypothesis Hsc : forall m, In m ms -> scaled_member m.
Hypothesis Hcom : forall m, In m ms -> er_fc (m_p m) = fc /\ er_rc (m_p m) = rc /\ (w = false -> er_e1 (m_p m) = e1).

Lemma expRad_group_effect : ms <> [] ->
  group_effect Z asg a (map (of_member (er_kind w)) ms) deriv (expRad_group Z a deriv w fc rc e1 ms).
Proof.
  intros Hne. destruct ms as [|m0 ms'] eqn:Ems; [contradiction|]. rewrite <- Ems in *.
  set (N := bound a (if w then None else Some rc)).
  assert (Sl : forall m, In m ms -> forall n, (w || Nat.eqb e1 (nb_element n) = true)%bool ->
     sf_ci (m_c m) (nb_element n) <> [] ->
     exists c0 c1 r, sf_ci (m_c m) (nb_element n) = c0 :: c1 :: r /\ asg (nb_element n) c0 c1 (cf_fdf fc)).
  { intros m Hm n He Hn. destruct (Hready m Hm) as ((S1 & _) & _). destruct (Hcom m Hm) as (C1 & C2 & C3).
    destruct (S1 (nb_element n)) as [X|X].
    - unfold er_kind. destruct w; cbn [of_member sf_kind depends]; auto. rewrite C3 by auto.
      apply Nat.eqb_eq in He. rewrite He. apply Nat.eqb_refl.
    - contradiction.
    - destruct X as (c0 & c1 & r & X1 & X2). exists c0, c1, r. split; auto.
      unfold er_kind in X2. destruct w; cbn in X2; rewrite C1 in X2; auto. }
  unfold expRad_group. rewrite Ems. rewrite <- Ems. fold N.
  apply (radial_effect (er_kind w) (er_body w)).
  - auto.
  - intros m. unfold er_kind, er_body. destruct w; reflexivity.
  - intros m Hm. destruct (Hcom m Hm) as (C1 & C2 & C3). unfold N, er_body. destruct w; cbn; rewrite ?C2; reflexivity.
  - intros j [res s] Hj Hc. unfold expRad_step. fold nbs. destruct (nth_error nbs j) as [n|] eqn:En.
    2:{ apply nth_error_None in En. lia. }
    assert (GB : forall m, In m ms -> rb_guard (er_body w m) n = ((w || Nat.eqb e1 (nb_element n)) && ltR (nb_d n) rc)%bool).
    { intros m Hm. destruct (Hcom m Hm) as (C1 & C2 & C3). unfold er_body. destruct w; cbn; rewrite ?C2; auto.
      rewrite C3; auto. }
    destruct ((w || Nat.eqb e1 (nb_element n)) && ltR (nb_d n) rc)%bool eqn:Gd.
    + apply andb_true_iff in Gd. destruct Gd as (G1 & G2).
      destruct (fetch_ok asg nbs Hcons (sf_ci (m_c m0) (nb_element n)) (sf_ci (m_c m0) (nb_element n)) (cf_fdf fc) j n s En Hc)
        as (s1 & -> & C1 & A1).
      { apply Sl; auto. rewrite Ems. left; auto. }
      destruct (each_eff gstate fst snd (expRad_member deriv (if w then Z (nb_element n) else 1) j n (cf_fdf fc (nb_d n)))
        (fun _ st => coherent asg nbs (snd st)) (fun m => at_nb nbs 0 (rval (er_body w m)) j)
        (fun m x => ev_at x (at_nb nbs [] (rev_ (m_c m) (er_body w m) deriv j) j)) ms) with (st := (res, s1))
        as (st' & E2 & C2 & R2 & D2).
      * intros k m [res0 s0] Hk C0. assert (Hm := nth_error_In _ _ Hk). cbn [fst snd] in *.
        unfold expRad_member. assert (F := Hcom m Hm). destruct F as (F1 & F2 & F3).
        destruct (cf_fdf fc (nb_d n)) as [pfc pdfc] eqn:Efd.
        assert (B : rb_guard (er_body w m) n = true) by (apply GB; auto).
        assert (Fd : rb_fdf (er_body w m) = cf_fdf fc).
        { unfold er_body. destruct w; cbn; rewrite F1; auto. }
        assert (RV : at_nb nbs 0 (rval (er_body w m)) j = (if w then Z (nb_element n) else 1) *
             exp (- er_eta (m_p m) * (nb_d n - er_rs (m_p m)) * (nb_d n - er_rs (m_p m))) * pfc).
        { unfold at_nb. rewrite En. unfold rval. rewrite B, Fd, Efd. unfold er_body. destruct w; cbn; ring. }
        assert (RP : rp1 (er_body w m) n = factor_of m * (pdfc - 2 * er_eta (m_p m) * (nb_d n - er_rs (m_p m)) * pfc) *
             ((if w then Z (nb_element n) else 1) *
              exp (- er_eta (m_p m) * (nb_d n - er_rs (m_p m)) * (nb_d n - er_rs (m_p m)))) / nb_d n).
        { unfold rp1. rewrite Fd, Efd. unfold er_body. destruct w; cbn; [reflexivity|]. unfold Rdiv. ring. }
        assert (Ev : at_nb nbs [] (rev_ (m_c m) (er_body w m) deriv j) j = rev_ (m_c m) (er_body w m) deriv j n).
        { unfold at_nb. now rewrite En. }
        assert (Rs : forall i, upd res0 k (res0 k + (if w then Z (nb_element n) else 1) *
             exp (- er_eta (m_p m) * (nb_d n - er_rs (m_p m)) * (nb_d n - er_rs (m_p m))) * pfc) i =
             res0 i + if Nat.eqb i k then at_nb nbs 0 (rval (er_body w m)) j else 0).
        { intros i. destruct (Nat.eqb_spec i k) as [->|Ni]; [rewrite upd_same, RV; auto|rewrite upd_other by auto; ring]. }
        destruct deriv.
        -- rewrite (Hsc m Hm). eexists. split; [reflexivity|]. cbn [fst snd]. split; [exact C0|]. split; [exact Rs|].
           eapply dadds_ext; [|apply put_radial_adds]. intros x. rewrite Ev. unfold rev_. rewrite B. cbn [andb].
           rewrite RP. reflexivity.
        -- eexists. split; [reflexivity|]. cbn [fst snd]. split; [exact C0|]. split; [exact Rs|].
           eapply dadds_ext; [|apply dadds_refl]. intros x. rewrite Ev. unfold rev_. rewrite andb_false_r. reflexivity.
      * exact C1.
      * exists st'. split; [exact E2|]. split; [exact C2|]. split; [exact R2|]. cbn [fst snd] in *.
        eapply dadds_ext; [|eapply dadds_trans; [exact A1|exact D2]]. intros x. cbv beta. rewrite ev_at_nil. apply vadd_zero_l.
    + exists (res, s). split; auto. split; auto. cbn [fst snd]. split.
      * intros i. unfold at_m. destruct (nth_error ms i) as [m|] eqn:Em; [|ring].
        unfold at_nb. rewrite En. unfold rval. rewrite GB by (eapply nth_error_In; eauto). ring.
      * eapply dadds_ext; [|apply dadds_refl]. intros x. symmetry. apply vsum_map_zero. intros m Hm.
        unfold at_nb. rewrite En. unfold rev_. rewrite GB by auto. reflexivity.
  - apply bound_ok; auto.
Qed.
End ExpRad.

(** ** Compact *)
Definition cr_kind (w : bool) : cr_par -> kind := if w then CompRadWeighted else CompRad.
Definition cr_body (w : bool) (m : member cr_par) : rad_body :=
  if w then compRadW_body Z (factor_of m) (m_p m) else compRad_body (factor_of m) (m_p m).

Section CompRad.
Variables (w : bool) (rmin rmax : R) (e1 : nat) (ms : list (member cr_par)).
Hypothesis Hready : forall m, In m ms -> gready asg a (of_member (cr_kind w) m).
Hypothesis Hsc : forall m, In m ms -> scaled_member m.
Hypothesis Hcom : forall m, In m ms -> cr_rc (m_p m) <= rmax /\ (w = false -> cr_e1 (m_p m) = e1).
Hypothesis Hmin : rmin = 0.

Lemma compRad_group_effect :
  group_effect Z asg a (map (of_member (cr_kind w)) ms) deriv (compRad_group Z a deriv w rmin rmax e1 ms).
Proof.
  unfold compRad_group.
  apply (radial_effect (cr_kind w) (cr_body w)).
  - auto.
  - intros m. unfold cr_kind, cr_body. destruct w; reflexivity.
  - intros m Hm. unfold cr_body. destruct w; reflexivity.
  - intros j [res s] Hj Hc. unfold compRad_step. fold nbs. destruct (nth_error nbs j) as [n|] eqn:En.
    2:{ apply nth_error_None in En. lia. }
    assert (GB : forall m, In m ms -> rb_guard (cr_body w m) n =
      ((w || Nat.eqb e1 (nb_element n)) && (ltR (cr_rl (m_p m)) (nb_d n) && ltR (nb_d n) (cr_rc (m_p m))))%bool).
    { intros m Hm. destruct (Hcom m Hm) as (C2 & C3). unfold cr_body. destruct w; cbn; auto.
      rewrite C3 by auto. rewrite andb_assoc. auto. }
    destruct ((w || Nat.eqb e1 (nb_element n)) && ltR (nb_d n) rmax && ltR rmin (nb_d n))%bool eqn:Gd.
    + apply andb_true_iff in Gd. destruct Gd as (Gd & G3). apply andb_true_iff in Gd. destruct Gd as (G1 & G2).
      destruct (each_eff gstate fst snd (compRad_member Z deriv w j n)
        (fun _ st => coherent asg nbs (snd st)) (fun m => at_nb nbs 0 (rval (cr_body w m)) j)
        (fun m x => ev_at x (at_nb nbs [] (rev_ (m_c m) (cr_body w m) deriv j) j)) ms) with (st := (res, s))
        as (st' & E2 & C2 & R2 & D2).
      * intros k m [res0 s0] Hk C0. assert (Hm := nth_error_In _ _ Hk). cbn [fst snd] in *.
        unfold compRad_member. assert (GBm := GB m Hm). rewrite G1 in GBm. cbn [andb] in GBm.
        assert (Ev : at_nb nbs [] (rev_ (m_c m) (cr_body w m) deriv j) j = rev_ (m_c m) (cr_body w m) deriv j n).
        { unfold at_nb. now rewrite En. }
        destruct (leR (nb_d n) (cr_rl (m_p m)) || leR (cr_rc (m_p m)) (nb_d n))%bool eqn:Sh.
        -- assert (B : rb_guard (cr_body w m) n = false).
           { rewrite GBm. apply orb_true_iff in Sh. rewrite !leR_true in Sh. apply andb_false_iff. rewrite !ltR_false. tauto. }
           exists (res0, s0). split; auto. split; auto. split.
           ++ intros i. cbn [fst]. unfold at_nb. rewrite En. unfold rval. rewrite B. destruct (i =? k)%nat; ring.
           ++ eapply dadds_ext; [|apply dadds_refl]. intros x. rewrite Ev. unfold rev_. rewrite B. reflexivity.
        -- assert (B : rb_guard (cr_body w m) n = true).
           { rewrite GBm. apply orb_false_iff in Sh. rewrite !leR_false in Sh. apply andb_true_iff. rewrite !ltR_true. tauto. }
           destruct (Hready m Hm) as ((S1 & _) & _).
           destruct (fetch_ok asg nbs Hcons (sf_ci (m_c m) (nb_element n)) (sf_ci (m_c m) (nb_element n))
              (cp_fdf (cr_c (m_p m))) j n s0 En C0) as (s1 & -> & C1 & A1).
           { intros Hne. destruct (S1 (nb_element n)) as [X|X].
             - unfold cr_kind. destruct (Hcom m Hm) as (_ & C3). destruct w; cbn [of_member sf_kind depends]; auto.
               rewrite C3 by auto. cbn [orb] in G1. apply Nat.eqb_eq in G1. rewrite G1. apply Nat.eqb_refl.
             - contradiction.
             - destruct X as (c0 & c1 & r & X1 & X2). exists c0, c1, r. split; auto.
               unfold cr_kind in X2. destruct w; auto. }
           assert (Fd : rb_fdf (cr_body w m) = cp_fdf (cr_c (m_p m))).
           { unfold cr_body. destruct w; reflexivity. }
           destruct (cp_fdf (cr_c (m_p m)) (nb_d n)) as [rad drad] eqn:Efd.
           assert (RV : at_nb nbs 0 (rval (cr_body w m)) j = (if w then Z (nb_element n) else 1) * rad).
           { unfold at_nb. rewrite En. unfold rval. rewrite B, Fd, Efd. unfold cr_body. destruct w; cbn; ring. }
           assert (RP : rp1 (cr_body w m) n = drad * ((if w then Z (nb_element n) else 1) * factor_of m / nb_d n)).
           { unfold rp1. rewrite Fd, Efd. unfold cr_body. destruct w; cbn; unfold Rdiv; ring. }
           assert (Rs : forall i, upd res0 k (res0 k + (if w then Z (nb_element n) else 1) * rad) i =
             res0 i + if Nat.eqb i k then at_nb nbs 0 (rval (cr_body w m)) j else 0).
           { intros i. destruct (Nat.eqb_spec i k) as [->|Ni]; [rewrite upd_same, RV; auto|rewrite upd_other by auto; ring]. }
           rewrite adds_dadds in A1.
           destruct (negb deriv || eqR drad 0)%bool eqn:Dz.
           ++ eexists. split; [reflexivity|]. cbn [fst snd]. split; [exact C1|]. split; [exact Rs|].
              eapply dadds_ext; [|exact A1]. intros x. rewrite Ev, ev_at_nil. unfold rev_. rewrite B. cbn [andb].
              destruct deriv; [|reflexivity]. cbn [negb orb] in Dz. unfold eqR in Dz.
              destruct (Req_EM_T drad 0) as [Z0|]; [|discriminate]. rewrite RP, Z0. symmetry. apply ev_zero.
              intros y v [Q|[Q|[]]]; injection Q as <- <-; vring.
           ++ rewrite (Hsc m Hm). eexists. split; [reflexivity|]. cbn [fst snd]. split; [exact C1|]. split; [exact Rs|].
              eapply dadds_ext; [|eapply dadds_trans; [exact A1|apply put_radial_adds]]. intros x. cbv beta.
              rewrite Ev, ev_at_nil, vadd_zero_l. unfold rev_. rewrite B.
              destruct deriv; [|discriminate]. cbn [andb]. rewrite RP. reflexivity.
      * exact Hc.
      * exists st'. split; [exact E2|]. split; [exact C2|]. split; [exact R2|exact D2].
    + exists (res, s). split; auto. split; auto. cbn [fst snd].
      assert (B : forall m, In m ms -> rb_guard (cr_body w m) n = false).
      { intros m Hm. rewrite (GB m Hm). destruct (Hcom m Hm) as (C2 & _).
        destruct (w || Nat.eqb e1 (nb_element n))%bool; auto. cbn [andb] in *.
        apply andb_false_iff in Gd. rewrite !ltR_false in Gd. apply andb_false_iff. rewrite !ltR_false.
        destruct Gd as [Gd|Gd]; [lra|].
        assert (P := norm_pos _ (nonzero_at a j n (proj1 (proj2 (proj2 (Hready m Hm)))) En)).
        rewrite <- (wf_at a Hgl j n En) in P. lra. }
      split.
      * intros i. unfold at_m. destruct (nth_error ms i) as [m|] eqn:Em; [|ring].
        unfold at_nb. rewrite En. unfold rval. rewrite B by (eapply nth_error_In; eauto). ring.
      * eapply dadds_ext; [|apply dadds_refl]. intros x. symmetry. apply vsum_map_zero. intros m Hm.
        unfold at_nb. rewrite En. unfold rev_. rewrite B by auto. reflexivity.
  - destruct Hgl as (-> & _). apply le_n.
Qed.
End CompRad.
End Radial.
