(** Angular symmetry function groups: compact types. *)
From Coq Require Import Reals ZArith Lra Lia Bool Arith Permutation.
From Coquelicot Require Import Coquelicot.
From Coq Require Import List.
From Verif Require Import Base.RealBase Base.Vec3 Base.SumR Base.Loop Model.CoreFunction Model.CutoffFunction
  Model.CompactScreening Model.Strings Model.Scaling Model.NeighborList Model.SymFunctions Model.SymSetup Model.SymGroups
  Spec.CompactSpec Spec.SymSpec Spec.GroupSpec Proofs.CompactProofs Proofs.SymEval Proofs.SymTerms Proofs.SymKinds Proofs.SymKindsAng Proofs.SymGrad
  Proofs.SymAll Proofs.GroupEval Proofs.GroupRad Proofs.GroupAng.
Import ListNotations.
Local Open Scope R_scope.

(** A compact function vanishing inside its support has zero slope there. *)
Lemma compact_zero_slope c l r x : compact_setup c l r -> l < x < r -> fst (cp_fdf c x) = 0 -> snd (cp_fdf c x) = 0.
Proof.
  intros Hs Hx H. destruct Hs as (k & asym & Hc). assert (Hs : compact_setup c l r) by (exists k, asym; auto).
  assert (D := compact_curve c l r (fun t => x + t) 1 Hs).
  assert (D1 : is_derive (fun t => x + t) 0 1) by (auto_derive; auto; ring).
  specialize (D D1). rewrite Rplus_0_r, Rmult_1_r in D.
  apply is_derive_zero_at_min in D.
  - unfold on_support in D. destruct (Rlt_dec l x); [|lra]. destruct (Rlt_dec x r); [exact D|lra].
  - intros t. unfold on_support. destruct (Rlt_dec l (x + t)); [|lra]. destruct (Rlt_dec (x + t) r); [|lra].
    apply (compact_range k asym l r c Hc). lra.
  - rewrite Rplus_0_r. unfold on_support. destruct (Rlt_dec l x); [|lra]. destruct (Rlt_dec x r); [|lra].
    rewrite <- H. symmetry. apply (compact_fdf_fst k asym l r c Hc). lra.
Qed.

Definition ca_kind (narrow weighted : bool) : ca_par -> kind :=
  match narrow, weighted with
  | true, false => CompAngn | false, false => CompAngw
  | true, true => CompAngnWeighted | false, true => CompAngwWeighted
  end.
Definition ca_body (Z : nat -> R) (narrow weighted : bool) (factor : R) (p : ca_par) : ang_body :=
  match narrow, weighted with
  | true, false => compAngn_body factor p | false, false => compAngw_body factor p
  | true, true => compAngnW_body Z factor p | false, true => compAngwW_body Z factor p
  end.

Section Compact.
Variables (Z : nat -> R) (asg : assignment) (a : atom) (deriv : bool).
Hypothesis Hcons : consistent asg.
Hypothesis Hgl : good_list a.
Let nbs := a_nbs a.

Section Pair.
Variables (factor : R) (p : ca_par) (nj nk : neighbor).
Hypothesis Hc : compact_setup (ca_c p) (ca_rl p) (ca_rc p).
Hypothesis Ha : compact_setup (ca_a p) (ca_left p) (ca_right p).
Let x := nb_dr nj.
Let y := nb_dr nk.
Hypothesis Hj : wf_nb nj.
Hypothesis Hk : wf_nb nk.
Hypothesis Hx : x <> vzero.
Hypothesis Hy : y <> vzero.
Hypothesis Hoff : off_boundary p x y.
Hypothesis Hb : -1 < cos_angle x y < 1.
Let rjk := sqrt (norm2 (vsub (nb_dr nk) (nb_dr nj))).
Let cost := cos_angle x y.
Let ac := acos cost.
Let rinv := 1 / (nb_d nj * nb_d nk).

Lemma group_cos : dot x y * rinv = cost.
Proof.
  assert (P := norm_pos x Hx). assert (Q := norm_pos y Hy). unfold rinv, cost, cos_angle. rewrite Hj, Hk. fold x y. field. lra.
Qed.

(** The individual function's contribution for the pair, given the radial and
    angular values. *)
Definition comp_formula (narrow weighted : bool) (fij fik fjk fang : R * R) : R * (R * R * R) :=
  let z := weight Z weighted nj nk in
  let r := fst fij * fst fik * fst fjk in
  let ang := z * fst fang in
  let dang := snd fang * (- (1) / sqrt (1 - cost * cost)) * z in
  let rinvij := rinv * nb_d nk in
  let rinvik := rinv * nb_d nj in
  let phiijik := rinvij * (rinvik - rinvij * cost) * dang in
  let phiikij := rinvik * (rinvij - rinvik * cost) * dang in
  let psiijik := rinv * dang in
  let chiij := rinvij * snd fij * fst fik * fst fjk in
  let chiik := rinvik * fst fij * snd fik * fst fjk in
  let chijk := if narrow then - (1 / rjk) * fst fij * fst fik * snd fjk else 0 in
  (r * ang, ((r * phiijik + ang * chiij) * factor, (r * phiikij + ang * chiik) * factor,
             (r * psiijik + ang * chijk) * factor)).
Lemma ca_pair_eq narrow weighted fij fik : ltR ac (ca_left p) = false -> ltR (ca_right p) ac = false ->
  ab_pair (ca_body Z narrow weighted factor p) nj nk fij fik =
  Some (comp_formula narrow weighted fij fik (if narrow then cp_fdf (ca_c p) rjk else (1, 0)) (cp_fdf (ca_a p) ac)).
Proof.
  intros W1 W2. assert (CC := code_cos nj nk Hj Hk Hx Hy). fold x y cost in CC.
  assert (NC : (leR cost (-1) || leR 1 cost)%bool = false) by (apply orb_false_iff; rewrite !leR_false; unfold cost; lra).
  assert (RI : 1 / nb_d nj / nb_d nk = rinv).
  { unfold rinv. assert (P := norm_pos x Hx). assert (Q := norm_pos y Hy). unfold wf_nb in *. rewrite Hj, Hk. fold x y. field. lra. }
  destruct narrow, weighted; cbn [ca_body ab_pair compAngn_body compAngw_body compAngnW_body compAngwW_body];
    unfold compn_pair, compw_pair; fold rjk; fold x y; rewrite ?CC, NC; fold ac; rewrite W1, W2; cbn [orb];
    rewrite (surjective_pairing fij), (surjective_pairing fik);
    try rewrite (surjective_pairing (cp_fdf (ca_c p) rjk)); rewrite (surjective_pairing (cp_fdf (ca_a p) ac));
    unfold comp_formula; cbn [fst snd]; rewrite RI; unfold weight; apply some4; ring.
Qed.
Lemma ca_pair_none narrow weighted fij fik : (ltR ac (ca_left p) || ltR (ca_right p) ac)%bool = true ->
  ab_pair (ca_body Z narrow weighted factor p) nj nk fij fik = None.
Proof.
  intros W. assert (CC := code_cos nj nk Hj Hk Hx Hy). fold x y cost in CC.
  assert (NC : (leR cost (-1) || leR 1 cost)%bool = false) by (apply orb_false_iff; rewrite !leR_false; unfold cost; lra).
  destruct narrow, weighted; cbn [ca_body ab_pair compAngn_body compAngw_body compAngnW_body compAngwW_body];
    unfold compn_pair, compw_pair; fold rjk; fold x y; rewrite ?CC, NC; fold ac; rewrite W;
    rewrite (surjective_pairing fij), (surjective_pairing fik);
    try rewrite (surjective_pairing (cp_fdf (ca_c p) rjk)); reflexivity.
Qed.
End Pair.

Section CompAng.
Variables (narrow weighted : bool) (rmin rmax : R) (e1 e2 : nat) (ms : list (member ca_par)).
Hypothesis Hready : forall m, In m ms -> gready asg a (of_member (ca_kind narrow weighted) m).
Hypothesis Hsc : forall m, In m ms -> scaled_member m.
Hypothesis Hcom : forall m, In m ms -> ca_rc (m_p m) <= rmax /\ 0 < ca_rc (m_p m) /\
  (weighted = false -> ca_e1 (m_p m) = e1 /\ ca_e2 (m_p m) = e2).
Hypothesis Hmin : rmin = 0.
Hypothesis Hcalc : calc_ok (if narrow then comp_changed else fun _ _ => true) ms.
Hypothesis Hcore : narrow = true -> forall m m', In m ms -> In m' ms ->
  ca_rc (m_p m) = ca_rc (m_p m') -> ca_rl (m_p m) = ca_rl (m_p m') ->
  forall r, cp_fdf (ca_c (m_p m)) r = cp_fdf (ca_c (m_p m')) r.

Let body (m : member ca_par) := ca_body Z narrow weighted (factor_of m) (m_p m).
Let elj nj := (weighted || one_of e1 e2 (nb_element nj))%bool.
Let elk nj nk := (weighted || pairs_match e1 e2 (nb_element nj) (nb_element nk))%bool.

Lemma cbody_guardj m nj : In m ms -> ab_guardj (body m) nj = (elj nj && in_shell (m_p m) (nb_d nj))%bool.
Proof.
  intros Hm. destruct (Hcom m Hm) as (C1 & _ & C3). unfold body, elj, ca_body.
  destruct narrow, weighted; cbn; auto; destruct (C3 eq_refl) as [-> ->]; auto.
Qed.
Lemma cbody_guardk m nj nk : In m ms ->
  ab_guardk (body m) nj nk = (elk nj nk && in_shell (m_p m) (nb_d nk) && (negb narrow || jk_inside (m_p m) nj nk))%bool.
Proof.
  intros Hm. destruct (Hcom m Hm) as (C1 & _ & C3). unfold body, elk, ca_body.
  destruct narrow, weighted; cbn; auto; try destruct (C3 eq_refl) as [-> ->]; rewrite ?andb_true_r; auto.
Qed.
Lemma cbody_fdf m : ab_fdf (body m) = cp_fdf (ca_c (m_p m)).
Proof. unfold body, ca_body. destruct narrow, weighted; reflexivity. Qed.

Lemma cmember_depends m e : In m ms -> (weighted = true \/ e = e1 \/ e = e2) -> depends (ca_kind narrow weighted (m_p m)) e = true.
Proof.
  intros Hm H. destruct (Hcom m Hm) as (_ & _ & C3). destruct narrow, weighted; cbn in *; auto;
    destruct (C3 eq_refl) as [-> ->]; destruct H as [?|[->| ->]]; try discriminate; rewrite Nat.eqb_refl; auto using orb_true_r.
Qed.
Lemma elj_depends m nj : In m ms -> elj nj = true -> depends (ca_kind narrow weighted (m_p m)) (nb_element nj) = true.
Proof.
  intros Hm G. unfold elj in G. apply orb_true_iff in G. apply cmember_depends; auto.
  destruct G as [G|G]; auto. right. apply one_of_or; auto.
Qed.
Lemma elk_depends m nj nk : In m ms -> elk nj nk = true -> depends (ca_kind narrow weighted (m_p m)) (nb_element nk) = true.
Proof.
  intros Hm G. unfold elk in G. apply orb_true_iff in G. apply cmember_depends; auto.
  destruct G as [G|G]; auto. right. apply (pairs_or e1 e2 _ _ G).
Qed.
Lemma cuse_slot m e : In m ms -> depends (ca_kind narrow weighted (m_p m)) e = true -> sf_ci (m_c m) e <> [] ->
  exists c0 c1 r, sf_ci (m_c m) e = c0 :: c1 :: r /\ asg e c0 c1 (cp_fdf (ca_c (m_p m))).
Proof.
  intros Hm Hd Hn. destruct (Hready m Hm) as ((S1 & _) & _).
  destruct (S1 e Hd) as [X|(c0 & c1 & r & X1 & X2)]; [contradiction|]. exists c0, c1, r. split; auto.
  cbn [of_member sf_kind] in X2. destruct narrow, weighted; auto.
Qed.
Lemma member_facts m : In m ms -> compact_setup (ca_c (m_p m)) (ca_rl (m_p m)) (ca_rc (m_p m)) /\
  compact_setup (ca_a (m_p m)) (ca_left (m_p m)) (ca_right (m_p m)) /\
  (forall n, In n (env_of nbs) -> snd n <> vzero) /\
  on_pairs (fun x y => off_boundary (m_p m) x y /\ -1 < cos_angle x y < 1) (env_of nbs) /\
  (narrow = true -> on_pairs (fun x y => x <> y) (env_of nbs)).
Proof.
  intros Hm. destruct (Hready m Hm) as (_ & A & (E1 & E2)). cbn [of_member sf_kind] in *. fold nbs in E1, E2.
  destruct narrow, weighted; cbn [ca_kind admissible] in *; destruct A as (A1 & A2); (split; [exact A1|split; [exact A2|split; [exact E1|]]]);
    (split; [|first [discriminate|intros _]]); intros j k n n' Hjk Hn Hn'; specialize (E2 j k n n' Hjk Hn Hn'); cbv beta in E2; cbv beta; tauto.
Qed.

(** The radial values of neighbor j. *)
Definition rad_ok (nj : neighbor) (rad : nat -> R * R) : Prop :=
  forall l m, nth_error ms l = Some m ->
    if in_shell (m_p m) (nb_d nj) then rad l = cp_fdf (ca_c (m_p m)) (nb_d nj) else fst (rad l) = 0.
Lemma radial_eff j nj rad s : nth_error nbs j = Some nj -> elj nj = true -> coherent asg nbs s ->
  exists rad' s', each (compAng_radial j nj) ms (rad, s) = Some (rad', s') /\ coherent asg nbs s' /\
    rad_ok nj rad' /\ dadds s s' (fun _ => vzero).
Proof.
  intros Ej El Hc.
  destruct (each_eff ((nat -> R * R) * store) (fun _ _ => 0) snd (compAng_radial j nj)
    (fun l st => coherent asg nbs (snd st) /\ forall i m, (i < l)%nat -> nth_error ms i = Some m ->
       if in_shell (m_p m) (nb_d nj) then fst st i = cp_fdf (ca_c (m_p m)) (nb_d nj) else fst (fst st i) = 0)
    (fun _ => 0) (fun _ _ => vzero) ms) with (st := (rad, s)) as ([rad' s'] & E & (C & V) & _ & D).
  - intros l m [rad0 s0] Hl (C0 & V0). assert (Hm := nth_error_In _ _ Hl). cbn [fst snd] in *. unfold compAng_radial.
    assert (Sh : (ltR (ca_rl (m_p m)) (nb_d nj) && ltR (nb_d nj) (ca_rc (m_p m)))%bool = in_shell (m_p m) (nb_d nj))
      by (unfold in_shell; apply andb_comm).
    rewrite Sh. destruct (in_shell (m_p m) (nb_d nj)) eqn:Is.
    + destruct (fetch_ok asg nbs Hcons (sf_ci (m_c m) (nb_element nj)) (sf_ci (m_c m) (nb_element nj)) (cp_fdf (ca_c (m_p m))) j nj s0 Ej C0)
        as (s1 & -> & C1 & A1).
      { apply cuse_slot; auto. apply elj_depends; auto. }
      eexists. split; [reflexivity|]. cbn [fst snd]. split; [split; [exact C1|]|split].
      * intros i m' Hi Hm'. destruct (Nat.eq_dec i l) as [->|N].
        -- rewrite Hl in Hm'. injection Hm' as <-. rewrite Is, upd_same. reflexivity.
        -- rewrite upd_other by auto. apply V0; auto. lia.
      * intros i. destruct (i =? l)%nat; ring.
      * rewrite adds_dadds in A1. eapply dadds_ext; [|exact A1]. intros q. apply ev_at_nil.
    + eexists. split; [reflexivity|]. cbn [fst snd]. split; [split; [exact C0|]|split; [|apply dadds_refl]].
      * intros i m' Hi Hm'. destruct (Nat.eq_dec i l) as [->|N].
        -- rewrite Hl in Hm'. injection Hm' as <-. rewrite Is, upd_same. reflexivity.
        -- rewrite upd_other by auto. apply V0; auto. lia.
      * intros i. destruct (i =? l)%nat; ring.
  - cbn. split; auto. intros; lia.
  - exists rad', s'. cbn [fst snd] in C, V, D. split; [exact E|]. split; [exact C|]. split.
    + intros l m Hl. apply V; auto. apply nth_error_Some. congruence.
    + eapply dadds_ext; [|exact D]. intros q. apply vsum_map_zero. auto.
Qed.

Lemma comp_pair_eff j k nj nk rad res s : nth_error nbs j = Some nj -> nth_error nbs k = Some nk -> (j < k)%nat ->
  elj nj = true -> elk nj nk = true -> ms <> [] -> rad_ok nj rad -> coherent asg nbs s ->
  exists q st', each (compAng_member Z deriv narrow weighted j k nj nk (sqrt (norm2 (vsub (nb_dr nk) (nb_dr nj))))
      (1 / (nb_d nj * nb_d nk)) (cos_angle (nb_dr nj) (nb_dr nk)) rad) ms ((false, None), (res, s)) = Some (q, st') /\
    coherent asg nbs (snd st') /\
    (forall i, fst st' i = res i + at_m ms (fun m => aval (body m) nj nk) i) /\
    dadds s (snd st') (fun x => vsum (map (fun m => ev_at x (aev (m_c m) (body m) deriv j k nj nk)) ms)).
Proof.
  intros Ej Ek Hjk Gj Gk Hne Hrad Hc.
  set (rjk := sqrt (norm2 (vsub (nb_dr nk) (nb_dr nj)))). set (rinv := 1 / (nb_d nj * nb_d nk)).
  set (cost := cos_angle (nb_dr nj) (nb_dr nk)). set (z := weight Z weighted nj nk).
  assert (Wj := wf_at a Hgl j nj Ej). assert (Wk := wf_at a Hgl k nk Ek).
  destruct (each_eff (comp_aux * gstate) (fun st => fst (snd st)) (fun st => snd (snd st))
    (compAng_member Z deriv narrow weighted j k nj nk rjk rinv cost rad)
    (fun l st => coherent asg nbs (snd (snd st)) /\
       match l with
       | O => fst (fst st) = false
       | S l' => fst (fst st) = true \/ forall q, nth_error ms l' = Some q ->
           snd (fst st) = Some (if narrow then cp_fdf (ca_c (m_p q)) rjk else (1, 0))
       end)
    (fun m => aval (body m) nj nk) (fun m x => ev_at x (aev (m_c m) (body m) deriv j k nj nk)) ms)
    with (st := ((false, @None (R * R)), (res, s))) as ([q st'] & E & (C & _) & V & D).
  - intros l m [[skip jk] [res0 s0]] Hl (C0 & A0). assert (Hm := nth_error_In _ _ Hl). cbn [fst snd] in *.
    destruct (member_facts m Hm) as (Mc & Ma & Mz & Mp & Mn). destruct (Hcom m Hm) as (K1 & K2 & K3).
    assert (Hx := nonzero_at a j nj Mz Ej). assert (Hy := nonzero_at a k nk Mz Ek).
    destruct (pairs_at a _ j k nj nk Mp Hjk Ej Ek) as (Hoff & Hb).
    assert (PE := ca_pair_eq (factor_of m) (m_p m) nj nk Wj Wk Hx Hy Hb narrow weighted).
    assert (PN := ca_pair_none (factor_of m) (m_p m) nj nk Wj Wk Hx Hy Hb narrow weighted).
    fold rjk cost in PE, PN. fold (body m) in PE, PN.
    assert (JI : narrow = true -> jk_inside (m_p m) nj nk = in_shell (m_p m) rjk).
    { intros T. apply jk_inside_ok; auto. exact (pairs_at a _ j k nj nk (Mn T) Hjk Ej Ek). }
    unfold compAng_member. set (p := m_p m) in *. assert (Rl := Hrad l m Hl). fold p in Rl.
    assert (AP : apair (body m) nj nk = if (in_shell p (nb_d nj) && (in_shell p (nb_d nk) && (negb narrow || in_shell p rjk)))%bool
        then ab_pair (body m) nj nk (cp_fdf (ca_c p) (nb_d nj)) (cp_fdf (ca_c p) (nb_d nk)) else None).
    { unfold apair. rewrite cbody_guardj, cbody_guardk, Gj, Gk, cbody_fdf by auto. cbn [andb]. fold p.
      replace (negb narrow || jk_inside p nj nk)%bool with (negb narrow || in_shell p rjk)%bool; [reflexivity|].
      destruct narrow; auto. cbn [negb orb]. symmetry. auto. }
    destruct (rad l) as [radij dradij] eqn:Erad. cbn [fst] in Rl.
    match goal with |- context [if ?b then _ else _] => destruct b eqn:Sk end.
    + (* skipped *)
      assert (ZERO : aval (body m) nj nk = 0 /\ forall q, ev_at q (aev (m_c m) (body m) deriv j k nj nk) = vzero).
      { unfold aval, aev. rewrite AP.
        destruct (in_shell p (nb_d nj)) eqn:Ij; [|cbn [andb]; auto].
        destruct (in_shell p (nb_d nk)) eqn:Ik; [|cbn [andb]; auto]. cbn [andb].
        destruct (negb narrow || in_shell p rjk)%bool eqn:Ijk; [|auto].
        destruct (ltR (acos cost) (ca_left p) || ltR (ca_right p) (acos cost))%bool eqn:W.
        { rewrite PN by reflexivity. auto. }
        apply orb_false_iff in W. destruct W as (W1 & W2). rewrite PE by auto. unfold comp_formula. cbn [fst snd].
        assert (ALL : radij = 0 \/ cp_fdf (ca_a p) (acos cost) = (0, 0)).
        { apply in_shell_true in Ij, Ik. repeat rewrite orb_true_iff in Sk.
          rewrite !leR_true in Sk. rewrite ltR_false in W1, W2.
          destruct Sk as [[[[[Sk|Sk]|Sk]|Sk]|Sk]|Sk].
          - left. unfold eqR in Sk. destruct (Req_EM_T radij 0); [auto|discriminate].
          - lra.
          - lra.
          - apply andb_true_iff in Sk. destruct Sk as (T & Sk). rewrite T in Ijk. cbn [negb orb] in Ijk.
            apply in_shell_true in Ijk. rewrite orb_true_iff, !leR_true in Sk. lra.
          - right. rewrite (compact_closed _ _ _ _ Ma) by (auto; lra). rewrite !on_support_out by lra. reflexivity.
          - right. rewrite (compact_closed _ _ _ _ Ma) by (auto; lra). rewrite !on_support_out by lra. reflexivity. }
        destruct ALL as [R0|A1].
        - assert (D0 : dradij = 0).
          { apply in_shell_true in Ij. assert (X := compact_zero_slope _ _ _ _ Mc Ij). rewrite <- Rl in X. cbn [fst snd] in X. auto. }
          rewrite <- Rl, R0, D0. cbn [fst snd]. split; [ring|]. intros q. destruct deriv; [|reflexivity].
          match goal with |- ev_at q [(_, vadd (smul ?p1 _) (smul ?p2 _)); (_, vopp (vadd _ (smul ?p3 _))); _] = _ =>
            replace p1 with 0 by (cbv zeta; unfold Rdiv; ring); replace p2 with 0 by (cbv zeta; unfold Rdiv; ring);
            replace p3 with 0 by (cbv zeta; destruct narrow; unfold Rdiv; ring) end.
          apply pair_events_zero.
        - rewrite A1. cbn [fst snd]. split; [ring|]. intros q. destruct deriv; [|reflexivity].
          match goal with |- ev_at q [(_, vadd (smul ?p1 _) (smul ?p2 _)); (_, vopp (vadd _ (smul ?p3 _))); _] = _ =>
            replace p1 with 0 by (cbv zeta; unfold Rdiv; ring); replace p2 with 0 by (cbv zeta; unfold Rdiv; ring);
            replace p3 with 0 by (cbv zeta; destruct narrow; unfold Rdiv; ring) end.
          apply pair_events_zero. }
      destruct ZERO as (Z1 & Z2).
      eexists. split; [reflexivity|]. cbn [fst snd]. split; [split; [exact C0|left; auto]|]. split.
      * intros i. rewrite Z1. destruct (i =? l)%nat; ring.
      * eapply dadds_ext; [|apply dadds_refl]. intros q. symmetry. apply Z2.
    + (* evaluated *)
      repeat rewrite orb_false_iff in Sk. rewrite !leR_false in Sk.
      destruct Sk as (((((Sk1 & Sk2) & Sk3) & Sk4) & Sk5) & Sk6).
      unfold eqR in Sk1. destruct (Req_EM_T radij 0) as [|R0]; [discriminate|]. clear Sk1.
      destruct (in_shell p (nb_d nj)) eqn:Ij; [|contradiction].
      assert (Ik : in_shell p (nb_d nk) = true) by (apply in_shell_true; lra).
      assert (Ijk : (negb narrow || in_shell p rjk)%bool = true).
      { destruct narrow; auto. cbn [negb orb andb] in *. rewrite orb_false_iff, !leR_false in Sk4. apply in_shell_true. lra. }
      rewrite Ik, Ijk in AP. cbn [andb] in AP. rewrite PE in AP by (apply ltR_false; lra).
      destruct (fetch_ok asg nbs Hcons (sf_ci (m_c m) (nb_element nk)) (sf_ci (m_c m) (nb_element nk)) (cp_fdf (ca_c p)) k nk s0 Ek C0)
        as (s1 & -> & C1 & A1).
      { apply cuse_slot; auto. eapply elk_depends; eauto. }
      set (fjk := if narrow then cp_fdf (ca_c p) rjk else (1, 0)) in *.
      assert (JK : (if (m_calc m || skip)%bool then (false, if narrow then Some (cp_fdf (ca_c p) rjk) else Some (1, 0)) else (skip, jk)) =
                   (false, Some fjk)).
      { destruct (m_calc m || skip)%bool eqn:Cs.
        - unfold fjk. destruct narrow; reflexivity.
        - apply orb_false_iff in Cs. destruct Cs as (Cm & ->). assert (KC := Hcalc l m Hl). rewrite Cm in KC.
          destruct l as [|l']; [discriminate|]. destruct (nth_error ms l') as [q|] eqn:Eq; [|discriminate].
          destruct A0 as [A0|A0]; [discriminate|]. rewrite (A0 q eq_refl). f_equal. f_equal. unfold fjk.
          destruct narrow; auto. symmetry in KC. unfold comp_changed in KC. apply orb_false_iff in KC.
          destruct KC as (KC1 & KC2). apply negb_false_iff in KC1, KC2. unfold eqR in *.
          destruct (Req_EM_T (ca_rc (m_p q)) (ca_rc (m_p m))); [|discriminate].
          destruct (Req_EM_T (ca_rl (m_p q)) (ca_rl (m_p m))); [|discriminate].
          apply Hcore; auto. eapply nth_error_In; eauto. }
      set (fik := cp_fdf (ca_c p) (nb_d nk)) in *. rewrite (surjective_pairing fik). cbv zeta. rewrite JK.
      rewrite (surjective_pairing fjk). rewrite <- Rl in AP.
      set (fang := cp_fdf (ca_a p) (acos cost)) in *. rewrite (surjective_pairing fang).
      unfold comp_formula in AP. cbn [fst snd] in AP.
      fold rinv rjk cost z in AP. fold z.
      assert (RES : forall i, upd res0 l (res0 l + radij * fst fik * fst fjk * (z * fst fang)) i =
         res0 i + (if Nat.eqb i l then aval (body m) nj nk else 0)).
      { intros i. unfold aval. rewrite AP. destruct (Nat.eqb_spec i l) as [->|N]; [rewrite upd_same|rewrite upd_other by auto]; ring. }
      assert (INV : forall fa : R * R, fa = fjk -> false = true \/ (forall q, nth_error ms l = Some q ->
           Some fa = Some (if narrow then cp_fdf (ca_c (m_p q)) rjk else (1, 0)))).
      { intros fa ->. right. intros q Eq. rewrite Hl in Eq. injection Eq as <-. reflexivity. }
      assert (SJ : (fst fjk, snd fjk) = fjk) by (symmetry; apply surjective_pairing).
      rewrite adds_dadds in A1.
      destruct deriv.
      2:{ eexists. split; [reflexivity|]. cbn [fst snd]. split; [split; [exact C1|apply INV; exact SJ]|split; [exact RES|]].
          eapply dadds_ext; [|exact A1]. intros q. unfold aev. rewrite AP. reflexivity. }
      rewrite (Hsc m Hm).
      match type of AP with _ = Some (_, (?p1, ?p2, ?p3)) => set (q1 := p1) in *; set (q2 := p2) in *; set (q3 := p3) in * end.
      assert (EV : aev (m_c m) (body m) true j k nj nk = pair_events (m_c m) j k nj nk q1 q2 q3).
      { unfold aev. rewrite AP. reflexivity. }
      destruct (negb (eqR (snd fang * (- (1) / sqrt (1 - cost * cost))) 0) && negb (eqR (radij * fst fik * fst fjk) 0))%bool eqn:B1.
      * eexists. split; [reflexivity|]. cbn [fst snd]. split; [split; [exact C1|apply INV; exact SJ]|split; [exact RES|]].
        match goal with |- dadds _ (put_pair _ _ _ _ _ ?a1 ?a2 ?a3 _) _ =>
          replace a1 with q1 by (unfold q1; ring); replace a2 with q2 by (unfold q2; ring);
          replace a3 with q3 by (unfold q3; destruct narrow; ring) end.
        eapply dadds_ext; [|eapply dadds_trans; [exact A1|apply put_pair_adds]]. intros q. cbv beta.
        rewrite ev_at_nil, vadd_zero_l, EV. reflexivity.
      * assert (B2 : snd fang * (- (1) / sqrt (1 - cost * cost)) = 0 \/ radij * fst fik * fst fjk = 0).
        { apply andb_false_iff in B1. destruct B1 as [B1|B1]; apply negb_false_iff in B1; unfold eqR in B1.
          - left. destruct (Req_EM_T _ 0) as [B|] in B1; [exact B|discriminate].
          - right. destruct (Req_EM_T _ 0) as [B|] in B1; [exact B|discriminate]. }
        set (dg := snd fang * (- (1) / sqrt (1 - cost * cost))) in *.
        set (r := radij * fst fik * fst fjk) in *.
        assert (RD : r * dg = 0) by (destruct B2 as [-> | ->]; ring).
        assert (Q1 : q1 = z * fst fang * factor_of m * (rinv * nb_d nk * dradij * fst fik * fst fjk)).
        { unfold q1. transitivity (r * dg * (rinv * nb_d nk * (rinv * nb_d nj - rinv * nb_d nk * cost) * z * factor_of m)
             + z * fst fang * factor_of m * (rinv * nb_d nk * dradij * fst fik * fst fjk)); [ring|rewrite RD; ring]. }
        assert (Q2 : q2 = z * fst fang * factor_of m * (rinv * nb_d nj * radij * snd fik * fst fjk)).
        { unfold q2. transitivity (r * dg * (rinv * nb_d nj * (rinv * nb_d nk - rinv * nb_d nj * cost) * z * factor_of m)
             + z * fst fang * factor_of m * (rinv * nb_d nj * radij * snd fik * fst fjk)); [ring|rewrite RD; ring]. }
        assert (Q3 : q3 = z * fst fang * factor_of m * (if narrow then - (1 / rjk) * radij * fst fik * snd fjk else 0)).
        { unfold q3. set (ch := if narrow then _ else 0). transitivity (r * dg * (rinv * z * factor_of m)
             + z * fst fang * factor_of m * ch); [ring|rewrite RD; ring]. }
        destruct (eqR (z * fst fang) 0) eqn:B3; cbn [negb].
        -- eexists. split; [reflexivity|]. cbn [fst snd]. split; [split; [exact C1|apply INV; exact SJ]|split; [exact RES|]].
           unfold eqR in B3. destruct (Req_EM_T (z * fst fang) 0) as [B|]; [|discriminate].
           rewrite B in Q1, Q2, Q3. eapply dadds_ext; [|exact A1]. intros q. rewrite EV, ev_at_nil.
           replace q1 with 0 by (rewrite Q1; ring). replace q2 with 0 by (rewrite Q2; ring). replace q3 with 0 by (rewrite Q3; ring).
           symmetry. apply pair_events_zero.
        -- eexists. split; [reflexivity|]. cbn [fst snd]. split; [split; [exact C1|apply INV; exact SJ]|split; [exact RES|]].
           rewrite <- Q1, <- Q2, <- Q3.
           eapply dadds_ext; [|eapply dadds_trans; [exact A1|apply put_pair_adds]]. intros q. cbv beta.
           rewrite ev_at_nil, vadd_zero_l, EV. reflexivity.
  - cbn. split; auto.
  - cbn [fst snd] in C, V, D. exists q, st'. split; [exact E|]. split; [exact C|]. split; [exact V|exact D].
Qed.

Lemma zero_row_at_m (V : member ca_par -> R) i : (forall m, In m ms -> V m = 0) -> at_m ms V i = 0.
Proof. intros H. unfold at_m. destruct (nth_error ms i) eqn:E; auto. apply H. eapply nth_error_In; eauto. Qed.

Lemma compAng_group_effect : ms <> [] ->
  group_effect Z asg a (map (of_member (ca_kind narrow weighted)) ms) deriv
    (compAng_group Z a deriv narrow weighted rmin rmax e1 e2 ms).
Proof.
  intros Hne. set (N := a_numN a).
  assert (HN : forall m, In m ms -> N = bound a (ab_stored (body m))).
  { intros m Hm. unfold N, body, ca_body. destruct narrow, weighted; reflexivity. }
  assert (LN : N = length nbs) by apply Hgl.
  assert (H0 : exists m0, In m0 ms) by (destruct ms as [|m0 r]; [contradiction|exists m0; left; auto]).
  assert (Hnz : forall n, In n (env_of nbs) -> snd n <> vzero) by (destruct H0 as (m0 & H0); apply (member_facts m0 H0)).
  unfold compAng_group. fold N.
  apply (group_effect_ext Z asg a (map (of_member (ca_kind narrow weighted)) ms) deriv
    (fun s => let numN := if Nat.eqb N 0 then 1%nat else N in
       match ofold (compAng_outer Z a deriv narrow weighted rmin rmax e1 e2 ms numN) (seq 0 (numN - 1))
              (fun _ => (0, 0), (fun _ => 0, s)) with
       | None => None | Some st => finish (fun _ v => Some v) ms (fst (snd st), snd (snd st)) end)).
  { intros s. cbv zeta. destruct (ofold _ _ _) as [[? [? ?]]|]; auto. }
  apply (angular_effect Z asg a deriv Hgl (ca_kind narrow weighted) body ms Hready)
    with (Inv := fun st => coherent asg nbs (snd (snd st)))
    (res := fun st => fst (snd st)) (sto := fun st : cstate => snd (snd st)) (init := fun s => (fun _ => (0, 0), (fun _ => 0, s)))
    (step := fun N j => compAng_outer Z a deriv narrow weighted rmin rmax e1 e2 ms N j).
  - intros m. unfold body, ca_body, ca_kind. destruct narrow, weighted; reflexivity.
  - exact HN.
  - intros s Hc. auto.
  - auto.
  - intros m v Hm. f_equal. assert (B : ab_norm (body m) = 1) by (unfold body, ca_body; destruct narrow, weighted; reflexivity).
    rewrite B. ring.
  - intros j [rad [res s]] Hj Hc. unfold compAng_outer. fold nbs. destruct (nth_error nbs j) as [nj|] eqn:Ej.
    2:{ apply nth_error_None in Ej. lia. }
    assert (Wj := wf_at a Hgl j nj Ej). assert (Hx := nonzero_at a j nj Hnz Ej).
    assert (Pj : 0 < nb_d nj) by (rewrite Wj; apply norm_pos; auto).
    cbn [fst snd] in *. fold (elj nj).
    destruct (elj nj && ltR (nb_d nj) rmax && ltR rmin (nb_d nj))%bool eqn:G.
    + apply andb_true_iff in G. destruct G as (G & G3). apply andb_true_iff in G. destruct G as (Gj & G2).
      destruct (radial_eff j nj rad s Ej Gj Hc) as (rad' & s1 & -> & C1 & Hrad & A1).
      destruct (loop_eff gstate fst snd (compAng_inner Z a deriv narrow weighted rmin rmax e1 e2 ms j nj rad')
        (fun st => coherent asg nbs (snd st)) (fun k m => at_nb nbs 0 (aval (body m) nj) k)
        (fun k m x => ev_at x (at_nb nbs [] (aev (m_c m) (body m) deriv j k nj) k)) ms (seq (j + 1) (N - (j + 1))))
        with (st := (res, s1)) as (st' & E2 & C2 & V2 & D2).
      * intros k [res0 s0] Hk C0. apply in_seq in Hk. cbn [fst snd] in *. unfold compAng_inner. fold nbs. unfold at_nb.
        destruct (nth_error nbs k) as [nk|] eqn:Ek.
        2:{ apply nth_error_None in Ek. lia. }
        assert (Wk := wf_at a Hgl k nk Ek). assert (Hy := nonzero_at a k nk Hnz Ek).
        assert (Pk : 0 < nb_d nk) by (rewrite Wk; apply norm_pos; auto).
        assert (NONE : (forall m, In m ms -> ab_guardk (body m) nj nk = false) -> exists st',
           Some (res0, s0) = Some st' /\ coherent asg nbs (snd st') /\
           (forall i, fst st' i = res0 i + at_m ms (fun m => aval (body m) nj nk) i) /\
           dadds s0 (snd st') (fun x => vsum (map (fun m => ev_at x (aev (m_c m) (body m) deriv j k nj nk)) ms))).
        { intros GF. exists (res0, s0). split; auto. split; auto. cbn [fst snd]. split.
          - intros i. rewrite zero_row_at_m; [ring|]. intros m Hm. unfold aval, apair. rewrite GF, andb_false_r by auto. auto.
          - eapply dadds_ext; [|apply dadds_refl]. intros x. symmetry. apply vsum_map_zero. intros m Hm.
            unfold aev, apair. rewrite GF, andb_false_r by auto. reflexivity. }
        fold (elk nj nk). destruct (elk nj nk && ltR (nb_d nk) rmax && ltR rmin (nb_d nk))%bool eqn:G.
        2:{ apply NONE. intros m Hm. rewrite cbody_guardk by auto. destruct (elk nj nk); auto. cbn [andb] in *.
            destruct (Hcom m Hm) as (K1 & K2 & _). apply andb_false_iff in G. rewrite !ltR_false in G.
            replace (in_shell (m_p m) (nb_d nk)) with false; auto. symmetry. apply in_shell_false. lra. }
        apply andb_true_iff in G. destruct G as (G & G5). apply andb_true_iff in G. destruct G as (Gk & G4).
        destruct (narrow && (leR (rmax * rmax) (norm2 (vsub (nb_dr nk) (nb_dr nj))) || leR (norm2 (vsub (nb_dr nk) (nb_dr nj))) (rmin * rmin)))%bool eqn:G6.
        { apply NONE. intros m Hm. rewrite cbody_guardk by auto. apply andb_true_iff in G6. destruct G6 as (T & G6).
          rewrite T. cbn [negb orb]. replace (jk_inside (m_p m) nj nk) with false; [apply andb_false_r|]. symmetry.
          unfold jk_inside. apply negb_false_iff. destruct (Hcom m Hm) as (K1 & K2 & _). apply orb_true_iff in G6. rewrite !leR_true in G6.
          apply orb_true_iff. rewrite !leR_true. destruct G6 as [G6|G6].
          - left. eapply Rle_trans; [|exact G6]. apply Rmult_le_compat; lra.
          - right. rewrite Hmin in G6. destruct (Rlt_dec 0 (ca_rl (m_p m))); nra. }
        destruct H0 as (m0 & H0). destruct (member_facts m0 H0) as (_ & _ & _ & Mp & _).
        assert (Hjk : (j < k)%nat) by lia.
        destruct (pairs_at a _ j k nj nk Mp Hjk Ej Ek) as (_ & Hb).
        cbv zeta. rewrite (group_cos nj nk Wj Wk Hx Hy).
        replace (leR (cos_angle (nb_dr nj) (nb_dr nk)) (-1) || leR 1 (cos_angle (nb_dr nj) (nb_dr nk)))%bool with false
          by (symmetry; apply orb_false_iff; rewrite !leR_false; lra).
        destruct (comp_pair_eff j k nj nk rad' res0 s0) as (q & st' & E & C4 & V4 & D4); auto.
        exists st'. split.
        { match type of E with ?x = _ => match goal with |- match ?y with _ => _ end = _ => change y with x end end. now rewrite E. }
        split; [exact C4|]. split; [exact V4|exact D4].
      * exact C1.
      * rewrite E2. exists (rad', st'). split; [reflexivity|]. cbn [fst snd]. split; [exact C2|]. split.
        -- intros i. rewrite V2. unfold at_nb. rewrite Ej. reflexivity.
        -- eapply dadds_ext; [|eapply dadds_trans; [exact A1|exact D2]].
           intros x. etransitivity; [apply vadd_zero_l|].
           apply vsum_ext. intros m Hm. rewrite <- ev_at_flat_map. unfold aevrow, at_nb. rewrite Ej. reflexivity.
    + assert (GF : forall m, In m ms -> ab_guardj (body m) nj = false).
      { intros m Hm. rewrite cbody_guardj by auto. destruct (elj nj); auto. cbn [andb] in *.
        destruct (Hcom m Hm) as (K1 & K2 & _). apply andb_false_iff in G. rewrite !ltR_false in G. apply in_shell_false. lra. }
      exists (rad, (res, s)). split; auto. split; auto. cbn [fst snd]. unfold at_nb. rewrite Ej. split.
      * intros i. rewrite zero_row_at_m; [ring|]. intros m Hm. apply guard_no_row. auto.
      * eapply dadds_ext; [|apply dadds_refl]. intros x. symmetry. apply vsum_map_zero. intros m Hm.
        rewrite (proj2 (guard_no_row a (body m) j nj N (GF m Hm))). reflexivity.
Qed.
End CompAng.
End Compact.
