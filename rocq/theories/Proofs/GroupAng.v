(** Angular symmetry function groups: general part and exponential types. *)
From Coq Require Import Reals ZArith Lra Lia Bool Arith Permutation.
From Coquelicot Require Import Coquelicot.
From Coq Require Import List.
From Verif Require Import Base.RealBase Base.Vec3 Base.SumR Base.Loop Model.CoreFunction Model.CutoffFunction
  Model.CompactScreening Model.Strings Model.Scaling Model.NeighborList Model.SymFunctions Model.SymSetup Model.SymGroups
  Spec.CompactSpec Spec.SymSpec Spec.GroupSpec Proofs.SymEval Proofs.SymTerms Proofs.SymKinds Proofs.SymKindsAng Proofs.SymGrad
  Proofs.SymAll Proofs.GroupEval Proofs.GroupRad.
Import ListNotations.
Local Open Scope R_scope.

(** The flags calculateExp / calculateComp. *)
Definition calc_ok {P} (changed : P -> P -> bool) (ms : list (member P)) : Prop :=
  forall k m, nth_error ms k = Some m -> m_calc m =
    match k with
    | O => true
    | S k' => match nth_error ms k' with Some q => changed (m_p q) (m_p m) | None => true end
    end.

Section Angular.
Variables (Z : nat -> R) (asg : assignment) (a : atom) (deriv : bool).
Hypothesis Hcons : consistent asg.
Hypothesis Hgl : good_list a.
Let nbs := a_nbs a.

(** ** From the sums to the values *)
Section Common.
Context {P : Type}.
Variables (mk : P -> kind) (body : member P -> ang_body) (ms : list (member P)).
Hypothesis Hready : forall m, In m ms -> gready asg a (of_member mk m).
Hypothesis Hbody : forall m, body_of Z (factor_of m) (mk (m_p m)) = AB (body m).

Lemma angular_values m N : In m ms -> N = bound a (ab_stored (body m)) ->
  rsum (map (fun j => at_nb nbs 0 (arow nbs (body m) N j) j) (seq 0 (N - 1))) * ab_norm (body m) =
  sf_value Z (mk (m_p m)) (env_of nbs).
Proof.
  intros Hm ->. destruct (Hready m Hm) as (Hs & Ha & He). cbn [of_member sf_kind] in Ha, He.
  destruct (kind_cases Z (factor_of m) (mk (m_p m)) Ha)
    as [(b & t & sm & Eb & G & V & _) | (b & t & ev & sm & Eb & G & V & E & _)]; rewrite Hbody in Eb; [discriminate|].
  injection Eb as <-. rewrite V, Rmult_comm. f_equal.
  exact (ang_value a (m_c m) (mk (m_p m)) Hgl (body m) t ev sm G (proj1 He) (E _ He)).
Qed.
Lemma angular_derivatives m N x : N = bound a (ab_stored (body m)) ->
  vsum (map (fun j => ev_at x (at_nb nbs [] (aevrow nbs (m_c m) (body m) deriv N j) j)) (seq 0 (N - 1))) =
  if deriv then ev_at x (contributions Z (of_member mk m) a) else vzero.
Proof.
  intros ->. rewrite <- ev_at_flat_map. destruct deriv.
  - unfold contributions. cbn [of_member sf_c sf_kind]. fold (factor_of m). rewrite Hbody. reflexivity.
  - rewrite flat_nil; auto. intros j _. unfold at_nb. destruct (nth_error nbs j); auto.
    unfold aevrow. apply flat_nil. intros l _. unfold at_nb. destruct (nth_error nbs l); auto.
    unfold aev. destruct (apair (body m) n n0) as [[? [[? ?] ?]]|]; auto.
Qed.

Lemma angular_effect {S : Type} (res : S -> nat -> R) (sto : S -> store) (Inv : S -> Prop)
   (step : nat -> nat -> S -> option S) (init : store -> S) (final : member P -> R -> option R) N :
  (forall m, In m ms -> N = bound a (ab_stored (body m))) ->
  (forall s, coherent asg nbs s -> Inv (init s) /\ (forall i, res (init s) i = 0) /\ sto (init s) = s) ->
  (forall st, Inv st -> coherent asg nbs (sto st)) ->
  (forall m v, In m ms -> final m v = Some (v * ab_norm (body m))) ->
  (forall j st, (j < N - 1)%nat -> Inv st -> exists st', step N j st = Some st' /\ Inv st' /\
     (forall i, res st' i = res st i + at_m ms (fun m => at_nb nbs 0 (arow nbs (body m) N j) j) i) /\
     dadds (sto st) (sto st')
       (fun x => vsum (map (fun m => ev_at x (at_nb nbs [] (aevrow nbs (m_c m) (body m) deriv N j) j)) ms))) ->
  group_effect Z asg a (map (of_member mk) ms) deriv
    (fun s => let numN := if Nat.eqb N 0 then 1%nat else N in
              match ofold (step numN) (seq 0 (numN - 1)) (init s) with
              | None => None
              | Some st => finish final ms (res st, sto st)
              end).
Proof.
  intros HN Hinit Hinv Hfin Hstep s Hc.
  assert (X : exists st, (let numN := if Nat.eqb N 0 then 1%nat else N in
      ofold (step numN) (seq 0 (numN - 1)) (init s)) = Some st /\ Inv st /\
     (forall i, res st i = at_m ms (fun m => rsum (map (fun j => at_nb nbs 0 (arow nbs (body m) N j) j) (seq 0 (N - 1)))) i) /\
     dadds s (sto st) (fun x => vsum (map (fun m => vsum (map (fun j => ev_at x
        (at_nb nbs [] (aevrow nbs (m_c m) (body m) deriv N j) j)) (seq 0 (N - 1)))) ms))).
  { destruct (Hinit s Hc) as (I0 & R0 & S0). cbv zeta. destruct (Nat.eqb_spec N 0) as [->|N0].
    - exists (init s). split; [reflexivity|]. split; auto. split.
      + intros i. rewrite R0. cbn. symmetry. apply at_m_zero.
      + rewrite S0. eapply dadds_ext; [|apply dadds_refl]. intros x. cbn. symmetry. apply vsum_map_zero. auto.
    - destruct (loop_eff S res sto (step N) Inv (fun j m => at_nb nbs 0 (arow nbs (body m) N j) j)
        (fun j m x => ev_at x (at_nb nbs [] (aevrow nbs (m_c m) (body m) deriv N j) j)) ms (seq 0 (N - 1)))
        with (st := init s) as (st & E & I & V & D); auto.
      { intros j st Hj. apply in_seq in Hj. apply Hstep. lia. }
      exists st. split; auto. split; auto. split; [|rewrite <- S0; exact D].
      intros i. rewrite V, R0. ring. }
  destruct X as (st & E & I & V & D). cbv zeta in *. rewrite E.
  destruct (finish_eff mk final Z a ms asg nbs (res st) (sto st)) as (s2 & E2 & C2 & G2 & D2); auto.
  { intros i m Hm. assert (Im := nth_error_In _ _ Hm). rewrite Hfin by auto. f_equal. rewrite V. unfold at_m. rewrite Hm.
    apply angular_values; auto. }
  exists s2. split; auto. split; auto. destruct D as [DG DD]. split.
  - intros i. rewrite G2. unfold put_values. rewrite DG. reflexivity.
  - intros x. rewrite D2, DD. f_equal.
    transitivity (vsum (map (fun m => if deriv then ev_at x (contributions Z (of_member mk m) a) else vzero) ms)).
    + apply vsum_ext. intros m Hm. apply angular_derivatives. auto.
    + destruct deriv; [rewrite map_map; reflexivity|apply vsum_map_zero; auto].
Qed.
End Common.

Lemma no_row b j nj N : (forall nk, apair b nj nk = None) -> arow nbs b N j nj = 0 /\ forall c d, aevrow nbs c b d N j nj = [].
Proof.
  intros H. split.
  - apply rsum_zero. intros k _. unfold at_nb, aval. destruct (nth_error nbs k); auto. rewrite H. auto.
  - intros c d. apply flat_nil. intros k _. unfold at_nb, aev. destruct (nth_error nbs k); auto. rewrite H. auto.
Qed.
Lemma guard_no_row b j nj N : ab_guardj b nj = false -> arow nbs b N j nj = 0 /\ forall c d, aevrow nbs c b d N j nj = [].
Proof. intros H. apply no_row. intros nk. unfold apair. rewrite H. reflexivity. Qed.

(** ** Exponential types *)
Definition ea_kind (t : exp_ang) : ea_par -> kind :=
  match t with Narrow => ExpAngn | Wide => ExpAngw | NarrowWeighted => ExpAngnWeighted end.
Definition ea_body (t : exp_ang) (factor : R) (p : ea_par) : ang_body :=
  match t with
  | Narrow => expAngn_body factor p | Wide => expAngw_body factor p | NarrowWeighted => expAngnW_body Z factor p
  end.

(** The memorised values belong to the parameters. *)
Definition aux_ok (t : exp_ang) (p : ea_par) (rij rik rjk : R) (x : exp_aux) : Prop :=
  x_vexp x = exp (- ea_eta p * (if is_narrow t
     then (rij - ea_rs p) * (rij - ea_rs p) + (rik - ea_rs p) * (rik - ea_rs p) + (rjk - ea_rs p) * (rjk - ea_rs p)
     else (rij - ea_rs p) * (rij - ea_rs p) + (rik - ea_rs p) * (rik - ea_rs p))) /\
  ((is_weighted t || ltR 0 (ea_rs p) = true)%bool ->
   x_rijs x = rij - ea_rs p /\ x_riks x = rik - ea_rs p /\ (is_narrow t = true -> x_rjks x = rjk - ea_rs p)).

Lemma aux_made t p rij rik rjk x : (is_weighted t = false -> 0 <= ea_rs p) ->
  aux_ok t p rij rik rjk (expAng_aux t p rij rik rjk x).
Proof.
  intros Hrs. unfold expAng_aux, aux_ok. destruct (is_weighted t || ltR 0 (ea_rs p))%bool eqn:B.
  - cbn [x_vexp x_rijs x_riks x_rjks]. split.
    + destruct (is_narrow t); reflexivity.
    + intros _. repeat split; auto. intros ->. auto.
  - split; [|discriminate]. apply orb_false_iff in B. destruct B as (B1 & B2). apply ltR_false in B2.
    assert (E : ea_rs p = 0) by (specialize (Hrs B1); lra). cbn [x_vexp]. rewrite E, !Rminus_0_r. reflexivity.
Qed.

Lemma some4 (v v' p1 p1' p2 p2' p3 p3' : R) : v = v' -> p1 = p1' -> p2 = p2' -> p3 = p3' ->
  Some (v, (p1, p2, p3)) = Some (v', (p1', p2', p3')).
Proof. congruence. Qed.

Lemma expAng_agree t p factor norm nj nk fc x :
  ea_fc p = fc -> ea_zeta p <> 0 -> ea_lambda p <> 0 -> 0 < nb_d nj -> 0 < nb_d nk ->
  let rjk := sqrt (norm2 (vsub (nb_dr nk) (nb_dr nj))) in
  (is_narrow t = true -> 0 < rjk) ->
  (is_weighted t = false -> 0 <= ea_rs p) ->
  norm = exp_norm p * factor ->
  aux_ok t p (nb_d nj) (nb_d nk) rjk x ->
  let fij := cf_fdf fc (nb_d nj) in
  let fik := cf_fdf fc (nb_d nk) in
  let fjk := cf_fdf fc rjk in
  let rij := nb_d nj in let rik := nb_d nk in
  let rinvijik := 1 / rij / rik in
  let costijk := dot (nb_dr nj) (nb_dr nk) * rinvijik in
  let z := weight Z (is_weighted t) nj nk in
  let pfc := if is_narrow t then z * fst fij * fst fik * fst fjk else z * fst fij * fst fik in
  let pr1 := if is_narrow t then z * fst fik * fst fjk * snd fij / rij else z * fst fik * snd fij / rij in
  let pr2 := if is_narrow t then z * fst fij * fst fjk * snd fik / rik else z * fst fij * snd fik / rik in
  let pr3 := if is_narrow t then z * fst fij * fst fik * snd fjk / rjk else 0 in
  let plambda := 1 + ea_lambda p * costijk in
  let fg := if leR plambda 0 then 0 else x_vexp x * zeta_pow p plambda in
  ab_pair (ea_body t factor p) nj nk fij fik =
  Some (fg * plambda * pfc, expAng_factors t p norm rij rik rjk rinvijik costijk pfc pr1 pr2 pr3 x fg plambda).
Proof.
  intros Hfc Hz Hl Pj Pk rjk Pjk Hrs Hn (Ax & Ay) fij fik fjk rij rik rinvijik costijk z pfc pr1 pr2 pr3 plambda fg.
  assert (Hsh : (is_weighted t || ltR 0 (ea_rs p))%bool = false -> ea_rs p = 0).
  { intros B. apply orb_false_iff in B. destruct B as (B1 & B2). apply ltR_false in B2. specialize (Hrs B1). lra. }
  assert (FG : forall wgt e, (if leR plambda 0 then 0 else wgt * e * zeta_pow p plambda) =
     wgt * (if leR plambda 0 then 0 else e * zeta_pow p plambda)).
  { intros. destruct (leR plambda 0); ring. }
  destruct t; cbn [is_narrow is_weighted ea_body weight] in *.
  - unfold expAngn_body, ab_pair, angn_pair. rewrite Hfc. fold rjk fjk rij rik rinvijik costijk plambda.
    fold rij rik in Ax. rewrite FG, <- Ax. fold fg. unfold pfc, pr1, pr2, pr3, z.
    rewrite (surjective_pairing fij), (surjective_pairing fik), (surjective_pairing fjk). cbn [fst snd].
    unfold expAng_factors. cbn [is_narrow is_weighted orb] in *. rewrite Hn. unfold exp_norm.
    assert (Rij : rij <> 0) by (unfold rij; lra). assert (Rik : rik <> 0) by (unfold rik; lra).
    assert (Rjk : rjk <> 0) by (specialize (Pjk eq_refl); lra). clear Ax.
    destruct (ltR 0 (ea_rs p)).
    + destruct (Ay eq_refl) as (-> & -> & A3). rewrite (A3 eq_refl). fold rij rik.
      unfold rinvijik; apply some4; [ring|field; auto..].
    + rewrite (Hsh eq_refl), !Rminus_0_r. unfold rinvijik; apply some4; [ring|field; auto..].
  - unfold expAngw_body, ab_pair, angw_pair. fold rij rik rinvijik costijk plambda.
    replace (exp (- ea_eta p * ((rij - ea_rs p) * (rij - ea_rs p) + (rik - ea_rs p) * (rik - ea_rs p)))) with (1 * x_vexp x)
      by (rewrite Ax; fold rij rik; ring).
    rewrite FG. fold fg. unfold pfc, pr1, pr2, pr3, z.
    rewrite (surjective_pairing fij), (surjective_pairing fik). cbn [fst snd].
    unfold expAng_factors. cbn [is_narrow is_weighted orb] in *. rewrite Hn. unfold exp_norm.
    assert (Rij : rij <> 0) by (unfold rij; lra). assert (Rik : rik <> 0) by (unfold rik; lra). clear Ax.
    destruct (ltR 0 (ea_rs p)).
    + destruct (Ay eq_refl) as (-> & -> & _). fold rij rik.
      unfold rinvijik; apply some4; [ring|field; auto..].
    + rewrite (Hsh eq_refl), !Rminus_0_r. unfold rinvijik; apply some4; [ring|field; auto..].
  - unfold expAngnW_body, ab_pair, angn_pair. rewrite Hfc. fold rjk fjk rij rik rinvijik costijk plambda.
    fold rij rik in Ax. rewrite FG, <- Ax. fold fg. unfold pfc, pr1, pr2, pr3, z.
    rewrite (surjective_pairing fij), (surjective_pairing fik), (surjective_pairing fjk). cbn [fst snd].
    unfold expAng_factors. cbn [is_narrow is_weighted orb] in *. rewrite Hn. unfold exp_norm.
    assert (Rij : rij <> 0) by (unfold rij; lra). assert (Rik : rik <> 0) by (unfold rik; lra).
    assert (Rjk : rjk <> 0) by (specialize (Pjk eq_refl); lra). clear Ax.
    destruct (Ay eq_refl) as (-> & -> & A3). rewrite (A3 eq_refl). fold rij rik.
    unfold rinvijik; apply some4; [ring|field; auto..].
Qed.

Lemma aux_unchanged t p q rij rik rjk x : exp_changed q p = false -> aux_ok t q rij rik rjk x -> aux_ok t p rij rik rjk x.
Proof.
  unfold exp_changed. intros H. apply orb_false_iff in H. destruct H as (H1 & H2).
  apply negb_false_iff in H1, H2. unfold eqR in *.
  destruct (Req_EM_T (ea_eta q) (ea_eta p)) as [E1|]; [|discriminate].
  destruct (Req_EM_T (ea_rs q) (ea_rs p)) as [E2|]; [|discriminate].
  unfold aux_ok. rewrite E1, E2. auto.
Qed.

Section ExpAng.
Variables (t : exp_ang) (fc : cutoff_function) (rc : R) (e1 e2 : nat) (ms : list (member ea_par)).
Hypothesis Hready : forall m, In m ms -> gready asg a (of_member (ea_kind t) m).
Hypothesis Hcom : forall m, In m ms -> ea_fc (m_p m) = fc /\ ea_rc (m_p m) = rc /\
  (is_weighted t = false -> ea_e1 (m_p m) = e1 /\ ea_e2 (m_p m) = e2).
Hypothesis Hsc : forall m, In m ms -> scaled_member m /\ factor_of m <> 0 /\ m_norm m = exp_norm (m_p m) * factor_of m.
Hypothesis Hpar : forall m, In m ms -> ea_zeta (m_p m) <> 0 /\ ea_lambda (m_p m) <> 0 /\
  (is_weighted t = false -> 0 <= ea_rs (m_p m)).
Hypothesis Hcalc : calc_ok exp_changed ms.
Hypothesis Hxy : is_narrow t = true -> on_pairs (fun x y => x <> y) (env_of nbs).

Let body (m : member ea_par) := ea_body t (factor_of m) (m_p m).
Let guardj nj := ((is_weighted t || one_of e1 e2 (nb_element nj)) && ltR (nb_d nj) rc)%bool.
Let guardk nj nk := ((is_weighted t || pairs_match e1 e2 (nb_element nj) (nb_element nk)) && ltR (nb_d nk) rc
   && (negb (is_narrow t) || ltR (norm2 (vsub (nb_dr nk) (nb_dr nj))) (rc * rc)))%bool.

Lemma body_guardj m nj : In m ms -> ab_guardj (body m) nj = guardj nj.
Proof.
  intros Hm. destruct (Hcom m Hm) as (C1 & C2 & C3). unfold body, guardj, ea_body.
  destruct t; cbn; rewrite C2; auto; destruct (C3 eq_refl) as [-> ->]; auto.
Qed.
Lemma body_guardk m nj nk : In m ms -> ab_guardk (body m) nj nk = guardk nj nk.
Proof.
  intros Hm. destruct (Hcom m Hm) as (C1 & C2 & C3). unfold body, guardk, ea_body.
  destruct t; cbn; rewrite C2; auto; destruct (C3 eq_refl) as [-> ->]; auto.
  now rewrite andb_true_r.
Qed.
Lemma body_fdf m : In m ms -> ab_fdf (body m) = cf_fdf fc.
Proof. intros Hm. destruct (Hcom m Hm) as (C1 & _). unfold body, ea_body. destruct t; cbn; rewrite C1; auto. Qed.

Lemma member_depends m e : In m ms -> (is_weighted t = true \/ e = e1 \/ e = e2) -> depends (ea_kind t (m_p m)) e = true.
Proof.
  intros Hm H. destruct (Hcom m Hm) as (_ & _ & C3). destruct t; cbn in *; auto;
    destruct (C3 eq_refl) as [-> ->]; destruct H as [?|[->| ->]]; try discriminate; rewrite Nat.eqb_refl; auto using orb_true_r.
Qed.
Lemma one_of_or e : one_of e1 e2 e = true -> e = e1 \/ e = e2.
Proof.
  unfold one_of. intros H. apply orb_true_iff in H. destruct H as [H|H]; apply Nat.eqb_eq in H; auto.
Qed.
Lemma pairs_or e e' : pairs_match e1 e2 e e' = true -> (e = e1 \/ e = e2) /\ (e' = e1 \/ e' = e2).
Proof.
  unfold pairs_match. intros H. apply orb_true_iff in H.
  destruct H as [H|H]; apply andb_true_iff in H; destruct H as (A & B); apply Nat.eqb_eq in A, B; auto.
Qed.
Lemma guardj_depends m nj : In m ms -> guardj nj = true -> depends (ea_kind t (m_p m)) (nb_element nj) = true.
Proof.
  intros Hm G. unfold guardj in G. apply andb_true_iff in G. destruct G as (G & _). apply orb_true_iff in G.
  apply member_depends; auto. destruct G as [G|G]; auto. right. apply one_of_or; auto.
Qed.
Lemma guardk_depends m nj nk : In m ms -> guardk nj nk = true -> depends (ea_kind t (m_p m)) (nb_element nk) = true.
Proof.
  intros Hm G. unfold guardk in G. apply andb_true_iff in G. destruct G as (G & _). apply andb_true_iff in G. destruct G as (G & _).
  apply orb_true_iff in G. apply member_depends; auto. destruct G as [G|G]; auto. right. apply (pairs_or _ _ G).
Qed.
Lemma use_slot m e : In m ms -> depends (ea_kind t (m_p m)) e = true -> sf_ci (m_c m) e <> [] ->
  exists c0 c1 r, sf_ci (m_c m) e = c0 :: c1 :: r /\ asg e c0 c1 (cf_fdf fc).
Proof.
  intros Hm Hd Hn. destruct (Hready m Hm) as ((S1 & _) & _). destruct (Hcom m Hm) as (C1 & _).
  destruct (S1 e Hd) as [X|(c0 & c1 & r & X1 & X2)]; [contradiction|]. exists c0, c1, r. split; auto.
  cbn [of_member sf_kind] in X2. destruct t; cbn in X2; rewrite C1 in X2; auto.
Qed.
Lemma other_slot m n n' : In m ms -> is_weighted t = true -> In n nbs -> In n' nbs ->
  depends (ea_kind t (m_p m)) (nb_element n) = true -> depends (ea_kind t (m_p m)) (nb_element n') = true ->
  sf_ci (m_c m) (nb_element n) <> [] -> sf_ci (m_c m) (nb_element n') <> [].
Proof.
  intros Hm W. destruct (Hready m Hm) as ((_ & S2) & _). unfold group_both_cached in S2. cbn [of_member sf_kind] in S2.
  destruct t; try discriminate W. apply S2. reflexivity.
Qed.

Lemma either_slot m nj nk (w : bool) : In m ms -> (w = true -> is_weighted t = true) -> In nj nbs -> In nk nbs -> guardj nj = true -> guardk nj nk = true ->
  sf_ci (m_c m) (nb_element (if w then nj else nk)) <> [] -> sf_ci (m_c m) (nb_element nk) <> [].
Proof.
  intros Hm W Ij Ik Gj Gk. destruct w; auto.
  apply other_slot; auto; [apply guardj_depends; auto|eapply guardk_depends; eauto].
Qed.

Lemma expAng_pair_eff j k nj nk res s : nth_error nbs j = Some nj -> nth_error nbs k = Some nk -> (j < k)%nat ->
  guardj nj = true -> guardk nj nk = true -> ms <> [] -> coherent asg nbs s ->
  exists st', expAng_pair Z deriv t fc ms j k nj nk (cf_fdf fc (nb_d nj)) (cf_fdf fc (nb_d nk)) (res, s) = Some st' /\
    coherent asg nbs (snd st') /\
    (forall i, fst st' i = res i + at_m ms (fun m => aval (body m) nj nk) i) /\
    dadds s (snd st') (fun x => vsum (map (fun m => ev_at x (aev (m_c m) (body m) deriv j k nj nk)) ms)).
Proof.
  intros Ej Ek Hjk Gj Gk Hne Hc. unfold expAng_pair.
  set (rjk := sqrt (norm2 (vsub (nb_dr nk) (nb_dr nj)))). cbv zeta.
  assert (Hnz : forall n, In n (env_of nbs) -> snd n <> vzero).
  { destruct ms as [|m0 ms']; [contradiction|]. destruct (Hready m0 (or_introl eq_refl)) as (_ & _ & H). apply H. }
  assert (Pj : 0 < nb_d nj).
  { rewrite (wf_at a Hgl j nj Ej). apply norm_pos. eapply nonzero_at; eauto. }
  assert (Pk : 0 < nb_d nk).
  { rewrite (wf_at a Hgl k nk Ek). apply norm_pos. eapply nonzero_at; eauto. }
  assert (Pjk : is_narrow t = true -> 0 < rjk).
  { intros T. apply (norm_pos _ (vsub_nonzero _ _ (pairs_at a _ j k nj nk (Hxy T) Hjk Ej Ek))). }
  assert (AG := fun m Hm x => expAng_agree t (m_p m) (factor_of m) (m_norm m) nj nk fc x
     (proj1 (Hcom m Hm)) (proj1 (Hpar m Hm)) (proj1 (proj2 (Hpar m Hm))) Pj Pk Pjk
     (proj2 (proj2 (Hpar m Hm))) (proj2 (proj2 (Hsc m Hm)))).
  cbv zeta in AG. fold rjk in AG.
  set (fij := cf_fdf fc (nb_d nj)) in *. set (fik := cf_fdf fc (nb_d nk)) in *. set (fjk := cf_fdf fc rjk) in *.
  rewrite (surjective_pairing fij), (surjective_pairing fik), (surjective_pairing fjk).
  set (rinv := 1 / nb_d nj / nb_d nk) in *. set (cost := dot (nb_dr nj) (nb_dr nk) * rinv) in *.
  set (z := weight Z (is_weighted t) nj nk) in *.
  set (pfc := if is_narrow t then z * fst fij * fst fik * fst fjk else z * fst fij * fst fik) in *.
  set (pr1 := if is_narrow t then z * fst fik * fst fjk * snd fij / nb_d nj else z * fst fik * snd fij / nb_d nj) in *.
  set (pr2 := if is_narrow t then z * fst fij * fst fjk * snd fik / nb_d nk else z * fst fij * snd fik / nb_d nk) in *.
  set (pr3 := if is_narrow t then z * fst fij * fst fik * snd fjk / rjk else 0) in *.
  assert (IF : (if is_narrow t
     then (z * fst fij * fst fik * fst fjk, z * fst fik * fst fjk * snd fij / nb_d nj,
           z * fst fij * fst fjk * snd fik / nb_d nk, z * fst fij * fst fik * snd fjk / rjk)
     else (z * fst fij * fst fik, z * fst fik * snd fij / nb_d nj, z * fst fij * snd fik / nb_d nk, 0)) =
     (pfc, pr1, pr2, pr3)).
  { unfold pfc, pr1, pr2, pr3. destruct (is_narrow t); reflexivity. }
  rewrite IF. clear IF.
  assert (AP : forall m, In m ms -> apair (body m) nj nk = ab_pair (body m) nj nk fij fik).
  { intros m Hm. unfold apair. rewrite body_guardj, body_guardk, Gj, Gk, body_fdf by auto. reflexivity. }
  destruct (each_eff (exp_aux * gstate) (fun st => fst (snd st)) (fun st => snd (snd st))
    (expAng_member deriv t j k nj nk (nb_d nj) (nb_d nk) rjk rinv cost pfc pr1 pr2 pr3)
    (fun l st => coherent asg nbs (snd (snd st)) /\
       match l with O => True | S l' => forall q, nth_error ms l' = Some q -> aux_ok t (m_p q) (nb_d nj) (nb_d nk) rjk (fst st) end)
    (fun m => aval (body m) nj nk) (fun m x => ev_at x (aev (m_c m) (body m) deriv j k nj nk)) ms)
    with (st := (mkAux 0 0 0 0, (res, s))) as ([x' st'] & E & (C & _) & V & D).
  - intros l m [x [res0 s0]] Hl (C0 & A0). assert (Hm := nth_error_In _ _ Hl). cbn [fst snd] in *.
    unfold expAng_member. set (x1 := if m_calc m then expAng_aux t (m_p m) (nb_d nj) (nb_d nk) rjk x else x).
    assert (A1 : aux_ok t (m_p m) (nb_d nj) (nb_d nk) rjk x1).
    { unfold x1. destruct (m_calc m) eqn:Cm.
      - apply aux_made. apply (Hpar m Hm).
      - assert (K := Hcalc l m Hl). rewrite Cm in K. destruct l as [|l']; [discriminate|].
        destruct (nth_error ms l') as [q|] eqn:Eq; [|discriminate]. apply aux_unchanged with (m_p q); auto. }
    assert (AGx := AG m Hm x1 A1). specialize (AP m Hm). unfold body in AP. rewrite AGx in AP. clear AGx AG.
    assert (AV : aval (body m) nj nk = (if leR (1 + ea_lambda (m_p m) * cost) 0 then 0 else
         x_vexp x1 * zeta_pow (m_p m) (1 + ea_lambda (m_p m) * cost)) * (1 + ea_lambda (m_p m) * cost) * pfc).
    { unfold aval, body. rewrite AP. reflexivity. }
    assert (RES : forall i, upd res0 l (res0 l + (if leR (1 + ea_lambda (m_p m) * cost) 0 then 0 else
         x_vexp x1 * zeta_pow (m_p m) (1 + ea_lambda (m_p m) * cost)) * (1 + ea_lambda (m_p m) * cost) * pfc) i =
         res0 i + (if Nat.eqb i l then aval (body m) nj nk else 0)).
    { intros i. rewrite AV. destruct (Nat.eqb_spec i l) as [->|N]; [rewrite upd_same|rewrite upd_other by auto]; ring. }
    cbv zeta. revert RES AP. destruct (expAng_factors t (m_p m) (m_norm m)) as [[p1 p2] p3]. intros RES AP.
    assert (Q : forall l' q, S l = S l' -> nth_error ms l' = Some q -> aux_ok t (m_p q) (nb_d nj) (nb_d nk) rjk x1).
    { intros l' q El Eq. injection El as <-. rewrite Hl in Eq. injection Eq as <-. exact A1. }
    assert (EV : aev (m_c m) (body m) deriv j k nj nk = if deriv then pair_events (m_c m) j k nj nk p1 p2 p3 else []).
    { unfold aev, body. rewrite AP. reflexivity. }
    rewrite EV. destruct deriv.
    + eexists. split; [reflexivity|]. cbn [fst snd]. split; [|split; [exact RES|apply put_pair_adds]].
      split; [apply coherent_put_pair; auto|]. eauto.
    + eexists. split; [reflexivity|]. cbn [fst snd]. split; [|split; [exact RES|apply dadds_refl]].
      split; auto. eauto.
  - cbn. split; auto.
  - cbn [fst snd] in C, V, D. exists st'. split.
    { match type of E with ?x = _ => match goal with |- match ?y with _ => _ end = _ => change y with x end end. now rewrite E. } split; [exact C|]. split; [exact V|exact D].
Qed.

Lemma expAng_group_effect : ms <> [] ->
  group_effect Z asg a (map (of_member (ea_kind t)) ms) deriv (expAng_group Z a deriv t fc rc e1 e2 ms).
Proof.
  intros Hne. destruct ms as [|m0 ms'] eqn:Ems; [contradiction|]. rewrite <- Ems in *.
  assert (H0 : In m0 ms) by (rewrite Ems; left; auto).
  set (N := bound a (match t with Narrow => Some rc | _ => None end)).
  assert (HN : forall m, In m ms -> N = bound a (ab_stored (body m))).
  { intros m Hm. destruct (Hcom m Hm) as (C1 & C2 & C3). unfold N, body, ea_body. destruct t; cbn; rewrite ?C2; auto. }
  assert (LN : (N <= length nbs)%nat) by (apply (bound_ok a Hgl)).
  unfold expAng_group. rewrite Ems. rewrite <- Ems. fold N.
  apply (group_effect_ext Z asg a (map (of_member (ea_kind t)) ms) deriv
    (fun s => let numN := if Nat.eqb N 0 then 1%nat else N in
       match ofold (expAng_outer Z a deriv t fc rc e1 e2 ms (sf_ci (m_c m0)) numN) (seq 0 (numN - 1)) (fun _ => 0, s) with
       | None => None | Some st => finish expAng_final ms (fst st, snd st) end)).
  { intros s. cbv zeta. destruct (ofold _ _ _) as [[? ?]|]; auto. }
  apply (angular_effect (ea_kind t) body ms Hready) with (Inv := fun st => coherent asg nbs (snd st))
    (res := fst) (sto := snd) (init := fun s => (fun _ => 0, s))
    (step := fun N j => expAng_outer Z a deriv t fc rc e1 e2 ms (sf_ci (m_c m0)) N j).
  - intros m. unfold body, ea_body, ea_kind. destruct t; reflexivity.
  - exact HN.
  - intros s Hc. auto.
  - auto.
  - intros m v Hm. unfold expAng_final. destruct (Hsc m Hm) as (S1 & S2 & S3). rewrite S1, S3. f_equal.
    assert (B : ab_norm (body m) = exp_norm (m_p m)) by (unfold body, ea_body; destruct t; reflexivity).
    rewrite B. field. auto.
  - intros j [res s] Hj Hc. unfold expAng_outer. fold nbs. destruct (nth_error nbs j) as [nj|] eqn:Ej.
    2:{ apply nth_error_None in Ej. lia. }
    cbn [fst snd] in *. fold (guardj nj). destruct (guardj nj) eqn:Gj.
    + destruct (fetch_ok asg nbs Hcons (sf_ci (m_c m0) (nb_element nj)) (sf_ci (m_c m0) (nb_element nj)) (cf_fdf fc) j nj s Ej Hc)
        as (s1 & -> & C1 & A1).
      { apply use_slot; auto. apply guardj_depends; auto. }
      destruct (loop_eff gstate fst snd (expAng_inner Z a deriv t fc rc e1 e2 ms (sf_ci (m_c m0)) j nj (cf_fdf fc (nb_d nj)))
        (fun st => coherent asg nbs (snd st)) (fun k m => at_nb nbs 0 (aval (body m) nj) k)
        (fun k m x => ev_at x (at_nb nbs [] (aev (m_c m) (body m) deriv j k nj) k)) ms (seq (j + 1) (N - (j + 1))))
        with (st := (res, s1)) as (st' & E2 & C2 & V2 & D2).
      * intros k [res0 s0] Hk C0. apply in_seq in Hk. cbn [fst snd] in *. unfold expAng_inner. fold nbs. unfold at_nb.
        destruct (nth_error nbs k) as [nk|] eqn:Ek.
        2:{ apply nth_error_None in Ek. lia. }
        fold (guardk nj nk). destruct (guardk nj nk) eqn:Gk.
        -- destruct (fetch_ok asg nbs Hcons (sf_ci (m_c m0) (nb_element (if is_weighted t then nj else nk)))
              (sf_ci (m_c m0) (nb_element nk)) (cf_fdf fc) k nk s0 Ek C0) as (s2 & -> & C3 & A2).
           { intros H. apply use_slot; auto; [eapply guardk_depends; eauto|].
             revert H. apply either_slot; auto; eapply nth_error_In; eauto. }
           destruct (expAng_pair_eff j k nj nk res0 s2) as (st' & E & C4 & V4 & D4); auto; [lia|].
           exists st'. split; [exact E|]. split; auto. split; auto.
           eapply dadds_ext; [|eapply dadds_trans; [apply adds_dadds; exact A2|exact D4]].
           intros x. cbn. apply vadd_zero_l.
        -- exists (res0, s0). split; auto. split; auto. cbn [fst snd]. split.
           ++ intros i. rewrite <- (Rplus_0_r (res0 i)) at 1. f_equal. unfold at_m.
              destruct (nth_error ms i) as [m|] eqn:Ei; auto. apply nth_error_In in Ei. unfold aval, apair.
              rewrite body_guardk, Gk, andb_false_r by auto. auto.
           ++ eapply dadds_ext; [|apply dadds_refl]. intros x. symmetry. apply vsum_map_zero. intros m Hm.
              unfold aev, apair. rewrite body_guardk, Gk, andb_false_r by auto. reflexivity.
      * exact C1.
      * rewrite E2. exists st'. split; auto. split; auto. split.
        -- intros i. rewrite V2. unfold at_nb. rewrite Ej. reflexivity.
        -- eapply dadds_ext; [|eapply dadds_trans; [apply adds_dadds; exact A1|exact D2]].
           intros x. cbn [ev_at]. transitivity (vsum (map (fun m => vsum (map (fun k =>
             ev_at x (at_nb nbs [] (aev (m_c m) (body m) deriv j k nj) k)) (seq (j + 1) (N - (j + 1))))) ms)).
           { cbn. apply vadd_zero_l. }
           apply vsum_ext. intros m Hm. rewrite <- ev_at_flat_map. unfold aevrow, at_nb. rewrite Ej. reflexivity.
    + exists (res, s). split; auto. split; auto. cbn [fst snd]. unfold at_nb. rewrite Ej. split.
      * intros i. rewrite <- (Rplus_0_r (res i)) at 1. f_equal. unfold at_m.
        destruct (nth_error ms i) as [m|] eqn:Ei; auto. apply nth_error_In in Ei. symmetry.
        apply guard_no_row. rewrite body_guardj; auto.
      * eapply dadds_ext; [|apply dadds_refl]. intros x. symmetry. apply vsum_map_zero. intros m Hm.
        rewrite (proj2 (guard_no_row (body m) j nj N ltac:(rewrite body_guardj; auto))). reflexivity.
Qed.
End ExpAng.
End Angular.
