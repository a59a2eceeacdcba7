(** The effect of calculate: value, derivatives, independence of the cache. *)
From Coq Require Import Reals ZArith Lra Lia Bool Arith.
From Coquelicot Require Import Coquelicot.
From Coq Require Import List.
From Verif Require Import Base.RealBase Base.Vec3 Base.SumR Base.Loop Model.CoreFunction Model.CutoffFunction
  Model.CompactScreening Model.Strings Model.Scaling Model.NeighborList Model.SymFunctions
  Spec.CompactSpec Spec.SymSpec Proofs.ScalingProofs Proofs.SymEval Proofs.SymTerms Proofs.SymKinds Proofs.SymKindsAng.
Import ListNotations.
Local Open Scope R_scope.

(** ** Sums by index *)
Definition nthR {A} (l : list A) (f : A -> R) (j : nat) : R := match nth_error l j with Some n => f n | None => 0 end.
Lemma at_nthR nbs f j : at_nb nbs 0 f j = nthR nbs f j.
Proof. reflexivity. Qed.
Lemma rsum_index {A} (f : A -> R) l : rsum (map f l) = rsum (map (nthR l f) (seq 0 (length l))).
Proof.
  induction l as [|a l IH]; [reflexivity|]. cbn [length seq map rsum]. rewrite <- seq_shift, map_map. rewrite IH.
  f_equal.
Qed.
Lemma seq_shift1 n j : seq (S j) n = map S (seq j n).
Proof. symmetry. apply seq_shift. Qed.
Lemma pair_sum_index {A} (f : A -> A -> R) l :
  pair_sum f l = rsum (map (fun j => nthR l (fun x => rsum (map (nthR l (f x)) (seq (j + 1) (length l - (j + 1))))) j)
                           (seq 0 (length l))).
Proof.
  induction l as [|a l IH]; [reflexivity|]. cbn [length seq map rsum pair_sum].
  rewrite <- seq_shift, map_map. f_equal.
  - unfold nthR at 1. cbn [nth_error]. rewrite rsum_index.
    replace (S (length l) - (0 + 1))%nat with (length l) by lia.
    cbn [Nat.add]. rewrite seq_shift1, map_map. reflexivity.
  - rewrite IH. f_equal. apply map_ext. intros j. unfold nthR at 1 3. cbn [nth_error].
    destruct (nth_error l j) as [x|]; auto. cbn [Nat.add]. rewrite seq_shift1, map_map.
    replace (S (length l) - S (j + 1))%nat with (length l - (j + 1))%nat by lia. reflexivity.
Qed.

(** Sums over pairs cut at a bound beyond which the terms vanish. *)
Lemma sum_cut (f : nat -> R) B N : (B <= N)%nat -> (forall j, (B <= j < N)%nat -> f j = 0) ->
  rsum (map f (seq 0 B)) = rsum (map f (seq 0 N)).
Proof.
  intros HB H. replace N with (B + (N - B))%nat by lia. rewrite seq_app, map_app, rsum_app.
  rewrite (rsum_zero f (seq (0 + B) (N - B))); [lra|]. intros x Hx. apply in_seq in Hx. apply H. lia.
Qed.
Lemma pair_cut (F : nat -> nat -> R) B N : (B <= N)%nat -> (forall j k, (B <= k < N)%nat -> F j k = 0) ->
  rsum (map (fun j => rsum (map (F j) (seq (j + 1) (B - (j + 1))))) (seq 0 (B - 1))) =
  rsum (map (fun j => rsum (map (F j) (seq (j + 1) (N - (j + 1))))) (seq 0 N)).
Proof.
  intros HB H. rewrite <- (sum_cut _ (B - 1) N).
  - apply rsum_ext. intros j Hj. apply in_seq in Hj.
    replace (N - (j + 1))%nat with ((B - (j + 1)) + (N - B))%nat by lia.
    rewrite seq_app, map_app, rsum_app. rewrite (rsum_zero (F j) (seq _ (N - B))); [lra|].
    intros x Hx. apply in_seq in Hx. apply H. lia.
  - lia.
  - intros j Hj. apply rsum_zero. intros k Hk. apply in_seq in Hk. apply H. lia.
Qed.

Lemma derive_sum_rel {A} (f : A -> R -> R) (g : A -> R) c t l :
  (forall x, In x l -> exists d : R, is_derive (f x) t d /\ c * d = g x) ->
  exists d : R, is_derive (fun u => rsum (map (fun x => f x u) l)) t d /\ c * d = rsum (map g l).
Proof.
  induction l as [|a l IH]; intros H.
  - exists 0. split; [apply (is_derive_const 0)|simpl; ring].
  - destruct (H a (or_introl eq_refl)) as (d1 & D1 & E1).
    destruct IH as (d2 & D2 & E2). { intros; apply H; simpl; auto. }
    exists (d1 + d2). split; [|simpl; rewrite <- E1, <- E2; ring].
    simpl. apply is_derive_plus_R; auto.
Qed.

(** ** The displaced environment *)
Lemma nth_combine_seq {A} (l : list A) j : forall i, nth_error (List.combine (seq i (length l)) l) j =
  option_map (fun x => ((i + j)%nat, x)) (nth_error l j).
Proof.
  revert j. induction l as [|a l IH]; intros j i; [destruct j; reflexivity|].
  cbn [length seq List.combine]. destruct j; cbn [nth_error option_map].
  - now rewrite Nat.add_0_r.
  - rewrite IH. destruct (nth_error l j); simpl; auto. do 2 f_equal. lia.
Qed.
Lemma nth_displace u v tau nbs j : nth_error (displace u v tau (env_of nbs)) j =
  option_map (fun n => (nb_element n, line (nb_dr n) (vsub u (v j)) tau)) (nth_error nbs j).
Proof.
  unfold displace. rewrite nth_error_map, nth_combine_seq. unfold env_of. rewrite nth_error_map.
  destruct (nth_error nbs j); reflexivity.
Qed.
Lemma length_displace u v tau nbs : length (displace u v tau (env_of nbs)) = length nbs.
Proof. unfold displace. rewrite map_length, combine_length, seq_length. unfold env_of. rewrite map_length. lia. Qed.

Lemma radial_displace t u v tau nbs : radial_sum t (displace u v tau (env_of nbs)) =
  rsum (map (fun j => nthR nbs (fun n => t (nb_element n, line (nb_dr n) (vsub u (v j)) tau)) j) (seq 0 (length nbs))).
Proof.
  unfold radial_sum. rewrite rsum_index, length_displace. apply rsum_ext. intros j _. unfold nthR.
  rewrite nth_displace. destruct (nth_error nbs j); reflexivity.
Qed.
Lemma pair_displace t u v tau nbs : pair_sum t (displace u v tau (env_of nbs)) =
  rsum (map (fun j => rsum (map (fun k => nthR nbs (fun nj => nthR nbs (fun nk =>
     t (nb_element nj, line (nb_dr nj) (vsub u (v j)) tau) (nb_element nk, line (nb_dr nk) (vsub u (v k)) tau)) k) j)
     (seq (j + 1) (length nbs - (j + 1))))) (seq 0 (length nbs))).
Proof.
  rewrite pair_sum_index, length_displace. apply rsum_ext. intros j _. unfold nthR at 1.
  rewrite nth_displace. destruct (nth_error nbs j) as [nj|] eqn:E; cbn [option_map].
  - apply rsum_ext. intros k _. unfold nthR. rewrite E, nth_displace. destruct (nth_error nbs k); reflexivity.
  - symmetry. apply rsum_zero. intros k _. unfold nthR. now rewrite E.
Qed.
Lemma radial_env t nbs : radial_sum t (env_of nbs) =
  rsum (map (nthR nbs (fun n => t (nb_element n, nb_dr n))) (seq 0 (length nbs))).
Proof. unfold radial_sum, env_of. rewrite map_map. apply rsum_index. Qed.
Lemma pair_env t nbs : pair_sum t (env_of nbs) =
  rsum (map (fun j => rsum (map (fun k => nthR nbs (fun nj => nthR nbs (fun nk =>
     t (nb_element nj, nb_dr nj) (nb_element nk, nb_dr nk)) k) j)
     (seq (j + 1) (length nbs - (j + 1))))) (seq 0 (length nbs))).
Proof.
  rewrite pair_sum_index. unfold env_of. rewrite map_length. apply rsum_ext. intros j _. unfold nthR at 1.
  rewrite nth_error_map. destruct (nth_error nbs j) as [nj|] eqn:E; cbn [option_map].
  - apply rsum_ext. intros k _. unfold nthR. rewrite E, nth_error_map. destruct (nth_error nbs k); reflexivity.
  - symmetry. apply rsum_zero. intros k _. unfold nthR. now rewrite E.
Qed.

Lemma dot_vzero_l u : dot vzero u = 0.
Proof. unfold dot; simpl; ring. Qed.
(** ** Directional derivative of a list of contributions *)
Section Pairing.
Variables (c : sf_common) (nbs : list neighbor) (u : vec) (v : nat -> vec).
Let Pg (E : list (loc * vec)) : R := directional c nbs (fun l => ev_at l E) u v.

Lemma directional_index D : directional c nbs D u v = dot (D (LA (sf_index c))) u +
  rsum (map (fun j => nthR nbs (fun n => dot (D (LN j (sf_perElement c (nb_element n)))) (v j)) j) (seq 0 (length nbs))).
Proof.
  unfold directional. f_equal. rewrite rsum_index, combine_length, seq_length, Nat.min_id.
  apply rsum_ext. intros j _. unfold nthR. rewrite nth_combine_seq. destruct (nth_error nbs j); reflexivity.
Qed.
Lemma Pg_nil : Pg [] = 0.
Proof.
  unfold Pg. rewrite directional_index. cbn. rewrite dot_vzero_l. rewrite rsum_zero; [ring|].
  intros j _. unfold nthR. destruct (nth_error nbs j); auto. apply dot_vzero_l.
Qed.
Lemma Pg_app a b : Pg (a ++ b) = Pg a + Pg b.
Proof.
  unfold Pg. rewrite !directional_index. rewrite ev_at_app, dot_vadd_l.
  match goal with |- _ = _ + ?A + (_ + ?B) => replace A with A by auto; transitivity
   (dot (ev_at (LA (sf_index c)) a) u + dot (ev_at (LA (sf_index c)) b) u + (A + B)); [|ring] end.
  f_equal. rewrite <- rsum_plus. apply rsum_ext. intros j _. unfold nthR. destruct (nth_error nbs j).
  - now rewrite ev_at_app, dot_vadd_l.
  - ring.
Qed.
Lemma Pg_flat {A} (e : A -> list (loc * vec)) l : Pg (flat_map e l) = rsum (map (fun i => Pg (e i)) l).
Proof. induction l; simpl; [apply Pg_nil|]. now rewrite Pg_app, IHl. Qed.
Lemma Pg_cons x y l : Pg ((x, y) :: l) = Pg [(x, y)] + Pg l.
Proof. apply (Pg_app [(x, y)] l). Qed.
Lemma ev_single l x y : ev_at l [(x, y)] = if loc_eqb l x then y else vzero.
Proof. rewrite ev_at_cons, ev_at_nil. destruct (loc_eqb l x); vring. Qed.
Lemma Pg_LA x : Pg [(LA (sf_index c), x)] = dot x u.
Proof.
  unfold Pg. rewrite directional_index, ev_single, loc_eqb_refl. rewrite rsum_zero; [ring|].
  intros j _. unfold nthR. destruct (nth_error nbs j); auto. rewrite ev_single. simpl. apply dot_vzero_l.
Qed.
Lemma Pg_LN j n x : nth_error nbs j = Some n -> Pg [(LN j (sf_perElement c (nb_element n)), x)] = dot x (v j).
Proof.
  intros Hn. unfold Pg. rewrite directional_index, ev_single. cbn [loc_eqb]. rewrite dot_vzero_l, Rplus_0_l.
  fold (sumn (length nbs) (fun j0 => nthR nbs (fun n0 => dot (ev_at (LN j0 (sf_perElement c (nb_element n0)))
     [(LN j (sf_perElement c (nb_element n)), x)]) (v j0)) j0)).
  rewrite (sumn_single _ _ j).
  - unfold nthR. rewrite Hn, ev_single, loc_eqb_refl. reflexivity.
  - apply nth_error_Some. congruence.
  - intros i _ Hi. unfold nthR. destruct (nth_error nbs i); auto. rewrite ev_single. cbn [loc_eqb].
    apply Nat.eqb_neq in Hi. rewrite Hi. simpl. apply dot_vzero_l.
Qed.

Lemma Pg_radial b j n : nth_error nbs j = Some n ->
  Pg (rev_ c b true j n) = (if rb_guard b n then rp1 b n else 0) * dot (nb_dr n) (vsub u (v j)).
Proof.
  intros Hn. unfold rev_. rewrite andb_true_r. destruct (rb_guard b n).
  - rewrite Pg_cons, Pg_LA, (Pg_LN _ _ _ Hn). unfold dot, vopp, smul, vsub; simpl. ring.
  - rewrite Pg_nil. ring.
Qed.
Lemma Pg_angular b j k nj nk : nth_error nbs j = Some nj -> nth_error nbs k = Some nk ->
  Pg (aev c b true j k nj nk) = apar b nj nk (vsub u (v j)) (vsub u (v k)).
Proof.
  intros Hj Hk. unfold aev, apar. destruct (apair b nj nk) as [[val [[p1 p2] p3]]|]; [|apply Pg_nil].
  cbv zeta. rewrite Pg_cons, (Pg_cons (LN _ _)), Pg_LA, (Pg_LN _ _ _ Hj), (Pg_LN _ _ _ Hk).
  unfold dot, vopp, smul, vadd, vsub; simpl. ring.
Qed.
End Pairing.

(** ** The contributions, independent of the store and the cache *)
Definition contributions (Z : nat -> R) (f : symfnc) (a : atom) : list (loc * vec) :=
  match body_of Z (scalingFactor (sf_scaling (sf_c f))) (sf_kind f) with
  | RB b => flat_map (fun j => at_nb (a_nbs a) [] (rev_ (sf_c f) b true j) j) (seq 0 (bound a (rb_stored b)))
  | AB b => flat_map (fun j => at_nb (a_nbs a) [] (aevrow (a_nbs a) (sf_c f) b true (bound a (ab_stored b)) j) j)
              (seq 0 (bound a (ab_stored b) - 1))
  end.

Lemma flat_nil {A B} (g : A -> list B) l : (forall x, In x l -> g x = []) -> flat_map g l = [].
Proof. induction l; simpl; intros H; auto. rewrite H by auto. rewrite IHl; auto. Qed.

Section Effect.
Variables (asg : assignment) (a : atom) (c : sf_common) (k : kind) (Z : nat -> R).
Let nbs := a_nbs a.
Hypothesis Hcons : consistent asg.
Hypothesis Hgl : good_list a.
Hypothesis Hslots : slots_ok asg nbs (mkSF c k).
Let factor := scalingFactor (sf_scaling c).

Lemma bound_ok st : (bound a st <= length nbs)%nat.
Proof.
  destruct Hgl as (Hl & _ & Hs). destruct st as [rc|]; simpl.
  - destruct (Hs rc). unfold nbs. lia.
  - unfold nbs. lia.
Qed.
Lemma wf_at j n : nth_error nbs j = Some n -> wf_nb n.
Proof. intros H. apply Hgl. eapply nth_error_In; eauto. Qed.
Lemma beyond st j n : (bound a st <= j)%nat -> nth_error nbs j = Some n -> exists rc, st = Some rc /\ rc <= nb_d n.
Proof.
  intros Hb Hn. destruct st as [rc|]; simpl in Hb.
  - exists rc. split; auto. apply (proj2 (proj2 (proj2 Hgl) rc) j n); auto.
  - exfalso. destruct Hgl as (Hl & _). assert (j < length nbs)%nat by (apply nth_error_Some; congruence).
    unfold nbs in *. lia.
Qed.
Lemma nonzero_at j n : (forall m, In m (env_of nbs) -> snd m <> vzero) -> nth_error nbs j = Some n -> nb_dr n <> vzero.
Proof.
  intros H Hn. apply nth_error_In in Hn. apply (H (nb_element n, nb_dr n)).
  unfold env_of. apply in_map_iff. exists n. auto.
Qed.
Lemma pairs_at P j l nj nl : on_pairs P (env_of nbs) -> (j < l)%nat -> nth_error nbs j = Some nj ->
  nth_error nbs l = Some nl -> P (nb_dr nj) (nb_dr nl).
Proof.
  intros H Hjl Hj Hl. apply (H j l (nb_element nj, nb_dr nj) (nb_element nl, nb_dr nl) Hjl).
  - unfold env_of. now rewrite nth_error_map, Hj.
  - unfold env_of. now rewrite nth_error_map, Hl.
Qed.

Section Rad.
Variables (b : rad_body) (t : nat * vec -> R) (sm : Prop).
Hypothesis G : rad_good k factor b t sm.
Let B := bound a (rb_stored b).

Lemma rad_guard_beyond j n : (B <= j)%nat -> nth_error nbs j = Some n -> rb_guard b n = false.
Proof. intros Hj Hn. destruct (beyond _ _ _ Hj Hn) as (rc & E & H). eapply rg_stored; eauto. Qed.

Lemma rad_value : rsum (map (at_nb nbs 0 (rval b)) (seq 0 B)) = radial_sum t (env_of nbs).
Proof.
  rewrite radial_env. rewrite (sum_cut _ B (length nbs)).
  - apply rsum_ext. intros j _. rewrite at_nthR. unfold nthR. destruct (nth_error nbs j) as [n|] eqn:E; auto.
    apply (rg_val _ _ _ _ _ G). eapply wf_at; eauto.
  - apply bound_ok.
  - intros j Hj. unfold at_nb. destruct (nth_error nbs j) as [n|] eqn:E; auto. unfold rval.
    rewrite (rad_guard_beyond j n); auto; lia.
Qed.
Lemma rad_effect deriv s : coherent asg nbs s ->
  exists s', rad_calc c b a deriv s = Some (set_G (sf_index c) (scale (sf_scaling c) (radial_sum t (env_of nbs))) s') /\
    coherent asg nbs s' /\
    adds s s' (if deriv then flat_map (fun j => at_nb nbs [] (rev_ c b true j) j) (seq 0 B) else []).
Proof.
  intros Hc. destruct (rad_calc_ok asg nbs Hcons c b deriv) with (a := a) (s := s) as (s' & E & C & A); auto.
  - intros n Gn Hne. destruct (proj1 Hslots (nb_element n)) as [X|X].
    + apply (rg_dep _ _ _ _ _ G). auto.
    + contradiction.
    + rewrite (rg_fdf _ _ _ _ _ G). exact X.
  - apply bound_ok.
  - exists s'. split; [rewrite E; fold B; rewrite rad_value; reflexivity|]. split; auto.
    destruct deriv; auto. rewrite flat_nil in A; auto. intros j _. unfold at_nb. destruct (nth_error nbs j); auto.
    unfold rev_. now rewrite andb_false_r.
Qed.
Lemma rad_derivative u v : sm -> (forall m, In m (env_of nbs) -> snd m <> vzero) ->
  exists d : R, is_derive (fun tau => radial_sum t (displace u v tau (env_of nbs))) 0 d /\
    factor * d = directional c nbs (fun l => ev_at l (flat_map (fun j => at_nb nbs [] (rev_ c b true j) j) (seq 0 B))) u v.
Proof.
  intros Hs Hnz.
  destruct (derive_sum_rel (fun j tau => nthR nbs (fun n => t (nb_element n, line (nb_dr n) (vsub u (v j)) tau)) j)
     (fun j => nthR nbs (fun n => (if rb_guard b n then rp1 b n else 0) * dot (nb_dr n) (vsub u (v j))) j) factor 0
     (seq 0 (length nbs))) as (d & D & E).
  - intros j _. unfold nthR. destruct (nth_error nbs j) as [n|] eqn:En.
    + apply (rg_der _ _ _ _ _ G Hs). { eapply wf_at; eauto. } eapply nonzero_at; eauto.
    + exists 0. split; [apply is_derive_zero_fun|ring].
  - exists d. split.
    + eapply is_derive_ext; [|exact D]. intros tau. symmetry. apply radial_displace.
    + rewrite E, Pg_flat. rewrite (sum_cut _ B (length nbs)).
      * apply rsum_ext. intros j _. unfold nthR, at_nb. destruct (nth_error nbs j) as [n|] eqn:En.
        -- now rewrite Pg_radial.
        -- now rewrite Pg_nil.
      * apply bound_ok.
      * intros j Hj. unfold at_nb. destruct (nth_error nbs j) as [n|] eqn:En; [|apply Pg_nil].
        rewrite Pg_radial by auto. rewrite (rad_guard_beyond j n) by (auto; lia). ring.
Qed.
Lemma rad_local e : In e (flat_map (fun j => at_nb nbs [] (rev_ c b true j) j) (seq 0 B)) ->
  own_entry (mkSF c k) nbs (fst e).
Proof.
  intros H. apply in_flat_map in H. destruct H as (j & _ & H). unfold at_nb in H.
  destruct (nth_error nbs j) as [n|] eqn:En; [|contradiction]. unfold rev_ in H.
  destruct (rb_guard b n) eqn:Gn; [|contradiction]. destruct H as [<-|[<-|[]]]; [left; auto|right].
  exists j, n. repeat split; auto. eapply rg_dep; eauto.
Qed.
End Rad.

Section Ang.
Variables (b : ang_body) (t : nat * vec -> nat * vec -> R) (ev sm : vec -> vec -> Prop).
Hypothesis G : ang_good k factor b t ev sm.
Hypothesis Hnz : forall m, In m (env_of nbs) -> snd m <> vzero.
Hypothesis Hev : on_pairs ev (env_of nbs).
Let B := bound a (ab_stored b).

Lemma ang_guard_beyond j nj l nl : (B <= l)%nat -> nth_error nbs j = Some nj -> nth_error nbs l = Some nl ->
  apair b nj nl = None.
Proof.
  intros Hl Hj Hn. destruct (beyond _ _ _ Hl Hn) as (rc & E & H). unfold apair.
  rewrite (ag_stored _ _ _ _ _ _ G rc nj nl) by auto. now rewrite andb_false_r.
Qed.
Lemma ang_value : rsum (map (fun j => at_nb nbs 0 (arow nbs b B j) j) (seq 0 (B - 1))) = pair_sum t (env_of nbs).
Proof.
  rewrite pair_env.
  transitivity (rsum (map (fun j => rsum (map (fun l => nthR nbs (fun nj => nthR nbs (aval b nj) l) j)
     (seq (j + 1) (B - (j + 1))))) (seq 0 (B - 1)))).
  { apply rsum_ext. intros j _. unfold at_nb, arow. unfold nthR at 1. destruct (nth_error nbs j); auto.
    symmetry. apply rsum_zero. auto. }
  rewrite (pair_cut _ B (length nbs)).
  - apply rsum_ext. intros j _. apply rsum_ext. intros l Hl. apply in_seq in Hl. unfold nthR.
    destruct (nth_error nbs j) as [nj|] eqn:Ej; auto. destruct (nth_error nbs l) as [nl|] eqn:El; auto.
    apply (ag_val _ _ _ _ _ _ G); try (eapply wf_at; eassumption); try (eapply nonzero_at; eassumption).
    eapply pairs_at; [exact Hev| |exact Ej|exact El]. lia.
  - apply bound_ok.
  - intros j l Hl. unfold nthR. destruct (nth_error nbs j) as [nj|] eqn:Ej; auto.
    destruct (nth_error nbs l) as [nl|] eqn:El; auto. unfold aval. rewrite (ang_guard_beyond j nj l nl); auto. lia.
Qed.
Lemma ang_effect deriv s : coherent asg nbs s ->
  exists s', ang_calc c b a deriv s = Some (set_G (sf_index c) (scale (sf_scaling c) (ab_norm b * pair_sum t (env_of nbs))) s') /\
    coherent asg nbs s' /\
    adds s s' (if deriv then flat_map (fun j => at_nb nbs [] (aevrow nbs c b true B j) j) (seq 0 (B - 1)) else []).
Proof.
  intros Hc.
  assert (Sl : forall e, depends k e = true -> sf_ci c e <> [] ->
     exists c0 c1 r, sf_ci c e = c0 :: c1 :: r /\ asg e c0 c1 (ab_fdf b)).
  { intros e He Hne. destruct (proj1 Hslots e He) as [X|X]; [contradiction|]. rewrite (ag_fdf _ _ _ _ _ _ G). exact X. }
  destruct (ang_calc_ok asg nbs Hcons c b deriv) with (a := a) (s := s) as (s' & E & C & A); auto.
  - intros n Gn Hne. apply Sl; auto. apply (ag_depj _ _ _ _ _ _ G). auto.
  - intros nj nl Ij Il Gj Gk Hne. apply Sl.
    + eapply (ag_depk _ _ _ _ _ _ G); eauto.
    + assert (Dj := ag_depj _ _ _ _ _ _ G _ Gj). assert (Dk := ag_depk _ _ _ _ _ _ G _ _ Gj Gk).
      destruct (ab_test_j b) eqn:T; auto.
      apply (proj2 Hslots) with nj; auto. cbn [sf_kind]. rewrite <- (ag_test _ _ _ _ _ _ G). auto.
  - apply bound_ok.
  - exists s'. split; [rewrite E; fold B; rewrite ang_value, Rmult_comm; reflexivity|]. split; auto.
    destruct deriv; auto. rewrite flat_nil in A; auto. intros j _. unfold at_nb. destruct (nth_error nbs j); auto.
    unfold aevrow. apply flat_nil. intros l _. unfold at_nb. destruct (nth_error nbs l); auto.
    unfold aev. destruct (apair b n n0) as [[? [[? ?] ?]]|]; auto.
Qed.
Lemma ang_derivative u v : on_pairs sm (env_of nbs) ->
  exists d : R, is_derive (fun tau => ab_norm b * pair_sum t (displace u v tau (env_of nbs))) 0 d /\
    factor * d = directional c nbs (fun l => ev_at l
       (flat_map (fun j => at_nb nbs [] (aevrow nbs c b true B j) j) (seq 0 (B - 1)))) u v.
Proof.
  intros Hs.
  destruct (derive_sum_rel (fun j tau => rsum (map (fun l => nthR nbs (fun nj => nthR nbs (fun nk =>
     t (nb_element nj, line (nb_dr nj) (vsub u (v j)) tau) (nb_element nk, line (nb_dr nk) (vsub u (v l)) tau)) l) j)
     (seq (j + 1) (length nbs - (j + 1)))))
     (fun j => rsum (map (fun l => nthR nbs (fun nj => nthR nbs (fun nk =>
         apar b nj nk (vsub u (v j)) (vsub u (v l))) l) j) (seq (j + 1) (length nbs - (j + 1)))))
     (factor * ab_norm b) 0 (seq 0 (length nbs))) as (d & D & E).
  - intros j _. apply (derive_sum_rel (fun l tau => nthR nbs (fun nj => nthR nbs (fun nk =>
     t (nb_element nj, line (nb_dr nj) (vsub u (v j)) tau) (nb_element nk, line (nb_dr nk) (vsub u (v l)) tau)) l) j)).
    intros l Hl. apply in_seq in Hl. unfold nthR.
    destruct (nth_error nbs j) as [nj|] eqn:Ej; [|exists 0; split; [apply is_derive_zero_fun|ring]].
    destruct (nth_error nbs l) as [nl|] eqn:El; [|exists 0; split; [apply is_derive_zero_fun|ring]].
    apply (ag_der _ _ _ _ _ _ G); try (eapply wf_at; eassumption); try (eapply nonzero_at; eassumption).
    + eapply pairs_at; [exact Hev| |exact Ej|exact El]. lia.
    + eapply pairs_at; [exact Hs| |exact Ej|exact El]. lia.
  - exists (ab_norm b * d). split.
    + apply is_derive_scal_R. eapply is_derive_ext; [|exact D]. intros tau. symmetry. apply pair_displace.
    + rewrite <- Rmult_assoc, E, Pg_flat.
      transitivity (rsum (map (fun j => rsum (map (fun l => nthR nbs (fun nj => nthR nbs (fun nk =>
         apar b nj nk (vsub u (v j)) (vsub u (v l))) l) j) (seq (j + 1) (B - (j + 1))))) (seq 0 (B - 1)))).
      * symmetry. apply pair_cut. { apply bound_ok. }
        intros j l Hl. unfold nthR. destruct (nth_error nbs j) as [nj|] eqn:Ej; auto.
        destruct (nth_error nbs l) as [nl|] eqn:El; auto. unfold apar. rewrite (ang_guard_beyond j nj l nl); auto. lia.
      * apply rsum_ext. intros j _. unfold at_nb at 1, aevrow. unfold nthR at 1.
        destruct (nth_error nbs j) as [nj|] eqn:Ej.
        -- rewrite Pg_flat. apply rsum_ext. intros l _. unfold at_nb, nthR. destruct (nth_error nbs l) as [nl|] eqn:El.
           ++ now rewrite Pg_angular.
           ++ now rewrite Pg_nil.
        -- rewrite Pg_nil. apply rsum_zero. auto.
Qed.
Lemma ang_local e : In e (flat_map (fun j => at_nb nbs [] (aevrow nbs c b true B j) j) (seq 0 (B - 1))) ->
  own_entry (mkSF c k) nbs (fst e).
Proof.
  intros H. apply in_flat_map in H. destruct H as (j & _ & H). unfold at_nb in H.
  destruct (nth_error nbs j) as [nj|] eqn:Ej; [|contradiction]. unfold aevrow in H.
  apply in_flat_map in H. destruct H as (l & _ & H). unfold at_nb in H.
  destruct (nth_error nbs l) as [nl|] eqn:El; [|contradiction]. unfold aev, apair in H.
  destruct (ab_guardj b nj) eqn:Gj; [|contradiction]. destruct (ab_guardk b nj nl) eqn:Gk; [|contradiction].
  cbn [andb] in H. destruct (ab_pair b nj nl _ _) as [[? [[? ?] ?]]|]; [|contradiction].
  destruct H as [<-|[<-|[<-|[]]]]; [left; auto|right|right].
  - exists j, nj. repeat split; auto. eapply (ag_depj _ _ _ _ _ _ G); eauto.
  - exists l, nl. repeat split; auto. eapply (ag_depk _ _ _ _ _ _ G); eauto.
Qed.
End Ang.
End Effect.

(** ** All kinds *)
Lemma kind_cases Z factor k : admissible k ->
  (exists b t sm, body_of Z factor k = RB b /\ rad_good k factor b t sm /\ (forall e, sf_value Z k e = radial_sum t e) /\
     (forall e, smooth_at k e -> sm)) \/
  (exists b t ev sm, body_of Z factor k = AB b /\ ang_good k factor b t ev sm /\
     (forall e, sf_value Z k e = ab_norm b * pair_sum t e) /\
     (forall e, evaluable k e -> on_pairs ev e) /\ (forall e, smooth_at k e -> on_pairs sm e)).
Proof.
  intros Ha. destruct k.
  - left. do 3 eexists. split; [reflexivity|]. split; [apply good_ExpRad; auto|]. split; [reflexivity|]. intros e [_ H]; exact H.
  - left. do 3 eexists. split; [reflexivity|]. split; [apply good_ExpRadW; auto|]. split; [reflexivity|]. intros e [_ H]; exact H.
  - right. do 4 eexists. split; [reflexivity|]. split; [apply good_ExpAngn; auto|]. split; [reflexivity|].
    split; [intros e _ j k n m _ _ _; exact I|]. intros e [_ [H1 H2]] j k n m A B C. destruct (H2 j k n m A B C); auto.
  - right. do 4 eexists. split; [reflexivity|]. split; [apply good_ExpAngw; auto|]. split; [reflexivity|].
    split; [intros e _ j k n m _ _ _; exact I|]. intros e [_ [H1 H2]] j k n m A B C. split; auto. apply (H2 j k n m A B C).
  - right. do 4 eexists. split; [reflexivity|]. split; [apply good_ExpAngnW; auto|]. split; [reflexivity|].
    split; [intros e _ j k n m _ _ _; exact I|]. intros e [_ [H1 H2]] j k n m A B C. destruct (H2 j k n m A B C); auto.
  - left. do 3 eexists. split; [reflexivity|]. split; [apply good_CompRad; auto|]. split; [reflexivity|]. intros; exact I.
  - left. do 3 eexists. split; [reflexivity|]. split; [apply good_CompRadW; auto|]. split; [reflexivity|]. intros; exact I.
  - right. do 4 eexists. split; [reflexivity|]. split; [apply good_CompAngn; auto|].
    split; [intros e; cbn [ab_norm compAngn_body sf_value]; ring|].
    split; [intros e [_ H]; exact H|]. intros e _ j k n m _ _ _; exact I.
  - right. do 4 eexists. split; [reflexivity|]. split; [apply good_CompAngw; auto|].
    split; [intros e; cbn [ab_norm compAngw_body sf_value]; ring|].
    split; [intros e [_ H]; exact H|]. intros e _ j k n m _ _ _; exact I.
  - right. do 4 eexists. split; [reflexivity|]. split; [apply good_CompAngnW; auto|].
    split; [intros e; cbn [ab_norm compAngnW_body sf_value]; ring|].
    split; [intros e [_ H]; exact H|]. intros e _ j k n m _ _ _; exact I.
  - right. do 4 eexists. split; [reflexivity|]. split; [apply good_CompAngwW; auto|].
    split; [intros e; cbn [ab_norm compAngwW_body sf_value]; ring|].
    split; [intros e [_ H]; exact H|]. intros e _ j k n m _ _ _; exact I.
Qed.

Lemma set_G_at i v s j : st_G (set_G i v s) j = if Nat.eqb j i then v else st_G s j.
Proof.
  unfold set_G; simpl. destruct (Nat.eqb_spec j i) as [->|N]; [apply upd_same|apply upd_other; auto].
Qed.

Theorem calculate_effect Z f asg a : consistent asg -> good_list a -> slots_ok asg (a_nbs a) f -> admissible (sf_kind f) ->
  evaluable (sf_kind f) (env_of (a_nbs a)) ->
  forall deriv s, coherent asg (a_nbs a) s -> exists s', calculate Z f a deriv s = Some s' /\ coherent asg (a_nbs a) s' /\
    (forall i, st_G s' i = if Nat.eqb i (sf_index (sf_c f))
                           then scale (sf_scaling (sf_c f)) (sf_value Z (sf_kind f) (env_of (a_nbs a))) else st_G s i) /\
    forall l, st_D s' l = vadd (st_D s l) (if deriv then ev_at l (contributions Z f a) else vzero).
Proof.
  intros Hcons Hgl Hsl Ha He deriv s Hc. destruct f as [c k]. cbn [sf_c sf_kind] in *.
  unfold calculate, contributions. cbn [sf_c sf_kind].
  destruct (kind_cases Z (scalingFactor (sf_scaling c)) k Ha)
    as [(b & t & sm & -> & G & V & _) | (b & t & ev & sm & -> & G & V & E & _)].
  - destruct (rad_effect asg a c k Hcons Hgl Hsl b t sm G deriv s Hc) as (s' & X & C & [AG AD]).
    rewrite X. eexists. split; [reflexivity|]. split; [exact C|]. split.
    + intros i. rewrite set_G_at, V, AG. auto.
    + intros l. change (st_D (set_G (sf_index c) (scale (sf_scaling c) (radial_sum t (env_of (a_nbs a)))) s') l) with (st_D s' l).
      rewrite AD. destruct deriv; auto.
  - destruct (ang_effect asg a c k Hcons Hgl Hsl b t ev sm G (proj1 He) (E _ He) deriv s Hc) as (s' & X & C & [AG AD]).
    rewrite X. eexists. split; [reflexivity|]. split; [exact C|]. split.
    + intros i. rewrite set_G_at, V, AG. auto.
    + intros l. change (st_D (set_G (sf_index c) (scale (sf_scaling c) (ab_norm b * pair_sum t (env_of (a_nbs a)))) s') l)
        with (st_D s' l).
      rewrite AD. destruct deriv; auto.
Qed.

Lemma scaling_derive s : scaling_setup s -> forall x, is_derive (scale s) x (scalingFactor s).
Proof.
  intros [[T F]|(ec & i & s0 & t & l & Smin & Smax & H)] x.
  - unfold scale. rewrite T, F. apply (is_derive_id x).
  - eapply scale_derive; eauto.
Qed.

Theorem contributions_gradient Z f a u v : good_list a -> admissible (sf_kind f) ->
  smooth_at (sf_kind f) (env_of (a_nbs a)) -> scaling_setup (sf_scaling (sf_c f)) ->
  is_derive (fun tau => scale (sf_scaling (sf_c f)) (sf_value Z (sf_kind f) (displace u v tau (env_of (a_nbs a))))) 0
    (directional (sf_c f) (a_nbs a) (fun l => ev_at l (contributions Z f a)) u v).
Proof.
  intros Hgl Ha Hs Hsc. destruct f as [c k]. cbn [sf_c sf_kind] in *.
  unfold contributions. cbn [sf_c sf_kind].
  assert (X : exists d : R, is_derive (fun tau => sf_value Z k (displace u v tau (env_of (a_nbs a)))) 0 d /\
    scalingFactor (sf_scaling c) * d = directional c (a_nbs a) (fun l => ev_at l (contributions Z (mkSF c k) a)) u v).
  { unfold contributions. cbn [sf_c sf_kind].
    destruct (kind_cases Z (scalingFactor (sf_scaling c)) k Ha)
      as [(b & t & sm & -> & G & V & S) | (b & t & ev & sm & -> & G & V & E & S)].
    - destruct (rad_derivative a c k Hgl b t sm G u v (S _ Hs) (proj1 (proj1 Hs))) as (d & D & X).
      exists d. split; [|exact X]. eapply is_derive_ext; [|exact D]. intros tau. rewrite V. reflexivity.
    - destruct (ang_derivative a c k Hgl b t ev sm G (proj1 (proj1 Hs)) (E _ (proj1 Hs)) u v (S _ Hs)) as (d & D & X).
      exists d. split; [|exact X]. eapply is_derive_ext; [|exact D]. intros tau. rewrite V. reflexivity. }
  destruct X as (d & D & X). unfold contributions in X. cbn [sf_c sf_kind] in X. eapply is_derive_eq.
  - apply (is_derive_comp (scale (sf_scaling c)) (fun tau => sf_value Z k (displace u v tau (env_of (a_nbs a))))).
    + apply scaling_derive; auto.
    + exact D.
  - rewrite <- X. unfold scal; simpl; unfold mult; simpl. ring.
Qed.

Theorem contributions_local Z f a l : admissible (sf_kind f) ->
  ev_at l (contributions Z f a) <> vzero -> own_entry f (a_nbs a) l.
Proof.
  intros Ha H. destruct f as [c k].
  assert (X : forall e, In e (contributions Z (mkSF c k) a) -> own_entry (mkSF c k) (a_nbs a) (fst e)).
  { intros e. unfold contributions. cbn [sf_c sf_kind] in *.
    destruct (kind_cases Z (scalingFactor (sf_scaling c)) k Ha)
      as [(b & t & sm & -> & G & _) | (b & t & ev & sm & -> & G & _)].
    - eapply rad_local; eauto.
    - eapply ang_local; eauto. }
  revert H X. generalize (contributions Z (mkSF c k) a). intros E H X.
  induction E as [|[l' x] E IH]; [elim H; reflexivity|].
  rewrite ev_at_cons in H. destruct (loc_eqb l l') eqn:Q.
  - apply loc_eqb_eq in Q. subst l'. apply (X (l, x)). left; auto.
  - apply IH; [|intros; apply X; right; auto]. intros Y. apply H. rewrite Y. vring.
Qed.

(** The cache slots do not enter. *)
Lemma contributions_same Z f g a : same_function f g -> contributions Z f a = contributions Z g a.
Proof.
  destruct f as [[i1 p1 ci1 s1] k1], g as [[i2 p2 ci2 s2] k2]. unfold same_function; simpl.
  intros (-> & -> & -> & ->). reflexivity.
Qed.
