From Coq Require Import Reals Lra List Arith Bool Lia Permutation.
From Coquelicot Require Import Coquelicot.
From Coq Require Import List.
From Verif Require Import Base.AssocMap Base.SumR Model.Strings Model.Scaling Spec.ScalingSpec.
Import ListNotations.
Local Open Scope R_scope.

(** ** Scaling *)
Lemma setScalingType_inv ec i s0 t l Smin Smax s : setScalingType ec i s0 t l Smin Smax = Some s ->
  scalingType s = t /\ s_Gmin s = l_min l /\ s_Gmax s = l_max l /\ s_Gmean s = l_mean l /\
  s_Smin s = Smin /\ s_Smax s = Smax /\
  scalingFactor s = match t with
             | ST_NONE => 1
             | ST_SCALE => (s_Smax s - s_Smin s) / (s_Gmax s - s_Gmin s)
             | ST_CENTER => 1
             | ST_SCALECENTER => (s_Smax s - s_Smin s) / (s_Gmax s - s_Gmin s)
             | ST_SCALESIGMA => (s_Smax s - s_Smin s) / s_Gsigma s
             end.
Proof.
  unfold setScalingType. destruct (_ && _)%bool; [discriminate|]. intros H. injection H as <-.
  cbn. repeat split. 
Qed.

Lemma scale_documented ec i s0 t l Smin Smax s x : setScalingType ec i s0 t l Smin Smax = Some s ->
  scale s x = documented_scale t (l_min l) (l_max l) (l_mean l)
                (match l_sigma l with Some v => v | None => s0 end) Smin Smax x.
Proof.
  unfold setScalingType. destruct (_ && _)%bool; [discriminate|]. intros H. injection H as <-.
  unfold scale, documented_scale. cbn. destruct t; unfold Rdiv; ring.
Qed.

Lemma scaling_factor_nonzero ec i s0 t l Smin Smax s : setScalingType ec i s0 t l Smin Smax = Some s ->
  nondegenerate s -> scalingFactor s <> 0.
Proof.
  intros H Hn. apply setScalingType_inv in H. destruct H as (Ht & _ & _ & _ & _ & _ & Hf).
  unfold nondegenerate in Hn. rewrite Ht in Hn. rewrite Hf.
  destruct t; try lra; destruct Hn as [Hg Hs]; intros H; apply Rmult_integral in H; destruct H as [H|H]; try lra.
  - apply (Rinv_neq_0_compat (s_Gmax s - s_Gmin s)); auto; lra.
  - apply (Rinv_neq_0_compat (s_Gmax s - s_Gmin s)); auto; lra.
  - apply (Rinv_neq_0_compat (s_Gsigma s)); auto; lra.
Qed.

Lemma scale_unscale ec i s0 t l Smin Smax s : setScalingType ec i s0 t l Smin Smax = Some s ->
  nondegenerate s -> forall x, unscale s (scale s x) = x /\ scale s (unscale s x) = x.
Proof.
  intros H Hn x. pose proof (scaling_factor_nonzero _ _ _ _ _ _ _ _ H Hn) as Hf.
  unfold scale, unscale. destruct (scalingType s); split; try ring; field; auto.
Qed.

Lemma scale_range ec i s0 l Smin Smax s : setScalingType ec i s0 ST_SCALE l Smin Smax = Some s ->
  l_min l < l_max l -> Smin < Smax ->
  scale s (l_min l) = Smin /\ scale s (l_max l) = Smax /\
  (forall x, l_min l <= x <= l_max l <-> Smin <= scale s x <= Smax).
Proof.
  intros H Hg Hs. pose proof H as H'. apply setScalingType_inv in H'.
  destruct H' as (Ht & H1 & H2 & _ & H3 & H4 & Hf). unfold scale. rewrite Ht, Hf, H1, H2, H3, H4.
  set (k := (Smax - Smin) / (l_max l - l_min l)).
  assert (Hk : 0 < k) by (apply Rdiv_lt_0_compat; lra).
  assert (He : k * (l_max l - l_min l) = Smax - Smin) by (unfold k; field; lra).
  split; [ring|]. split; [lra|]. intros x. split; intros [Ha Hb].
  - assert (0 <= k * (x - l_min l)) by (apply Rmult_le_pos; lra).
    assert (k * (x - l_min l) <= k * (l_max l - l_min l)) by (apply Rmult_le_compat_l; lra). lra.
  - split.
    + apply Rnot_lt_le. intros Hx. assert (0 < k * (l_min l - x)) by (apply Rmult_lt_0_compat; lra). lra.
    + apply Rnot_lt_le. intros Hx. assert (0 < k * (x - l_max l)) by (apply Rmult_lt_0_compat; lra). lra.
Qed.

Lemma scale_derive ec i s0 t l Smin Smax s : setScalingType ec i s0 t l Smin Smax = Some s ->
  forall x, is_derive (scale s) x (scalingFactor s).
Proof.
  intros H x. apply setScalingType_inv in H. destruct H as (Ht & _ & _ & _ & _ & _ & Hf).
  unfold scale. rewrite Ht. destruct t; rewrite ?Hf; auto_derive; auto; ring.
Qed.

Lemma line_mixup : exists ec i s0 t l Smin Smax s,
  setScalingType ec i s0 t l Smin Smax = Some s /\ l_index l <> S i.
Proof.
  exists 0%nat, 0%nat, 0, ST_SCALE, (mkStatLine 1 7 0 1 0 None), 0, 1.
  eexists. split; [reflexivity|]. cbn. discriminate.
Qed.

(** ** Statistics *)
Lemma sd_get_mset_same d i c : sd_get (mset Nat.eqb i c d) i = c.
Proof. unfold sd_get. rewrite (mget_mset_same _ Nat.eqb_eq). auto. Qed.
Lemma sd_get_mset_other d i j c : j <> i -> sd_get (mset Nat.eqb i c d) j = sd_get d j.
Proof. intros H. unfold sd_get. rewrite (mget_mset_other _ Nat.eqb_eq); auto. Qed.

Lemma ew_test_spec s v : ew_test s v = true <-> out_of_range (s_Gmin s) (s_Gmax s) v.
Proof.
  unfold ew_test, out_of_range, ew_epsilon. change (1000 / 2 ^ 52) with (1000 * / 2 ^ 52).
  set (e := 1000 * / 2 ^ 52). destruct (Rlt_dec (v + e) (s_Gmin s)).
  - split; auto. intros _. left; lra.
  - destruct (Rlt_dec (s_Gmax s) (v - e)).
    + split; auto. intros _. right; lra.
    + split; [discriminate|]. intros [H|H]; lra.
Qed.

(** One event of the history. *)
Definition event := (nat * nat * (sf_stat * R))%type.
Definition ev_sf (e : event) := fst (snd e).
Definition ev_g (e : event) := snd (snd e).
Definition ev_value (e : event) := unscale (sf_scaling (ev_sf e)) (ev_g e).
Definition ev_ew (e : event) : bool := ew_test (sf_scaling (ev_sf e)) (ev_value e).

Definition upd_c (fl : flags) (sym : str) (c : container) (e : event) : container :=
  let sf := ev_sf e in
  let c := if f_collectStatistics fl then c_addValue c (ev_g e) else c in
  if (ev_ew e && f_collectEW fl)%bool
  then c_addEW c (sf_type sf) (ev_value e) (s_Gmin (sf_scaling sf)) (s_Gmax (sf_scaling sf)) sym (fst (fst e)) (snd (fst e))
  else c.

Definition step (fl : flags) (sym : str) (st : option (nat * stat_data)) (e : event) :=
  update_one fl sym (fst (fst e)) (snd (fst e)) st (snd e).

Lemma addValue_get d i v j : sd_get (addValue d i v) j = if Nat.eqb i j then c_addValue (sd_get d j) v else sd_get d j.
Proof.
  unfold addValue. destruct (Nat.eqb_spec i j); subst.
  - apply sd_get_mset_same.
  - apply sd_get_mset_other; auto.
Qed.
Lemma addEW_get d i ty v a b el iS iA j : sd_get (addExtrapolationWarning d i ty v a b el iS iA) j =
  if Nat.eqb i j then c_addEW (sd_get d j) ty v a b el iS iA else sd_get d j.
Proof.
  unfold addExtrapolationWarning. destruct (Nat.eqb_spec i j); subst.
  - apply sd_get_mset_same.
  - apply sd_get_mset_other; auto.
Qed.

Lemma step_spec fl sym n d e : f_stopOnEW fl = false ->
  exists d', step fl sym (Some (n, d)) e = Some ((n + (if ev_ew e then 1 else 0))%nat, d') /\
    forall j, sd_get d' j = if Nat.eqb (sf_index (ev_sf e)) j then upd_c fl sym (sd_get d j) e else sd_get d j.
Proof.
  intros Hst. destruct e as [[iS iA] [sf g]]. unfold step, update_one, ev_ew, ev_value, ev_sf, ev_g, upd_c, ev_ew, ev_value, ev_sf, ev_g.
  cbn [fst snd]. rewrite Hst. destruct (ew_test (sf_scaling sf) (unscale (sf_scaling sf) g)).
  - eexists. split; [reflexivity|]. intros j. cbn [andb].
    destruct (f_collectEW fl), (f_collectStatistics fl); rewrite ?addEW_get, ?addValue_get;
      destruct (Nat.eqb (sf_index sf) j); reflexivity.
  - eexists. split; [rewrite Nat.add_0_r; reflexivity|]. intros j. cbn [andb].
    destruct (f_collectStatistics fl); rewrite ?addValue_get; destruct (Nat.eqb (sf_index sf) j); reflexivity.
Qed.

Definition ev_at (j : nat) (e : event) : bool := Nat.eqb (sf_index (ev_sf e)) j.

Lemma steps_spec fl sym evs : f_stopOnEW fl = false -> forall n d,
  exists d', fold_left (step fl sym) evs (Some (n, d)) = Some ((n + length (filter ev_ew evs))%nat, d') /\
    forall j, sd_get d' j = fold_left (upd_c fl sym) (filter (ev_at j) evs) (sd_get d j).
Proof.
  intros Hst. induction evs as [|e evs IH]; intros n d.
  - exists d. split; [cbn; rewrite Nat.add_0_r; reflexivity|]. auto.
  - cbn [fold_left]. destruct (step_spec fl sym n d e Hst) as (d1 & H1 & G1). rewrite H1.
    destruct (IH (n + (if ev_ew e then 1 else 0))%nat d1) as (d2 & H2 & G2). exists d2. split.
    + rewrite H2. do 2 f_equal. cbn [filter]. destruct (ev_ew e); cbn [length]; lia.
    + intros j. rewrite G2, G1. cbn [filter]. unfold ev_at at 2. destruct (Nat.eqb (sf_index (ev_sf e)) j); reflexivity.
Qed.

Lemma upd_c_stats fl sym evs : f_collectStatistics fl = true -> forall c,
  let c' := fold_left (upd_c fl sym) evs c in
  c_count c' = (c_count c + length evs)%nat /\
  c_sum c' = c_sum c + rsum (map ev_g evs) /\
  c_sum2 c' = c_sum2 c + rsum (map (fun e => ev_g e * ev_g e) evs) /\
  c_min c' = fold_left Rmin (map ev_g evs) (c_min c) /\
  c_max c' = fold_left Rmax (map ev_g evs) (c_max c).
Proof.
  intros Hs. induction evs as [|e evs IH]; intros c; cbn [fold_left map rsum length].
  - cbv zeta. repeat split; try lia; try lra.
  - destruct (IH (upd_c fl sym c e)) as (H1 & H2 & H3 & H4 & H5). cbv zeta.
    rewrite H1, H2, H3, H4, H5. unfold upd_c. rewrite Hs.
    destruct (ev_ew e && f_collectEW fl)%bool; cbn; (split; [lia|]; split; [lra|]; split; [lra|]; auto).
Qed.
Lemma upd_c_ew fl sym evs : f_collectEW fl = true -> forall c,
  let c' := fold_left (upd_c fl sym) evs c in
  let ew := filter ev_ew evs in
  c_countEW c' = (c_countEW c + length ew)%nat /\
  c_valueEW c' = c_valueEW c ++ map ev_value ew /\
  c_structureEW c' = c_structureEW c ++ map (fun e => fst (fst e)) ew /\
  c_atomEW c' = c_atomEW c ++ map (fun e => snd (fst e)) ew.
Proof.
  intros Hs. induction evs as [|e evs IH]; intros c; cbn [fold_left].
  - cbv zeta. cbn. rewrite !app_nil_r. repeat split; lia.
  - destruct (IH (upd_c fl sym c e)) as (H1 & H2 & H3 & H4). cbv zeta.
    rewrite H1, H2, H3, H4. unfold upd_c. rewrite Hs, andb_true_r. cbn [filter].
    destruct (ev_ew e); destruct (f_collectStatistics fl); cbn; rewrite <- ?app_assoc; cbn; repeat split; auto; lia.
Qed.

Lemma fold_min_spec l : forall a, (forall x, In x l -> x <= a) -> l <> [] -> is_minimum (fold_left Rmin l a) l.
Proof.
  assert (Hle : forall l a, fold_left Rmin l a <= a).
  { induction l0; intros a0; simpl; [lra|]. eapply Rle_trans; [apply IHl0|]. apply Rmin_l. }
  assert (Hle2 : forall l a x, In x l -> fold_left Rmin l a <= x).
  { induction l0; intros a0 x; simpl; [tauto|]. intros [->|H]; auto. eapply Rle_trans; [apply Hle|]. apply Rmin_r. }
  induction l as [|y l IH]; intros a Ha Hne; [congruence|]. simpl. rewrite Rmin_right by (apply Ha; left; auto).
  split.
  - clear IH Ha Hne. revert y. induction l as [|z l IH2]; intros y; simpl; auto.
    destruct (Rle_dec y z); [rewrite Rmin_left by lra; destruct (IH2 y) | rewrite Rmin_right by lra; destruct (IH2 z)]; auto.
  - intros x [Hx|Hx]; [rewrite <- Hx; apply Hle | apply Hle2; exact Hx].
Qed.
Lemma fold_max_spec l : forall a, (forall x, In x l -> a <= x) -> l <> [] -> is_maximum (fold_left Rmax l a) l.
Proof.
  assert (Hle : forall l a, a <= fold_left Rmax l a).
  { induction l0; intros a0; simpl; [lra|]. eapply Rle_trans; [|apply IHl0]. apply Rmax_l. }
  assert (Hle2 : forall l a x, In x l -> x <= fold_left Rmax l a).
  { induction l0; intros a0 x; simpl; [tauto|]. intros [->|H]; auto. eapply Rle_trans; [|apply Hle]. apply Rmax_r. }
  induction l as [|y l IH]; intros a Ha Hne; [congruence|]. simpl. rewrite Rmax_right by (apply Ha; left; auto).
  split.
  - clear IH Ha Hne. revert y. induction l as [|z l IH2]; intros y; simpl; auto.
    destruct (Rle_dec y z); [rewrite Rmax_right by lra; destruct (IH2 z) | rewrite Rmax_left by lra; destruct (IH2 y)]; auto.
  - intros x [Hx|Hx]; [rewrite <- Hx; apply Hle | apply Hle2; exact Hx].
Qed.

(** Histories of atoms as event lists. *)
Definition atom_events (sfs : list sf_stat) (a : nat * nat * list R) : list event :=
  map (fun p => (fst a, p)) (combine sfs (snd a)).
Definition history (sfs : list sf_stat) (atoms : list (nat * nat * list R)) : list event :=
  evaluations sfs atoms.

Lemma fold_update_events fl sym iS iA l st :
  fold_left (update_one fl sym iS iA) l st = fold_left (step fl sym) (map (fun p => ((iS, iA), p)) l) st.
Proof. revert st; induction l as [|p l IH]; intros st; cbn; auto. Qed.

Lemma update_one_shift fl sym evs : f_stopOnEW fl = false -> forall n m d,
  match fold_left (step fl sym) evs (Some (n, d)) with
  | Some (k, d') => fold_left (step fl sym) evs (Some ((m + n)%nat, d)) = Some ((m + k)%nat, d')
  | None => False
  end.
Proof.
  intros Hst. induction evs as [|e evs IH]; intros n m d; cbn [fold_left]; auto.
  destruct e as [[iS iA] [sf g]]. unfold step at 2 4. unfold update_one. cbn [fst snd]. rewrite Hst.
  destruct (ew_test (sf_scaling sf) (unscale (sf_scaling sf) g)).
  - rewrite <- Nat.add_assoc. apply IH.
  - apply IH.
Qed.

Lemma update_atoms_events fl sym sfs atoms : f_stopOnEW fl = false ->
  (forall a, In a atoms -> length (snd a) = length sfs) -> forall d,
  update_atoms fl sym sfs d atoms = fold_left (step fl sym) (history sfs atoms) (Some (0%nat, d)).
Proof.
  intros Hst Hlen. unfold update_atoms. generalize 0%nat at 1 2.
  induction atoms as [|a atoms IH]; intros n d; [reflexivity|].
  cbn [fold_left history evaluations flat_map]. rewrite fold_left_app. fold (evaluations sfs atoms). fold (history sfs atoms).
  unfold updateStatistics at 2. rewrite (Hlen a) by (left; auto). rewrite Nat.eqb_refl.
  rewrite fold_update_events. unfold atom_events. destruct a as [[iS iA] G]. cbn [fst snd].
  set (evs := map (fun p => (iS, iA, p)) (combine sfs G)).
  pose proof (update_one_shift fl sym evs Hst 0 n d) as Hsh.
  destruct (fold_left (step fl sym) evs (Some (0%nat, d))) as [[k d']|]; [|tauto].
  rewrite Nat.add_0_r in Hsh. refine (eq_trans (IH _ _ _) _); [intros; apply Hlen; right; auto|].
  f_equal. symmetry. exact Hsh.
Qed.

(** Column [j] of the values seen. *)

Lemma filter_column sfs G b : forall k j, (forall i sf, nth_error sfs i = Some sf -> sf_index sf = (k + i)%nat) ->
  length G = length sfs ->
  map ev_g (filter (ev_at (k + j)) (map (fun p => (b, p)) (combine sfs G)))
   = match nth_error G j with Some g => [g] | None => [] end.
Proof.
  revert G. induction sfs as [|sf sfs IH]; intros [|g G] k j Hidx Hlen; try discriminate; cbn.
  - destruct j; reflexivity.
  - unfold ev_at at 1. unfold ev_sf. cbn [fst snd].
    rewrite (Hidx 0%nat sf eq_refl), Nat.add_0_r.
    destruct j as [|j].
    + rewrite Nat.add_0_r, Nat.eqb_refl. cbn. f_equal.
      assert (Hn : forall l, (forall p, In p l -> (k < sf_index (fst p))%nat) -> filter (ev_at k) (map (fun p : sf_stat * R => (b, p)) l) = []).
      { induction l as [|p l IHl]; intros Hl; cbn; auto. unfold ev_at at 1, ev_sf. cbn [fst snd].
        specialize (Hl p (or_introl eq_refl)) as Hp. destruct (Nat.eqb_spec (sf_index (fst p)) k); [lia|]. apply IHl. intros; apply Hl; right; auto. }
      rewrite Hn; auto. intros [sf' g'] Hin. apply in_combine_l in Hin. apply In_nth_error in Hin. destruct Hin as [i Hi].
      cbn [fst]. rewrite (Hidx (S i) sf' Hi). lia.
    + destruct (Nat.eqb_spec k (k + S j)); [lia|]. replace (k + S j)%nat with (S k + j)%nat by lia.
      cbn [nth_error]. apply IH; [|simpl in Hlen; lia]. intros i sf' Hi. rewrite (Hidx (S i) sf' Hi). lia.
Qed.
Lemma history_column sfs atoms j : (forall i sf, nth_error sfs i = Some sf -> sf_index sf = i) ->
  (forall a, In a atoms -> length (snd a) = length sfs) ->
  map ev_g (filter (ev_at j) (history sfs atoms)) = column j atoms.
Proof.
  intros Hidx Hlen. induction atoms as [|[b G] atoms IH]; [reflexivity|].
  cbn [history evaluations flat_map column]. rewrite filter_app, map_app. f_equal.
  - apply (filter_column sfs G b 0 j); auto. apply (Hlen (b, G)); left; auto.
  - apply IH. intros; apply Hlen; right; auto.
Qed.

Lemma statistics_history fl sym sfs atoms total d :
  f_collectStatistics fl = true -> f_stopOnEW fl = false ->
  (forall i sf, nth_error sfs i = Some sf -> sf_index sf = i) ->
  (forall a, In a atoms -> length (snd a) = length sfs /\ Forall finite_double (snd a)) ->
  update_atoms fl sym sfs [] atoms = Some (total, d) ->
  forall j, let c := sd_get d j in
    statistics_of (column j atoms) (c_count c) (c_min c) (c_max c) (c_sum c) (c_sum2 c).
Proof.
  intros Hs Hst Hidx Hlen Hu j. rewrite update_atoms_events in Hu; auto; [|intros a Ha; apply Hlen; auto].
  destruct (steps_spec fl sym (history sfs atoms) Hst 0 []) as (d' & Hd & Hg). rewrite Hd in Hu. injection Hu as _ ->.
  specialize (Hg j). cbv zeta. rewrite Hg.
  destruct (upd_c_stats fl sym (filter (ev_at j) (history sfs atoms)) Hs (sd_get [] j)) as (H1 & H2 & H3 & H4 & H5).
  rewrite H1, H2, H3, H4, H5. unfold sd_get, mget, container_init. cbn [c_count c_sum c_sum2 c_min c_max].
  assert (Hc : map ev_g (filter (ev_at j) (history sfs atoms)) = column j atoms).
  { apply history_column; auto. intros a Ha; apply Hlen; auto. }
  rewrite Hc. unfold statistics_of. rewrite <- Hc at 1. rewrite map_length. split; [lia|]. split; [lra|]. split.
  { rewrite <- Hc, map_map, Rplus_0_l. reflexivity. }
  intros Hne. assert (Hf : forall x, In x (column j atoms) -> finite_double x).
  { intros x Hx. unfold column in Hx. apply in_flat_map in Hx. destruct Hx as (a & Ha & Hx).
    destruct (nth_error (snd a) j) eqn:E; [|destruct Hx]. destruct Hx as [<-|[]].
    destruct (Hlen a Ha) as [_ Hff]. rewrite Forall_forall in Hff. apply Hff. eapply nth_error_In; eauto. }
  split; [apply fold_min_spec | apply fold_max_spec]; auto; intros x Hx; apply Hf in Hx; unfold finite_double in Hx; lra.
Qed.

Lemma warnings_count fl sym sfs atoms d : f_stopOnEW fl = false ->
  (forall a, In a atoms -> length (snd a) = length sfs) ->
  exists d', update_atoms fl sym sfs d atoms = Some (length (filter ev_ew (history sfs atoms)), d').
Proof.
  intros Hst Hlen. rewrite update_atoms_events; auto.
  destruct (steps_spec fl sym (history sfs atoms) Hst 0 d) as (d' & Hd & _). exists d'. rewrite Hd. reflexivity.
Qed.

Lemma warnings_logged fl sym sfs atoms total d j : f_stopOnEW fl = false -> f_collectEW fl = true ->
  (forall a, In a atoms -> length (snd a) = length sfs) ->
  update_atoms fl sym sfs [] atoms = Some (total, d) ->
  let evs := filter (fun e => (ev_at j e && ev_ew e)%bool) (history sfs atoms) in
  c_countEW (sd_get d j) = length evs /\
  c_valueEW (sd_get d j) = map ev_value evs /\
  c_structureEW (sd_get d j) = map (fun e => fst (fst e)) evs /\
  c_atomEW (sd_get d j) = map (fun e => snd (fst e)) evs.
Proof.
  intros Hst Hew Hlen Hu. rewrite update_atoms_events in Hu; auto.
  destruct (steps_spec fl sym (history sfs atoms) Hst 0 []) as (d' & Hd & Hg). rewrite Hd in Hu. injection Hu as _ ->.
  cbv zeta. rewrite Hg.
  destruct (upd_c_ew fl sym (filter (ev_at j) (history sfs atoms)) Hew (sd_get [] j)) as (H1 & H2 & H3 & H4).
  rewrite H1, H2, H3, H4. cbn [sd_get mget container_init c_countEW c_valueEW c_structureEW c_atomEW app].
  assert (E : filter ev_ew (filter (ev_at j) (history sfs atoms)) = filter (fun e => (ev_at j e && ev_ew e)%bool) (history sfs atoms)).
  { clear. induction (history sfs atoms) as [|e l IH]; [reflexivity|]. cbn [filter].
    destruct (ev_at j e); cbn [andb filter]; [destruct (ev_ew e)|]; rewrite IH; reflexivity. }
  rewrite E. cbn. auto.
Qed.

Lemma stop_on_warning fl sym iS iA d sfs G : f_stopOnEW fl = true -> length G = length sfs ->
  (updateStatistics fl sym iS iA d sfs G = None <->
   exists i sf g, nth_error sfs i = Some sf /\ nth_error G i = Some g /\
     out_of_range (s_Gmin (sf_scaling sf)) (s_Gmax (sf_scaling sf)) (unscale (sf_scaling sf) g)).
Proof.
  intros Hst Hlen. unfold updateStatistics. rewrite Hlen, Nat.eqb_refl.
  assert (Hnone : forall l, fold_left (update_one fl sym iS iA) l None = None) by (induction l; auto).
  generalize 0%nat. revert d G Hlen. induction sfs as [|sf sfs IH]; intros d [|g G] Hlen n; try discriminate; cbn [combine fold_left].
  - split; [discriminate|]. intros ([|i] & sf & g & H & _); discriminate.
  - unfold update_one at 2. destruct (ew_test (sf_scaling sf) (unscale (sf_scaling sf) g)) eqn:E.
    + rewrite Hst, Hnone. split; auto. intros _. exists 0%nat, sf, g. cbn. repeat split. apply ew_test_spec; auto.
    + rewrite IH by (simpl in Hlen; lia). split.
      * intros (i & sf' & g' & H1 & H2 & H3). exists (S i), sf', g'. auto.
      * intros ([|i] & sf' & g' & H1 & H2 & H3).
        -- cbn in H1, H2. injection H1 as <-. injection H2 as <-. apply ew_test_spec in H3. congruence.
        -- exists i, sf', g'. auto.
Qed.

(** ** Reduction over ranks *)
Lemma is_minimum_app m1 l1 m2 l2 : is_minimum m1 l1 -> is_minimum m2 l2 -> is_minimum (Rmin m1 m2) (l1 ++ l2).
Proof.
  intros [I1 L1] [I2 L2]. split.
  - apply in_or_app. unfold Rmin. destruct (Rle_dec m1 m2); auto.
  - intros x Hx. apply in_app_or in Hx. destruct Hx as [Hx|Hx]; [apply L1 in Hx | apply L2 in Hx];
      [pose proof (Rmin_l m1 m2) | pose proof (Rmin_r m1 m2)]; lra.
Qed.
Lemma is_maximum_app m1 l1 m2 l2 : is_maximum m1 l1 -> is_maximum m2 l2 -> is_maximum (Rmax m1 m2) (l1 ++ l2).
Proof.
  intros [I1 L1] [I2 L2]. split.
  - apply in_or_app. unfold Rmax. destruct (Rle_dec m1 m2); auto.
  - intros x Hx. apply in_app_or in Hx. destruct Hx as [Hx|Hx]; [apply L1 in Hx | apply L2 in Hx];
      [pose proof (Rmax_l m1 m2) | pose proof (Rmax_r m1 m2)]; lra.
Qed.

Lemma allreduce_stats_spec ls ranks : Forall2 holds ls ranks ->
  let '(n, mn, mx, s, s2) := allreduce_stats ranks in
  statistics_of (concat ls) n mn mx s s2.
Proof.
  intros H. unfold allreduce_stats.
  enough (G : let n := fold_right (fun c n => (c_count c + n)%nat) 0%nat ranks in
   let mn := fold_right (fun c m => Rmin (c_min c) m) dbl_max ranks in
   let mx := fold_right (fun c m => Rmax (c_max c) m) (- dbl_max) ranks in
   let s := fold_right (fun c s => c_sum c + s) 0 ranks in
   let s2 := fold_right (fun c s => c_sum2 c + s) 0 ranks in
   statistics_of (concat ls) n mn mx s s2 /\ (concat ls = [] -> mn = dbl_max /\ mx = - dbl_max) /\ Forall finite_double (concat ls))
   by exact (proj1 G).
  induction H as [|l c ls ranks Hc _ IH]; cbn [fold_right concat].
  - cbv zeta. split; [|split; auto]. split; [auto|]. split; [auto|]. split; [auto|]. congruence.
  - cbv zeta in *. destruct IH as ((IHn & IHs & IHs2 & IHm) & IHe & IHf).
    destruct Hc as ((Hn & Hs & Hs2 & Hm) & He & Hf).
    assert (Hb : forall m l, is_minimum m l -> Forall finite_double l -> m <= dbl_max).
    { intros m l' [Hi _] Hl. rewrite Forall_forall in Hl. apply Hl in Hi. destruct Hi; auto. }
    assert (Hb' : forall m l, is_maximum m l -> Forall finite_double l -> - dbl_max <= m).
    { intros m l' [Hi _] Hl. rewrite Forall_forall in Hl. apply Hl in Hi. destruct Hi; auto. }
    split; [|split; [|apply Forall_app; auto]].
    + split; [rewrite app_length; lia|]. split; [rewrite rsum_app; lra|]. split; [rewrite map_app, rsum_app; lra|].
      intros Hne. destruct l as [|x l].
      * destruct (He eq_refl) as [-> ->]. cbn [app] in *. destruct (IHm Hne) as [M1 M2].
        rewrite Rmin_right by (eapply Hb; eauto). rewrite Rmax_right by (eapply Hb'; eauto). auto.
      * destruct Hm as [M1 M2]; [discriminate|]. destruct (concat ls) as [|y r].
        -- destruct (IHe eq_refl) as [-> ->]. rewrite app_nil_r.
           rewrite Rmin_left by (eapply Hb; eauto). rewrite Rmax_left by (eapply Hb'; eauto). auto.
        -- destruct IHm as [N1 N2]; [discriminate|]. split; [apply is_minimum_app | apply is_maximum_app]; auto.
    + intros E. apply app_eq_nil in E. destruct E as [E1 E2]. destruct (He E1) as [-> ->]. destruct (IHe E2) as [-> ->].
      split; [apply Rmin_left | apply Rmax_left]; lra.
Qed.

Lemma holds_of_history fl sym sfs atoms total d :
  f_collectStatistics fl = true -> f_stopOnEW fl = false ->
  (forall i sf, nth_error sfs i = Some sf -> sf_index sf = i) ->
  (forall a, In a atoms -> length (snd a) = length sfs /\ Forall finite_double (snd a)) ->
  update_atoms fl sym sfs [] atoms = Some (total, d) ->
  forall j, holds (column j atoms) (sd_get d j).
Proof.
  intros Hs Hst Hidx Hlen Hu j. split; [eapply statistics_history; eauto|]. split.
  - rewrite update_atoms_events in Hu; auto; [|intros a Ha; apply Hlen; auto].
    destruct (steps_spec fl sym (history sfs atoms) Hst 0 []) as (d' & Hd & Hg). rewrite Hd in Hu. injection Hu as _ ->.
    intros Hc. rewrite <- (history_column sfs) in Hc; auto; [|intros a Ha; apply Hlen; auto].
    apply map_eq_nil in Hc. rewrite Hg, Hc. auto.
  - rewrite Forall_forall. intros x Hx. unfold column in Hx. apply in_flat_map in Hx. destruct Hx as (a & Ha & Hx).
    destruct (nth_error (snd a) j) eqn:E; [|destruct Hx]. destruct Hx as [<-|[]].
    destruct (Hlen a Ha) as [_ Hff]. rewrite Forall_forall in Hff. apply Hff. eapply nth_error_In; eauto.
Qed.

(** Sum-of-squares formula = sample variance. *)
Lemma variance_formula l : l <> [] ->
  let n := INR (length l) in let m := file_mean (length l) (rsum l) in
  rsum (map (fun x => x * x) l) - rsum l * rsum l / n = rsum (map (fun x => (x - m) * (x - m)) l).
Proof.
  intros Hl n m. unfold m, file_mean. fold n.
  assert (Hn : n <> 0). { unfold n. apply not_0_INR. destruct l; [congruence|discriminate]. }
  transitivity (rsum (map (fun x => x * x - 2 * (rsum l / n) * x + rsum l / n * (rsum l / n)) l)).
  - rewrite rsum_plus, rsum_minus, rsum_const. fold n. rewrite rsum_scal, map_id. field. auto.
  - apply rsum_ext. intros x _. ring.
Qed.

Lemma file_sigma_spec l : (1 < length l)%nat ->
  let m := file_mean (length l) (rsum l) in
  let sg := file_sigma (length l) (rsum l) (rsum (map (fun x => x * x) l)) in
  0 <= sg /\ sg * sg = rsum (map (fun x => (x - m) * (x - m)) l) / (INR (length l) - 1).
Proof.
  intros Hl m sg. assert (Hne : l <> []) by (intros ->; simpl in Hl; lia).
  assert (Hn : 1 < INR (length l)) by (change 1 with (INR 1); apply lt_INR; auto).
  split; [apply sqrt_pos|]. unfold sg, file_sigma. rewrite (variance_formula l Hne).
  apply sqrt_sqrt. apply Rdiv_le_0_compat; [|lra]. apply rsum_nonneg.
  intros x Hx. apply in_map_iff in Hx. destruct Hx as (y & <- & _). apply Rle_0_sqr.
Qed.

(** Training values stay inside the target range when scaled with the
    statistics gathered from them. *)
Lemma training_in_range l n mn mx s s2 ec i s0 sm Smin Smax sc :
  statistics_of l n mn mx s s2 -> mn < mx -> Smin < Smax ->
  setScalingType ec i s0 ST_SCALE (mkStatLine (ec + 1) (i + 1) mn mx (file_mean n s) sm) Smin Smax = Some sc ->
  forall x, In x l -> Smin <= scale sc x <= Smax /\ ew_test sc (unscale sc (scale sc x)) = false.
Proof.
  intros (_ & _ & _ & Hm) Hlt HS Hsc x Hx.
  assert (Hne : l <> []) by (intros ->; destruct Hx).
  destruct (Hm Hne) as [[_ M1] [_ M2]].
  destruct (scale_range _ _ _ _ _ _ _ Hsc) as (_ & _ & Hr); cbn; auto. cbn in Hr.
  split; [apply Hr; split; auto|].
  pose proof Hsc as Hsc'. apply setScalingType_inv in Hsc'. destruct Hsc' as (Ht & H1 & H2 & _ & H3 & H4 & _). cbn in H1, H2.
  destruct (scale_unscale _ _ _ _ _ _ _ _ Hsc) with (x := x) as [-> _].
  { unfold nondegenerate. rewrite Ht. rewrite H1, H2, H3, H4. lra. }
  destruct (ew_test sc x) eqn:E; auto. apply ew_test_spec in E. rewrite H1, H2 in E. unfold out_of_range in E.
  assert (0 < 1000 / 2 ^ 52) by (apply Rdiv_lt_0_compat; [lra | apply pow_lt; lra]).
  apply M1 in Hx as X1. apply M2 in Hx as X2. lra.
Qed.

(** ** Summary lemmas *)
Lemma selected_filter {A} (P : A -> Prop) (f : A -> bool) l : (forall x, f x = true <-> P x) -> selected P l (filter f l).
Proof.
  intros H. induction l as [|x l IH]; cbn; [constructor|].
  destruct (f x) eqn:E; constructor; auto.
  - apply H; auto.
  - rewrite <- H, E. discriminate.
Qed.
Lemma warned_iff e : ev_ew e = true <-> warned e.
Proof. unfold ev_ew, warned. apply ew_test_spec. Qed.

Lemma warnings_total fl sym sfs atoms d : f_stopOnEW fl = false ->
  (forall a, In a atoms -> length (snd a) = length sfs) ->
  exists d' evs, selected warned (evaluations sfs atoms) evs /\
    update_atoms fl sym sfs d atoms = Some (length evs, d').
Proof.
  intros H1 H2. destruct (warnings_count fl sym sfs atoms d H1 H2) as [d' Hd].
  exists d', (filter ev_ew (history sfs atoms)). split; auto. apply selected_filter, warned_iff.
Qed.
Lemma warnings_log fl sym sfs atoms total d j : f_stopOnEW fl = false -> f_collectEW fl = true ->
  (forall a, In a atoms -> length (snd a) = length sfs) ->
  update_atoms fl sym sfs [] atoms = Some (total, d) ->
  exists evs, selected (fun e => sf_index (fst (snd e)) = j /\ warned e) (evaluations sfs atoms) evs /\
  c_countEW (sd_get d j) = length evs /\
  c_valueEW (sd_get d j) = map raw_value evs /\
  c_structureEW (sd_get d j) = map (fun e => fst (fst e)) evs /\
  c_atomEW (sd_get d j) = map (fun e => snd (fst e)) evs.
Proof.
  intros H1 H2 H3 H4. pose proof (warnings_logged fl sym sfs atoms total d j H1 H2 H3 H4) as H. cbv zeta in H.
  eexists. split; [|exact H]. apply selected_filter. intros x. rewrite andb_true_iff, warned_iff.
  unfold ev_at, ev_sf. rewrite Nat.eqb_eq. tauto.
Qed.
Lemma order_irrelevant l1 l2 n1 n2 a1 a2 b1 b2 s1 s2 q1 q2 : Permutation l1 l2 -> l1 <> [] ->
  statistics_of l1 n1 a1 b1 s1 q1 -> statistics_of l2 n2 a2 b2 s2 q2 ->
  n1 = n2 /\ a1 = a2 /\ b1 = b2 /\ s1 = s2 /\ q1 = q2.
Proof.
  intros Hp Hne (N1 & S1 & Q1 & M1) (N2 & S2 & Q2 & M2).
  assert (Hne2 : l2 <> []) by (intros ->; apply Permutation_sym, Permutation_nil in Hp; auto).
  destruct (M1 Hne) as [[I1 L1] [J1 K1]]. destruct (M2 Hne2) as [[I2 L2] [J2 K2]].
  subst. split; [apply Permutation_length; auto|]. split; [|split; [|split]].
  - apply Rle_antisym; [apply L1, (Permutation_in _ (Permutation_sym Hp)); auto | apply L2, (Permutation_in _ Hp); auto].
  - apply Rle_antisym; [apply K2, (Permutation_in _ Hp); auto | apply K1, (Permutation_in _ (Permutation_sym Hp)); auto].
  - apply rsum_perm; auto.
  - apply rsum_perm, Permutation_map; auto.
Qed.
Lemma training_no_warning l n mn mx s s2 ec i s0 sm Smin Smax sc :
  statistics_of l n mn mx s s2 -> mn < mx -> Smin < Smax ->
  setScalingType ec i s0 ST_SCALE (mkStatLine (ec + 1) (i + 1) mn mx (file_mean n s) sm) Smin Smax = Some sc ->
  forall x, In x l -> Smin <= scale sc x <= Smax /\
    ~ out_of_range (s_Gmin sc) (s_Gmax sc) (unscale sc (scale sc x)).
Proof.
  intros H1 H2 H3 H4 x Hx. destruct (training_in_range _ _ _ _ _ _ _ _ _ _ _ _ _ H1 H2 H3 H4 x Hx) as [Ha Hb].
  split; auto. rewrite <- ew_test_spec, Hb. discriminate.
Qed.
