(** Evaluation of symmetry functions: what the loops compute. *)
From Coq Require Import Reals ZArith List Bool Arith Lra Lia.
From Verif Require Import Base.Vec3 Base.SumR Base.Loop Model.CoreFunction Model.CutoffFunction
  Model.CompactScreening Model.Strings Model.Scaling Model.NeighborList Model.SymFunctions
  Spec.CompactSpec Spec.SymSpec.
Import ListNotations.
Local Open Scope R_scope.

Lemma ltR_true x y : ltR x y = true <-> x < y.
Proof. unfold ltR. destruct (Rlt_dec x y); split; intros; auto; discriminate || contradiction. Qed.
Lemma ltR_false x y : ltR x y = false <-> y <= x.
Proof. unfold ltR. destruct (Rlt_dec x y); split; intros; auto; try discriminate; lra. Qed.
Lemma leR_true x y : leR x y = true <-> x <= y.
Proof. unfold leR. destruct (Rle_dec x y); split; intros; auto; discriminate || contradiction. Qed.
Lemma leR_false x y : leR x y = false <-> y < x.
Proof. unfold leR. destruct (Rle_dec x y); split; intros; auto; try discriminate; lra. Qed.

Lemma loc_eqb_refl l : loc_eqb l l = true.
Proof. destruct l; simpl; rewrite ?Nat.eqb_refl; auto. Qed.
Lemma loc_eqb_eq a b : loc_eqb a b = true <-> a = b.
Proof.
  destruct a, b; simpl; split; intros H; try discriminate; try (injection H as ->); try (injection H as -> ->);
  rewrite ?andb_true_iff, ?Nat.eqb_eq in *; intuition congruence.
Qed.
Lemma loc_eqb_sym a b : loc_eqb a b = loc_eqb b a.
Proof. destruct a, b; simpl; auto; rewrite ?(Nat.eqb_sym i), ?(Nat.eqb_sym j); auto. Qed.

(** ** Sums of vectors *)
Fixpoint vsum (l : list vec) : vec := match l with [] => vzero | x :: r => vadd x (vsum r) end.
Lemma vsum_app l m : vsum (l ++ m) = vadd (vsum l) (vsum m).
Proof. induction l; simpl; [vring|]. rewrite IHl. vring. Qed.
Lemma vsum_zero l : (forall x, In x l -> x = vzero) -> vsum l = vzero.
Proof. induction l; simpl; intros H; auto. rewrite (H a) by auto. rewrite IHl by auto. vring. Qed.
Lemma dot_vsum_l l u : dot (vsum l) u = rsum (map (fun x => dot x u) l).
Proof. induction l; simpl. { unfold dot; simpl; ring. } rewrite dot_vadd_l, IHl. ring. Qed.

(** Contributions at a location. *)
Definition ev_at (l : loc) (evs : list (loc * vec)) : vec :=
  vsum (map (fun e => if loc_eqb l (fst e) then snd e else vzero) evs).
Lemma ev_at_app l a b : ev_at l (a ++ b) = vadd (ev_at l a) (ev_at l b).
Proof. unfold ev_at. now rewrite map_app, vsum_app. Qed.
Lemma ev_at_nil l : ev_at l [] = vzero. Proof. reflexivity. Qed.
Lemma ev_at_cons l x v r : ev_at l ((x, v) :: r) = vadd (if loc_eqb l x then v else vzero) (ev_at l r).
Proof. reflexivity. Qed.

(** [s'] is [s] plus the events; values untouched. *)
Definition adds (s s' : store) (evs : list (loc * vec)) : Prop :=
  (forall i, st_G s' i = st_G s i) /\ (forall l, st_D s' l = vadd (st_D s l) (ev_at l evs)).
Lemma adds_refl s s' : (forall i, st_G s' i = st_G s i) -> (forall l, st_D s' l = st_D s l) -> adds s s' [].
Proof. intros HG HD. split; auto. intros l. rewrite HD. unfold ev_at; simpl. vring. Qed.
Lemma adds_trans s s1 s2 a b : adds s s1 a -> adds s1 s2 b -> adds s s2 (a ++ b).
Proof.
  intros [G1 D1] [G2 D2]. split.
  - intros i. rewrite G2. apply G1.
  - intros l. rewrite D2, D1, ev_at_app. vring.
Qed.
Lemma adds_dadd s l v : adds s (dadd l v s) [(l, v)].
Proof.
  split; auto. intros l'. unfold dadd; simpl. rewrite ev_at_cons, ev_at_nil.
  destruct (loc_eqb l' l); vring.
Qed.
Lemma adds_dsub s l v : adds s (dsub l v s) [(l, vopp v)].
Proof.
  split; auto. intros l'. unfold dsub; simpl. rewrite ev_at_cons, ev_at_nil.
  destruct (loc_eqb l' l); vring.
Qed.

Lemma ofold_eff {A} (Inv : store -> Prop) (f : A -> R * store -> option (R * store)) (v : A -> R)
      (e : A -> list (loc * vec)) l :
  (forall i, In i l -> forall r s, Inv s -> exists s', f i (r, s) = Some (r + v i, s') /\ Inv s' /\ adds s s' (e i)) ->
  forall r s, Inv s -> exists s', ofold f l (r, s) = Some (r + rsum (map v l), s') /\ Inv s' /\ adds s s' (flat_map e l).
Proof.
  induction l as [|i l IH]; intros H r s HI.
  - exists s. simpl. rewrite Rplus_0_r. repeat split; auto. intros x. unfold ev_at; simpl; vring.
  - destruct (H i (or_introl eq_refl) r s HI) as (s1 & E1 & I1 & A1).
    destruct (IH ltac:(intros; apply H; simpl; auto) (r + v i) s1 I1) as (s2 & E2 & I2 & A2).
    exists s2. cbn [ofold]. rewrite E1, E2. split; [do 2 f_equal; simpl; ring|]. split; auto.
    simpl. eapply adds_trans; eauto.
Qed.

(** ** The cache *)
Section Cache.
Variables (asg : assignment) (nbs : list neighbor).
Hypothesis Hcons : consistent asg.

Lemma fetch_ok test use F j n s :
  nth_error nbs j = Some n -> coherent asg nbs s ->
  (test <> [] -> exists c0 c1 r, use = c0 :: c1 :: r /\ asg (nb_element n) c0 c1 F) ->
  exists s', fetch test use F j (nb_d n) s = Some (F (nb_d n), s') /\ coherent asg nbs s' /\ adds s s' [].
Proof.
  intros Hn Hc Hu. unfold fetch. destruct test as [|t0 test].
  - exists s. split; auto. split; auto. apply adds_refl; auto.
  - destruct (Hu ltac:(discriminate)) as (c0 & c1 & r & -> & Ha).
    destruct (Hcons _ _ _ _ _ _ _ Ha Ha) as (Hne & _).
    destruct (ltR (st_C s j c0) 0) eqn:E.
    + destruct (F (nb_d n)) as [f df] eqn:EF.
      set (s' := set_C j c1 df (set_C j c0 f s)).
      assert (V0 : st_C s' j c0 = f).
      { unfold s', set_C; simpl. rewrite upd_same, upd_other, upd_same by auto. now rewrite upd_same. }
      assert (V1 : st_C s' j c1 = df).
      { unfold s', set_C; simpl. now rewrite !upd_same. }
      exists s'. rewrite V0, V1. split; auto. split; [|apply adds_refl; auto].
      intros j' n' d0 d1 H Hn' Ha'. destruct (Nat.eq_dec j' j) as [->|Hj].
      * rewrite Hn in Hn'. injection Hn' as <-.
        destruct (Hcons _ _ _ _ _ _ _ Ha Ha') as (_ & [(<- & <- & HF) | (N1 & N2 & N3 & N4)]).
        -- right. rewrite V0, V1, <- HF, EF. auto.
        -- assert (forall d, d <> c0 -> d <> c1 -> st_C s' j d = st_C s j d).
           { intros d X Y. unfold s', set_C; simpl. now rewrite !upd_same, !upd_other by auto. }
           rewrite !H0 by auto. eapply Hc; eauto.
      * assert (X : forall d, st_C s' j' d = st_C s j' d).
        { intros d. unfold s', set_C; simpl. now rewrite !upd_other by auto. }
        rewrite !X. eapply Hc; eauto.
    + exists s. apply ltR_false in E. destruct (Hc j n c0 c1 F Hn Ha) as [|E']; [lra|].
      split; [rewrite E'; auto|]. split; auto. apply adds_refl; auto.
Qed.

(** ** Radial loop *)
Section Radial.
Variables (c : sf_common) (b : rad_body) (derivatives : bool).
Hypothesis Hslots : forall n, rb_guard b n = true -> sf_ci c (nb_element n) <> [] ->
  exists c0 c1 r, sf_ci c (nb_element n) = c0 :: c1 :: r /\ asg (nb_element n) c0 c1 (rb_fdf b).

Definition rval (n : neighbor) : R := if rb_guard b n then rb_val b n (rb_fdf b (nb_d n)) else 0.
Definition rp1 (n : neighbor) : R := rb_p1 b n (rb_fdf b (nb_d n)).
Definition rev_ (j : nat) (n : neighbor) : list (loc * vec) :=
  if (rb_guard b n && derivatives)%bool then
    let dij := smul (rp1 n) (nb_dr n) in
    [(LA (sf_index c), dij); (LN j (sf_perElement c (nb_element n)), vopp dij)]
  else [].
Definition at_nb {B} (d : B) (f : neighbor -> B) (j : nat) : B :=
  match nth_error nbs j with Some n => f n | None => d end.

Lemma rad_step_ok j r s : (j < length nbs)%nat -> coherent asg nbs s ->
  exists s', rad_step c b nbs derivatives j (r, s) = Some (r + at_nb 0 rval j, s') /\
    coherent asg nbs s' /\ adds s s' (at_nb [] (rev_ j) j).
Proof.
  intros Hj Hc. unfold rad_step, at_nb. destruct (nth_error nbs j) as [n|] eqn:En.
  2:{ apply nth_error_None in En. lia. }
  unfold rval, rev_. destruct (rb_guard b n) eqn:G; cbn [andb].
  - destruct (fetch_ok (sf_ci c (nb_element n)) (sf_ci c (nb_element n)) (rb_fdf b) j n s En Hc (Hslots n G))
      as (s1 & -> & C1 & A1).
    destruct derivatives; [|exists s1; auto].
    eexists. split; [reflexivity|]. split; [exact C1|].
    change [(LA (sf_index c), smul (rp1 n) (nb_dr n));
      (LN j (sf_perElement c (nb_element n)), vopp (smul (rp1 n) (nb_dr n)))] with
      ([] ++ [(LA (sf_index c), smul (rp1 n) (nb_dr n))] ++
       [(LN j (sf_perElement c (nb_element n)), vopp (smul (rp1 n) (nb_dr n)))]).
    eapply adds_trans; [exact A1|]. eapply adds_trans; [apply adds_dadd|apply adds_dsub].
  - exists s. rewrite Rplus_0_r. split; auto. split; auto. apply adds_refl; auto.
Qed.

Lemma rad_calc_ok a s : a_nbs a = nbs -> (bound a (rb_stored b) <= length nbs)%nat -> coherent asg nbs s ->
  let N := bound a (rb_stored b) in
  exists s', rad_calc c b a derivatives s = Some (set_G (sf_index c)
      (scale (sf_scaling c) (rsum (map (at_nb 0 rval) (seq 0 N)))) s') /\
    coherent asg nbs s' /\ adds s s' (flat_map (fun j => at_nb [] (rev_ j) j) (seq 0 N)).
Proof.
  intros Ea Hb Hc N. unfold rad_calc. rewrite Ea.
  destruct (ofold_eff (coherent asg nbs) (rad_step c b nbs derivatives) (at_nb 0 rval) (fun j => at_nb [] (rev_ j) j)
             (seq 0 N)) with (r := 0) (s := s) as (s' & E & C' & A'); auto.
  { intros j Hj r0 s0 H0. apply rad_step_ok; auto. apply in_seq in Hj. lia. }
  exists s'. fold N. rewrite E, Rplus_0_l. auto.
Qed.
End Radial.

(** ** Angular loop *)
Section Angular.
Variables (c : sf_common) (b : ang_body) (derivatives : bool).
Hypothesis Hslotj : forall n, ab_guardj b n = true -> sf_ci c (nb_element n) <> [] ->
  exists c0 c1 r, sf_ci c (nb_element n) = c0 :: c1 :: r /\ asg (nb_element n) c0 c1 (ab_fdf b).
Hypothesis Hslotk : forall nj nk, In nj nbs -> In nk nbs -> ab_guardj b nj = true -> ab_guardk b nj nk = true ->
  sf_ci c (if ab_test_j b then nb_element nj else nb_element nk) <> [] ->
  exists c0 c1 r, sf_ci c (nb_element nk) = c0 :: c1 :: r /\ asg (nb_element nk) c0 c1 (ab_fdf b).

Definition apair (nj nk : neighbor) : option (R * (R * R * R)) :=
  if (ab_guardj b nj && ab_guardk b nj nk)%bool
  then ab_pair b nj nk (ab_fdf b (nb_d nj)) (ab_fdf b (nb_d nk)) else None.
Definition aval (nj nk : neighbor) : R := match apair nj nk with Some (v, _) => v | None => 0 end.
Definition aev (j k : nat) (nj nk : neighbor) : list (loc * vec) :=
  match apair nj nk with
  | Some (_, (p1, p2, p3)) =>
    if derivatives then
      let drij := smul p1 (nb_dr nj) in
      let drik := smul p2 (nb_dr nk) in
      let drjk := smul p3 (vsub (nb_dr nk) (nb_dr nj)) in
      [(LA (sf_index c), vadd drij drik);
       (LN j (sf_perElement c (nb_element nj)), vopp (vadd drij drjk));
       (LN k (sf_perElement c (nb_element nk)), vopp (vsub drik drjk))]
    else []
  | None => []
  end.

Lemma ang_step_ok j nj k r s : In nj nbs -> ab_guardj b nj = true -> (k < length nbs)%nat -> coherent asg nbs s ->
  exists s', ang_step c b nbs derivatives j nj (ab_fdf b (nb_d nj)) k (r, s) = Some (r + at_nb 0 (aval nj) k, s') /\
    coherent asg nbs s' /\ adds s s' (at_nb [] (aev j k nj) k).
Proof.
  intros Ij Gj Hk Hc. unfold ang_step, at_nb. destruct (nth_error nbs k) as [nk|] eqn:En.
  2:{ apply nth_error_None in En. lia. }
  unfold aval, aev, apair. rewrite Gj; cbn [andb].
  destruct (ab_guardk b nj nk) eqn:G.
  - destruct (fetch_ok (sf_ci c (if ab_test_j b then nb_element nj else nb_element nk))
        (sf_ci c (nb_element nk)) (ab_fdf b) k nk s En Hc (Hslotk nj nk Ij (nth_error_In _ _ En) Gj G)) as (s1 & -> & C1 & A1).
    destruct (ab_pair b nj nk _ _) as [[v [[p1 p2] p3]]|] eqn:EP.
    + destruct derivatives; [|exists s1; auto].
      eexists. split; [reflexivity|]. split; [exact C1|].
      match goal with |- adds _ _ [?x; ?y; ?z] => change [x; y; z] with ([] ++ [x] ++ [y] ++ [z]) end.
      eapply adds_trans; [exact A1|]. eapply adds_trans; [apply adds_dadd|].
      eapply adds_trans; [apply adds_dsub|apply adds_dsub].
    + exists s1. rewrite Rplus_0_r. auto.
  - exists s. rewrite Rplus_0_r. split; auto. split; auto. apply adds_refl; auto.
Qed.

Definition arow (N j : nat) (nj : neighbor) : R := rsum (map (at_nb 0 (aval nj)) (seq (j + 1) (N - (j + 1)))).
Definition aevrow (N j : nat) (nj : neighbor) : list (loc * vec) :=
  flat_map (fun k => at_nb [] (aev j k nj) k) (seq (j + 1) (N - (j + 1))).

Lemma ang_outer_ok N j r s : (j < length nbs)%nat -> (N <= length nbs)%nat -> coherent asg nbs s ->
  exists s', ang_outer c b nbs derivatives N j (r, s) = Some (r + at_nb 0 (arow N j) j, s') /\
    coherent asg nbs s' /\ adds s s' (at_nb [] (aevrow N j) j).
Proof.
  intros Hj HN Hc. unfold ang_outer, at_nb. destruct (nth_error nbs j) as [nj|] eqn:En.
  2:{ apply nth_error_None in En. lia. }
  destruct (ab_guardj b nj) eqn:G.
  - destruct (fetch_ok (sf_ci c (nb_element nj)) (sf_ci c (nb_element nj)) (ab_fdf b) j nj s En Hc (Hslotj nj G))
      as (s1 & -> & C1 & A1).
    destruct (ofold_eff (coherent asg nbs) (ang_step c b nbs derivatives j nj (ab_fdf b (nb_d nj)))
       (at_nb 0 (aval nj)) (fun k => at_nb [] (aev j k nj) k) (seq (j+1) (N - (j+1)))) with (r := r) (s := s1)
      as (s2 & E2 & C2 & A2); auto.
    { intros k Hk r0 s0 H0. apply ang_step_ok; auto; [eapply nth_error_In; eauto|]. apply in_seq in Hk. lia. }
    exists s2. split; [exact E2|]. split; auto.
    apply (adds_trans _ _ _ [] _ A1 A2).
  - assert (V : arow N j nj = 0).
    { apply rsum_zero. intros k _. unfold at_nb, aval, apair. rewrite G; cbn. destruct (nth_error nbs k); auto. }
    assert (E : aevrow N j nj = []).
    { unfold aevrow. induction (seq (j + 1) (N - (j + 1))); simpl; auto. rewrite IHl.
      unfold at_nb, aev, apair. rewrite G; cbn. destruct (nth_error nbs a); auto. }
    rewrite V, E, Rplus_0_r. exists s. split; auto. split; auto. apply adds_refl; auto.
Qed.

Lemma ang_calc_ok a s : a_nbs a = nbs -> (bound a (ab_stored b) <= length nbs)%nat -> coherent asg nbs s ->
  let N := bound a (ab_stored b) in
  exists s', ang_calc c b a derivatives s = Some (set_G (sf_index c)
      (scale (sf_scaling c) (rsum (map (fun j => at_nb 0 (arow N j) j) (seq 0 (N - 1))) * ab_norm b)) s') /\
    coherent asg nbs s' /\ adds s s' (flat_map (fun j => at_nb [] (aevrow N j) j) (seq 0 (N - 1))).
Proof.
  intros Ea Hb Hc N. unfold ang_calc. rewrite Ea. fold N. fold N in Hb.
  destruct (Nat.eqb_spec N 0) as [E0|E0].
  - rewrite E0. simpl. exists s. split; [reflexivity|]. split; auto. apply adds_refl; auto.
  - destruct (ofold_eff (coherent asg nbs) (ang_outer c b nbs derivatives N) (fun j => at_nb 0 (arow N j) j)
       (fun j => at_nb [] (aevrow N j) j) (seq 0 (N - 1))) with (r := 0) (s := s) as (s' & E & C' & A'); auto.
    { intros j Hj r0 s0 H0. apply ang_outer_ok; auto. apply in_seq in Hj. lia. }
    exists s'. rewrite E, Rplus_0_l. auto.
Qed.
End Angular.
End Cache.
