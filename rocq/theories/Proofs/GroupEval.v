(** What the loops of the symmetry function groups compute: general part. *)
From Coq Require Import Reals ZArith Lra Lia Bool Arith Permutation.
From Coquelicot Require Import Coquelicot.
From Coq Require Import List.
From Verif Require Import Base.RealBase Base.Vec3 Base.SumR Base.Loop Model.CoreFunction Model.CutoffFunction
  Model.CompactScreening Model.Strings Model.Scaling Model.NeighborList Model.SymFunctions Model.SymSetup Model.SymGroups
  Spec.CompactSpec Spec.SymSpec Spec.GroupSpec Proofs.SymEval Proofs.SymTerms Proofs.SymKinds Proofs.SymKindsAng Proofs.SymGrad
  Proofs.SymAll.
Import ListNotations.
Local Open Scope R_scope.

Definition gready (asg : assignment) (a : atom) (f : symfnc) : Prop :=
  group_slots_ok asg (a_nbs a) f /\ admissible (sf_kind f) /\ evaluable (sf_kind f) (env_of (a_nbs a)).

(** [s'] is [s] plus [E]; values untouched. *)
Definition dadds (s s' : store) (E : loc -> vec) : Prop :=
  (forall i, st_G s' i = st_G s i) /\ (forall x, st_D s' x = vadd (st_D s x) (E x)).
Lemma adds_dadds s s' e : adds s s' e <-> dadds s s' (fun x => ev_at x e).
Proof. reflexivity. Qed.
Lemma dadds_ext s s' E E' : (forall x, E x = E' x) -> dadds s s' E -> dadds s s' E'.
Proof. intros H [G D]. split; auto. intros x. rewrite D, H. auto. Qed.
Lemma dadds_trans s s1 s2 E E' : dadds s s1 E -> dadds s1 s2 E' -> dadds s s2 (fun x => vadd (E x) (E' x)).
Proof.
  intros [G1 D1] [G2 D2]. split; [intros i; rewrite G2; apply G1|]. intros x. rewrite D2, D1. vring.
Qed.
Lemma dadds_zero s s' : (forall i, st_G s' i = st_G s i) -> (forall x, st_D s' x = st_D s x) -> dadds s s' (fun _ => vzero).
Proof. intros HG HD. split; auto. intros x. rewrite HD. vring. Qed.
Lemma dadds_refl s : dadds s s (fun _ => vzero).
Proof. apply dadds_zero; auto. Qed.
Lemma vadd_zero_r x : vadd x vzero = x. Proof. vring. Qed.
Lemma vadd_zero_l x : vadd vzero x = x. Proof. vring. Qed.

Lemma vsum_plus {A} (f g : A -> vec) l : vsum (map (fun a => vadd (f a) (g a)) l) = vadd (vsum (map f l)) (vsum (map g l)).
Proof. induction l; simpl; [vring|]. rewrite IHl. vring. Qed.
Lemma vsum_map_zero {A} (f : A -> vec) l : (forall a, In a l -> f a = vzero) -> vsum (map f l) = vzero.
Proof. intros H. apply vsum_zero. intros x Hx. apply in_map_iff in Hx. destruct Hx as (a & <- & Ha). auto. Qed.
Lemma vsum_ext {A} (f g : A -> vec) l : (forall a, In a l -> f a = g a) -> vsum (map f l) = vsum (map g l).
Proof. intros H. f_equal. apply map_ext_in. auto. Qed.
Lemma vsum_swap {A B} (f : A -> B -> vec) l m :
  vsum (map (fun a => vsum (map (f a) m)) l) = vsum (map (fun b => vsum (map (fun a => f a b) l)) m).
Proof.
  induction l as [|a l IH]; simpl; [symmetry; apply vsum_map_zero; auto|]. rewrite IH, vsum_plus. auto.
Qed.
Lemma ev_at_flat_map {A} x (e : A -> list (loc * vec)) l : ev_at x (flat_map e l) = vsum (map (fun a => ev_at x (e a)) l).
Proof. induction l; simpl; auto. rewrite ev_at_app, IHl. auto. Qed.

(** ** Loops over the members *)
Section Members.
Context {P : Type}.
Definition at_m (ms : list (member P)) (v : member P -> R) (i : nat) : R :=
  match nth_error ms i with Some m => v m | None => 0 end.
Lemma at_m_zero ms i : at_m ms (fun _ => 0) i = 0.
Proof. unfold at_m. destruct (nth_error ms i); auto. Qed.

Variable (S : Type) (res : S -> nat -> R) (sto : S -> store).
Lemma each_eff (f : nat -> member P -> S -> option S) (Inv : nat -> S -> Prop) (v : member P -> R)
      (e : member P -> loc -> vec) ms :
  (forall k m st, nth_error ms k = Some m -> Inv k st -> exists st', f k m st = Some st' /\ Inv (Datatypes.S k) st' /\
     (forall i, res st' i = res st i + if Nat.eqb i k then v m else 0) /\ dadds (sto st) (sto st') (e m)) ->
  forall st, Inv 0%nat st -> exists st', each f ms st = Some st' /\ Inv (length ms) st' /\
     (forall i, res st' i = res st i + at_m ms v i) /\
     dadds (sto st) (sto st') (fun x => vsum (map (fun m => e m x) ms)).
Proof.
  intros H st HI. unfold each.
  assert (X : forall r o st, (forall k m, nth_error r k = Some m -> nth_error ms (o + k) = Some m) ->
    Inv o st -> exists st', ofold (fun lm s => f (fst lm) (snd lm) s) (List.combine (seq o (length r)) r) st = Some st' /\
     Inv (o + length r)%nat st' /\
     (forall i, res st' i = res st i + if Nat.leb o i then at_m r v (i - o) else 0) /\
     dadds (sto st) (sto st') (fun x => vsum (map (fun m => e m x) r))).
  { clear HI st. induction r as [|m r IH]; intros o st Hr HI.
    - exists st. split; [reflexivity|]. split; [rewrite Nat.add_0_r; auto|]. split; [|apply dadds_refl].
      intros i. unfold at_m. destruct (i - o)%nat; simpl; destruct (o <=? i)%nat; ring.
    - destruct (H o m st) as (s1 & E1 & I1 & R1 & D1). { rewrite <- (Hr 0%nat m eq_refl). f_equal. lia. } { auto. }
      destruct (IH (Datatypes.S o) s1) as (s2 & E2 & I2 & R2 & D2).
      { intros k m' Hk. replace (Datatypes.S o + k)%nat with (o + Datatypes.S k)%nat by lia. apply Hr. exact Hk. }
      { exact I1. }
      exists s2. cbn [length seq List.combine ofold fst snd]. rewrite E1. split; [exact E2|].
      split. { replace (o + Datatypes.S (length r))%nat with (Datatypes.S o + length r)%nat by lia. auto. }
      split.
      + intros i. rewrite R2, R1. destruct (Nat.eqb_spec i o) as [->|N].
        * rewrite Nat.leb_refl. replace (o - o)%nat with 0%nat by lia.
          destruct (Nat.leb_spec (Datatypes.S o) o); [lia|]. unfold at_m. simpl. ring.
        * destruct (Nat.leb_spec o i), (Nat.leb_spec (Datatypes.S o) i); try lia; try ring.
          replace (i - o)%nat with (Datatypes.S (i - Datatypes.S o)) by lia. unfold at_m. cbn [nth_error]. ring.
      + eapply dadds_ext; [|eapply dadds_trans; eauto]. intros x. reflexivity. }
  destruct (X ms 0%nat st) as (st' & E & I & R & D); auto.
  exists st'. split; auto. split; auto. split; auto. intros i. rewrite R. rewrite Nat.sub_0_r. reflexivity.
Qed.

(** A loop over neighbours whose body treats all members. *)
Lemma loop_eff (f : nat -> S -> option S) (Inv : S -> Prop) (V : nat -> member P -> R)
      (E : nat -> member P -> loc -> vec) ms l :
  (forall j st, In j l -> Inv st -> exists st', f j st = Some st' /\ Inv st' /\
     (forall i, res st' i = res st i + at_m ms (V j) i) /\
     dadds (sto st) (sto st') (fun x => vsum (map (fun m => E j m x) ms))) ->
  forall st, Inv st -> exists st', ofold f l st = Some st' /\ Inv st' /\
     (forall i, res st' i = res st i + at_m ms (fun m => rsum (map (fun j => V j m) l)) i) /\
     dadds (sto st) (sto st') (fun x => vsum (map (fun m => vsum (map (fun j => E j m x) l)) ms)).
Proof.
  induction l as [|j l IH]; intros H st HI.
  - exists st. split; [reflexivity|]. split; auto. split.
    + intros i. simpl. rewrite at_m_zero. ring.
    + eapply dadds_ext; [|apply dadds_refl]. intros x. symmetry. apply vsum_map_zero. auto.
  - destruct (H j st (or_introl eq_refl) HI) as (s1 & E1 & I1 & R1 & D1).
    destruct (IH ltac:(intros; apply H; simpl; auto) s1 I1) as (s2 & E2 & I2 & R2 & D2).
    exists s2. cbn [ofold]. rewrite E1. split; [exact E2|]. split; auto. split.
    + intros i. rewrite R2, R1. unfold at_m. destruct (nth_error ms i); simpl; ring.
    + eapply dadds_ext; [|eapply dadds_trans; eauto]. intros x. simpl. rewrite <- vsum_plus. reflexivity.
Qed.
End Members.

(** ** The end of calculate *)
Definition of_member {P} (mk : P -> kind) (m : member P) : symfnc := mkSF (m_c m) (mk (m_p m)).

Lemma finish_eff {P} (mk : P -> kind) (final : member P -> R -> option R) Z a (ms : list (member P)) asg nbs res s :
  (forall i m, nth_error ms i = Some m ->
     final m (res i) = Some (sf_value Z (mk (m_p m)) (env_of (a_nbs a)))) ->
  coherent asg nbs s ->
  exists s', finish final ms (res, s) = Some s' /\ coherent asg nbs s' /\
    (forall i, st_G s' i = put_values Z a (map (of_member mk) ms) (st_G s) i) /\
    (forall x, st_D s' x = st_D s x).
Proof.
  unfold finish, each. intros H Hc.
  assert (X : forall r o s, coherent asg nbs s ->
    (forall k m, nth_error r k = Some m -> nth_error ms (o + k) = Some m) ->
    exists s', ofold (fun lm s => match final (snd lm) (res (fst lm)) with
        | None => None
        | Some v => Some (set_G (sf_index (m_c (snd lm))) (scale (sf_scaling (m_c (snd lm))) v) s)
        end) (List.combine (seq o (length r)) r) s = Some s' /\ coherent asg nbs s' /\
    (forall i, st_G s' i = put_values Z a (map (of_member mk) r) (st_G s) i) /\ (forall x, st_D s' x = st_D s x)).
  { induction r as [|m r IH]; intros o s0 C0 Hr.
    - exists s0. split; [reflexivity|]. split; auto.
    - cbn [length seq List.combine ofold fst snd].
      assert (Hm : nth_error ms o = Some m). { rewrite <- (Hr 0%nat m eq_refl). f_equal. lia. }
      rewrite (H o m Hm).
      set (s1 := set_G (sf_index (m_c m)) (scale (sf_scaling (m_c m)) (sf_value Z (mk (m_p m)) (env_of (a_nbs a)))) s0).
      destruct (IH (S o) s1) as (s2 & E2 & C2 & G2 & D2). { exact C0. }
      { intros k m' Hk. replace (S o + k)%nat with (o + S k)%nat by lia. apply Hr. exact Hk. }
      exists s2. split; [exact E2|]. split; [exact C2|]. split; [exact G2|exact D2]. }
  apply X; auto.
Qed.

(** ** Stored derivatives *)
Lemma put_radial_adds c j n p1 s : dadds s (put_radial c j n p1 s) (fun x => ev_at x
  [(LA (sf_index c), smul p1 (nb_dr n)); (LN j (sf_perElement c (nb_element n)), vopp (smul p1 (nb_dr n)))]).
Proof.
  unfold put_radial. cbv zeta. rewrite <- adds_dadds.
  match goal with |- adds _ _ [?x; ?y] => change [x; y] with ([x] ++ [y]) end.
  eapply adds_trans; [apply adds_dadd|apply adds_dsub].
Qed.
Definition pair_events (c : sf_common) (j k : nat) (nj nk : neighbor) (p1 p2 p3 : R) : list (loc * vec) :=
  let drij := smul p1 (nb_dr nj) in
  let drik := smul p2 (nb_dr nk) in
  let drjk := smul p3 (vsub (nb_dr nk) (nb_dr nj)) in
  [(LA (sf_index c), vadd drij drik);
   (LN j (sf_perElement c (nb_element nj)), vopp (vadd drij drjk));
   (LN k (sf_perElement c (nb_element nk)), vopp (vsub drik drjk))].
Lemma put_pair_adds c j k nj nk p1 p2 p3 s : dadds s (put_pair c j k nj nk p1 p2 p3 s)
  (fun x => ev_at x (pair_events c j k nj nk p1 p2 p3)).
Proof.
  rewrite <- adds_dadds. unfold put_pair, pair_events. cbv zeta.
  match goal with |- adds _ _ [?x; ?y; ?z] => change [x; y; z] with ([x] ++ [y] ++ [z]) end.
  eapply adds_trans; [apply adds_dadd|]. eapply adds_trans; [apply adds_dsub|apply adds_dsub].
Qed.
Lemma ev_zero x (e : list (loc * vec)) : (forall y v, In (y, v) e -> v = vzero) -> ev_at x e = vzero.
Proof.
  induction e as [|[y v] e IH]; intros H; [reflexivity|]. rewrite ev_at_cons, IH by (intros; eapply H; right; eauto).
  rewrite (H y v) by (left; auto). destruct (loc_eqb x y); vring.
Qed.
Lemma pair_events_zero x c j k nj nk : ev_at x (pair_events c j k nj nk 0 0 0) = vzero.
Proof. apply ev_zero. intros y v [E|[E|[E|[]]]]; injection E as <- <-; vring. Qed.
Lemma coherent_put_pair asg nbs c j k nj nk p1 p2 p3 s : coherent asg nbs s ->
  coherent asg nbs (put_pair c j k nj nk p1 p2 p3 s).
Proof. intros H; exact H. Qed.
Lemma coherent_put_radial asg nbs c j n p1 s : coherent asg nbs s -> coherent asg nbs (put_radial c j n p1 s).
Proof. intros H; exact H. Qed.

(** ** What a group has to achieve *)
(** The same as its functions one by one. *)
Definition group_effect (Z : nat -> R) (asg : assignment) (a : atom) (fs : list symfnc) (deriv : bool)
           (g : store -> option store) : Prop :=
  forall s, coherent asg (a_nbs a) s -> exists s', g s = Some s' /\ coherent asg (a_nbs a) s' /\
    (forall i, st_G s' i = put_values Z a fs (st_G s) i) /\
    forall x, st_D s' x = vadd (st_D s x) (if deriv then vsum (map (fun f => ev_at x (contributions Z f a)) fs) else vzero).

Lemma each_ext {P S} (f g : nat -> member P -> S -> option S) ms s :
  (forall l m s, f l m s = g l m s) -> each f ms s = each g ms s.
Proof.
  intros H. unfold each. generalize (List.combine (seq 0 (length ms)) ms). intros l. revert s.
  induction l as [|[i m] l IH]; intros s; auto. cbn [ofold fst snd]. rewrite H. destruct (g i m s); auto.
Qed.
Lemma group_effect_ext Z asg a fs deriv g g' : (forall s, g s = g' s) -> group_effect Z asg a fs deriv g ->
  group_effect Z asg a fs deriv g'.
Proof. intros E H s Hc. rewrite <- E. apply H. exact Hc. Qed.
