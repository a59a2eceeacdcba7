(** Symmetry functions and short-range forces do not depend on neighbors beyond
    the cutoff radii: longer lists with stored numbers of neighbors. *)
From Coq Require Import Reals Lra ZArith List Lia Bool Arith.
From Coquelicot Require Import Coquelicot.
From Coq Require Import List.
From Verif Require Import Base.RealBase Base.Loop Base.Vec3 Base.SumR Model.Scaling Model.NeighborList Model.SymFunctions Model.SymSetup Model.Forces
  Spec.NeighborSpec Spec.SymSpec Spec.SetupSpec Spec.ForceSpec.
Import ListNotations.
Local Open Scope R_scope.

Lemma ofold_app {A S} (f : A -> S -> option S) l l' s :
  ofold f (l ++ l') s = match ofold f l s with Some s' => ofold f l' s' | None => None end.
Proof. revert s. induction l as [|a l IH]; intros s; cbn [app ofold]; auto. destruct (f a s); auto. Qed.
Lemma ofold_id {A S} (f : A -> S -> option S) l s : (forall a s, In a l -> f a s = Some s) -> ofold f l s = Some s.
Proof. revert s. induction l as [|a l IH]; intros s H; cbn [ofold]; auto. rewrite H by now left. apply IH. intros; apply H; now right. Qed.
Lemma ofold_ext_in {A S} (f g : A -> S -> option S) l s : (forall a s, In a l -> f a s = g a s) -> ofold f l s = ofold g l s.
Proof.
  revert s. induction l as [|a l IH]; intros s H; cbn [ofold]; auto. rewrite H by now left.
  destruct (g a s); auto. apply IH. intros; apply H; now right.
Qed.
Lemma ofold_bounds {S} (f : nat -> S -> option S) o B K s :
  (forall j s, (o <= j)%nat -> (B <= j < K)%nat \/ (K <= j < B)%nat -> f j s = Some s) ->
  ofold f (seq o (B - o)) s = ofold f (seq o (K - o)) s.
Proof.
  intros H.
  assert (G : forall B K, (B <= K)%nat -> (forall j s, (o <= j)%nat -> (B <= j < K)%nat -> f j s = Some s) ->
     ofold f (seq o (K - o)) s = ofold f (seq o (B - o)) s).
  { clear. intros B K HBK H. replace (K - o)%nat with ((B - o) + (K - o - (B - o)))%nat by lia. rewrite seq_app, ofold_app.
    destruct (ofold f (seq o (B - o)) s) as [s'|]; auto. apply ofold_id. intros a s0 Ha. apply in_seq in Ha. apply H; lia. }
  destruct (Nat.le_ge_cases B K).
  - symmetry. apply G; auto.
  - apply G; auto.
Qed.
Lemma ofold_bounds0 {S} (f : nat -> S -> option S) B K s :
  (forall j s, (B <= j < K)%nat \/ (K <= j < B)%nat -> f j s = Some s) -> ofold f (seq 0 B) s = ofold f (seq 0 K) s.
Proof. intros H. pose proof (ofold_bounds f 0 B K s) as G. rewrite !Nat.sub_0_r in G. apply G. intros; apply H; auto. Qed.
Lemma ofold_inv {A S} (f : A -> S -> option S) (P : S -> Prop) l s s' :
  (forall a s s', In a l -> P s -> f a s = Some s' -> P s') -> P s -> ofold f l s = Some s' -> P s'.
Proof.
  revert s. induction l as [|a l IH]; intros s H Hs E; cbn [ofold] in E.
  - injection E as <-. auto.
  - destruct (f a s) as [s1|] eqn:E1; [|discriminate]. apply (IH s1); auto.
    + intros. eapply H; eauto. now right.
    + eapply H; eauto. now left.
Qed.

Definition rcut (b : body) (rc : R) : Prop :=
  match b with
  | RB b => (forall r, rb_stored b = Some r -> r <= rc) /\ (forall n, rc <= nb_d n -> rb_guard b n = false)
            /\ (forall r n, rb_stored b = Some r -> r <= nb_d n -> rb_guard b n = false)
  | AB b => (forall nj, rc <= nb_d nj -> ab_guardj b nj = false) /\ (forall nj nk, rc <= nb_d nk -> ab_guardk b nj nk = false)
            /\ (forall r nj, ab_stored b = Some r -> r <= nb_d nj -> ab_guardj b nj = false)
            /\ (forall r nj nk, ab_stored b = Some r -> r <= nb_d nk -> ab_guardk b nj nk = false)
  end.
Lemma ltR_false x y : y <= x -> ltR x y = false.
Proof. intros H. unfold ltR. destruct (Rlt_dec x y); auto. lra. Qed.
Lemma body_rcut Z c k rc : cutoff_of k <= rc -> rcut (body_of Z c k) rc.
Proof.
  intros H. destruct k; cbn in *; repeat split; intros;
    repeat match goal with E : Some _ = Some _ |- _ => injection E as <- | E : None = Some _ |- _ => discriminate E end;
    auto; unfold in_shell; rewrite (ltR_false (nb_d _) _) by lra; rewrite ?andb_false_r; auto.
Qed.

(** ** Two atoms with the same first K neighbors *)
Section Same.
Variables (a b : atom) (K : nat) (rc : R).
Hypothesis Ha : good_list a.
Hypothesis Hb : good_list b.
Hypothesis HKa : (K <= length (a_nbs a))%nat.
Hypothesis HKb : (K <= length (a_nbs b))%nat.
Hypothesis Hsame : forall j, (j < K)%nat -> nth_error (a_nbs a) j = nth_error (a_nbs b) j.
Hypothesis Fa : forall j n, (K <= j)%nat -> nth_error (a_nbs a) j = Some n -> rc <= nb_d n.
Hypothesis Fb : forall j n, (K <= j)%nat -> nth_error (a_nbs b) j = Some n -> rc <= nb_d n.

Section One.
Variable x : atom.
Hypothesis Hx : good_list x.
Hypothesis HKx : (K <= length (a_nbs x))%nat.
Hypothesis Fx : forall j n, (K <= j)%nat -> nth_error (a_nbs x) j = Some n -> rc <= nb_d n.
Lemma bound_le o : (bound x o <= length (a_nbs x))%nat.
Proof. destruct Hx as (H1 & _ & H3). destruct o; cbn; [rewrite <- H1; apply H3|lia]. Qed.
Lemma rad_K c bb d s : rcut (RB bb) rc -> ofold (rad_step c bb (a_nbs x) d) (seq 0 (bound x (rb_stored bb))) (0, s) =
  ofold (rad_step c bb (a_nbs x) d) (seq 0 K) (0, s).
Proof.
  intros (R1 & R2 & R3). apply ofold_bounds0. intros j [r st] Hj. unfold rad_step.
  pose proof (bound_le (rb_stored bb)) as HB.
  destruct (nth_error (a_nbs x) j) as [n|] eqn:En; [|apply nth_error_None in En; lia].
  assert (G : rb_guard bb n = false); [|now rewrite G].
  destruct Hj as [Hj|Hj].
  - destruct (rb_stored bb) as [q|] eqn:Eq; cbn in Hj.
    + apply (R3 q n eq_refl). destruct Hx as (_ & _ & H3). apply (proj2 (H3 q) j); auto. lia.
    + destruct Hx as (H1 & _). lia.
  - apply R2. apply (Fx j); auto. lia.
Qed.
Lemma ang_K c bb d s : rcut (AB bb) rc -> (forall e, sf_ci c e = []) ->
  (let numN := bound x (ab_stored bb) in
   let numN := if Nat.eqb numN 0 then 1%nat else numN in
   ofold (ang_outer c bb (a_nbs x) d numN) (seq 0 (numN - 1)) (0, s)) =
  ofold (ang_outer c bb (a_nbs x) d K) (seq 0 (K - 1)) (0, s).
Proof.
  intros (R1 & R2 & R3 & R4) Hci. cbv zeta. pose proof (bound_le (ab_stored bb)) as HB.
  assert (Hst : forall j n, (bound x (ab_stored bb) <= j)%nat -> nth_error (a_nbs x) j = Some n ->
    ab_guardj bb n = false /\ forall nj, ab_guardk bb nj n = false).
  { intros j n Hj En. destruct (ab_stored bb) as [q|] eqn:Eq; cbn in Hj.
    - assert (q <= nb_d n) by (destruct Hx as (_ & _ & H3); apply (proj2 (H3 q) j); auto). split; [eapply R3; eauto|]. intros nj. eapply R4; eauto.
    - destruct Hx as (H1 & _). assert (j < length (a_nbs x))%nat by (apply nth_error_Some; congruence). lia. }
  assert (HK : forall j n, (K <= j)%nat -> nth_error (a_nbs x) j = Some n -> ab_guardj bb n = false /\ forall nj, ab_guardk bb nj n = false).
  { intros j n Hj En. assert (rc <= nb_d n) by (eapply Fx; eauto). auto. }
  set (B := bound x (ab_stored bb)) in *.
  assert (Hin : forall j nj fij o, (o <= length (a_nbs x))%nat -> forall B1 st, (B1 = B \/ B1 = K) -> forall B2, (B2 = B \/ B2 = K) ->
     ofold (ang_step c bb (a_nbs x) d j nj fij) (seq (j + 1) (B1 - (j + 1))) st =
     ofold (ang_step c bb (a_nbs x) d j nj fij) (seq (j + 1) (B2 - (j + 1))) st).
  { intros j nj fij o _ B1 st H1 B2 H2. apply ofold_bounds. intros k [r s0] _ Hk. unfold ang_step.
    destruct (nth_error (a_nbs x) k) as [n|] eqn:En; [|apply nth_error_None in En; lia].
    assert (G : ab_guardk bb nj n = false); [|now rewrite G].
    destruct (Nat.le_gt_cases B k); [apply (Hst k n); auto|]. apply (HK k n); auto. lia. }
  set (B' := if Nat.eqb B 0 then 1%nat else B). assert (HB' : (B' - 1 = B - 1)%nat) by (unfold B'; destruct (Nat.eqb_spec B 0); lia).
  rewrite HB'.
  transitivity (ofold (ang_outer c bb (a_nbs x) d K) (seq 0 (B - 1)) (0, s)).
  - apply ofold_ext_in. intros j [r st] Hj. apply in_seq in Hj. unfold ang_outer. destruct (nth_error (a_nbs x) j) as [n|]; auto.
    destruct (ab_guardj bb n); auto. rewrite Hci. cbn [fetch]. assert (EB : B' = B) by (unfold B'; destruct (Nat.eqb_spec B 0); lia). rewrite EB. apply (Hin _ _ _ 0%nat); auto; lia.
  - apply ofold_bounds0. intros j [r st] Hj. unfold ang_outer.
    destruct (nth_error (a_nbs x) j) as [n|] eqn:En; [|apply nth_error_None in En; lia].
    destruct (ab_guardj bb n) eqn:G; auto. rewrite Hci. cbn [fetch].
    destruct Hj as [Hj|Hj].
    + rewrite (Hin _ _ _ 0%nat ltac:(lia) K _ ltac:(auto) B ltac:(auto)). replace (B - (j + 1))%nat with 0%nat by lia. reflexivity.
    + replace (K - (j + 1))%nat with 0%nat by lia. reflexivity.
Qed.
End One.

Lemma calculate_same Z f d s : no_slots f -> cutoff_of (sf_kind f) <= rc -> calculate Z f a d s = calculate Z f b d s.
Proof.
  intros Hns Hc. unfold calculate. pose proof (body_rcut Z (scalingFactor (sf_scaling (sf_c f))) _ _ Hc) as HR.
  destruct (body_of Z (scalingFactor (sf_scaling (sf_c f))) (sf_kind f)) as [bb|bb].
  - unfold rad_calc. rewrite (rad_K a Ha HKa Fa), (rad_K b Hb HKb Fb) by exact HR.
    rewrite (ofold_ext_in _ (rad_step (sf_c f) bb (a_nbs b) d)); auto. intros j [r st] Hj. apply in_seq in Hj. unfold rad_step.
    now rewrite Hsame by lia.
  - unfold ang_calc. pose proof (ang_K a Ha HKa Fa (sf_c f) bb d s HR Hns) as EA. pose proof (ang_K b Hb HKb Fb (sf_c f) bb d s HR Hns) as EB.
    cbv zeta in EA, EB. cbv zeta. rewrite EA, EB.
    rewrite (ofold_ext_in _ (ang_outer (sf_c f) bb (a_nbs b) d K)); auto. intros j [r st] Hj. apply in_seq in Hj. unfold ang_outer.
    rewrite Hsame by lia. destruct (nth_error (a_nbs b) j) as [n|]; auto. destruct (ab_guardj bb n); auto. rewrite Hns. cbn [fetch].
    apply ofold_ext_in. intros k [r' st'] Hk. apply in_seq in Hk. unfold ang_step. now rewrite Hsame by lia.
Qed.
Lemma calculateAll_same Z fs d : (forall f, In f fs -> no_slots f /\ cutoff_of (sf_kind f) <= rc) -> forall s,
  calculateAll Z fs a d s = calculateAll Z fs b d s.
Proof.
  intros H s. unfold calculateAll. apply ofold_ext_in. intros f s0 Hf. destruct (H f Hf). now apply calculate_same.
Qed.
End Same.

(** ** Derivatives with respect to distant neighbors are not touched *)
Section Untouched.
Variables (a : atom) (rc : R).
Definition untouched (s : store) : Prop := forall j n i, nth_error (a_nbs a) j = Some n -> rc <= nb_d n -> st_D s (LN j i) = vzero.
Lemma untouched_other s : untouched s -> forall l v, (forall j n i, l = LN j i -> nth_error (a_nbs a) j = Some n -> nb_d n < rc) ->
  untouched (dadd l v s) /\ untouched (dsub l v s).
Proof.
  intros H l v Hl. assert (X : forall j n i, nth_error (a_nbs a) j = Some n -> rc <= nb_d n -> loc_eqb (LN j i) l = false).
  { intros j n i En Hd. destruct l as [q|q q']; cbn; auto. destruct (Nat.eqb_spec j q) as [->|]; auto. destruct (Nat.eqb_spec i q') as [->|]; auto.
    pose proof (Hl q n q' eq_refl En). lra. }
  split; intros j n i En Hd; cbn [st_D dadd dsub]; rewrite (X j n i En Hd); eauto.
Qed.
Lemma fetch_D test use fdf j r s fd s' : fetch test use fdf j r s = Some (fd, s') -> st_D s' = st_D s.
Proof.
  unfold fetch. destruct test as [|t test]; [intros [= _ <-]; auto|]. destruct use as [|c0 [|c1 use]]; try discriminate.
  destruct (ltR (st_C s j c0) 0); intros [= _ <-]; auto. destruct (fdf r); reflexivity.
Qed.
Lemma calculate_untouched Z f d s s' : cutoff_of (sf_kind f) <= rc -> untouched s -> calculate Z f a d s = Some s' -> untouched s'.
Proof.
  intros Hc Hs. unfold calculate. pose proof (body_rcut Z (scalingFactor (sf_scaling (sf_c f))) _ _ Hc) as HR.
  assert (LAok : forall i v s0, untouched s0 -> untouched (dadd (LA i) v s0)).
  { intros i v s0 H0. apply untouched_other; auto. intros; discriminate. }
  assert (LNok : forall j n i v s0, untouched s0 -> nth_error (a_nbs a) j = Some n -> ~ rc <= nb_d n -> untouched (dsub (LN j i) v s0)).
  { intros j n i v s0 H0 En Hd. apply untouched_other; auto. intros j' n' i' [= <- <-] En'. rewrite En in En'. injection En' as <-. lra. }
  destruct (body_of Z (scalingFactor (sf_scaling (sf_c f))) (sf_kind f)) as [bb|bb].
  - unfold rad_calc. destruct HR as (R1 & R2 & _). destruct (ofold _ _ _) as [[r s1]|] eqn:E; [|discriminate]. intros [= <-].
    enough (untouched s1) by exact H. change s1 with (snd (r, s1)).
    refine (ofold_inv _ (fun st => untouched (snd st)) _ (0, s) _ _ Hs E).
    intros j [r0 s0] [r2 s2] _ H0. cbn [snd] in *. unfold rad_step. destruct (nth_error (a_nbs a) j) as [n|] eqn:En; [|discriminate].
    destruct (rb_guard bb n) eqn:G; [|intros [= <- <-]; auto]. destruct (fetch _ _ _ _ _ _) as [[fd s3]|] eqn:EF; [|discriminate].
    apply fetch_D in EF. assert (H3 : untouched s3) by (intros q m i; rewrite EF; apply H0).
    destruct d; intros [= <- <-]; auto. apply (LNok j n); auto. intros Hd. rewrite (R2 n Hd) in G. discriminate.
  - unfold ang_calc. destruct HR as (R1 & R2 & _). cbv zeta. set (NN := if Nat.eqb _ 0 then _ else _). clearbody NN.
    destruct (ofold _ _ _) as [[r s1]|] eqn:E; [|discriminate]. intros [= <-].
    enough (untouched s1) by exact H. change s1 with (snd (r, s1)).
    refine (ofold_inv _ (fun st => untouched (snd st)) _ (0, s) _ _ Hs E).
    intros j [r0 s0] [r2 s2] _ H0. cbn [snd] in *. unfold ang_outer. destruct (nth_error (a_nbs a) j) as [n|] eqn:En; [|discriminate].
    destruct (ab_guardj bb n) eqn:G; [|intros [= <- <-]; auto]. destruct (fetch _ _ _ _ _ _) as [[fd s3]|] eqn:EF; [|discriminate].
    apply fetch_D in EF. assert (H3 : untouched s3) by (intros q m i; rewrite EF; apply H0).
    intros E'. change s2 with (snd (r2, s2)). refine (ofold_inv _ (fun st => untouched (snd st)) _ (r0, s3) _ _ H3 E').
    intros k [r4 s4] [r5 s5] _ H4. cbn [snd] in *. unfold ang_step. destruct (nth_error (a_nbs a) k) as [m|] eqn:Em; [|discriminate].
    destruct (ab_guardk bb n m) eqn:G'; [|intros [= <- <-]; auto]. destruct (fetch _ _ _ k _ _) as [[fd' s6]|] eqn:EF'; [|discriminate].
    apply fetch_D in EF'. assert (H6 : untouched s6) by (intros q m' i; rewrite EF'; apply H4).
    destruct (ab_pair bb n m fd fd') as [[v [[p1 p2] p3]]|]; [|intros [= <- <-]; auto].
    destruct d; intros [= <- <-]; auto.
    apply (LNok k m); auto; [|intros Hd; rewrite (R2 n m Hd) in G'; discriminate].
    apply (LNok j n); auto. intros Hd. rewrite (R1 n Hd) in G. discriminate.
Qed.
Lemma calculateAll_untouched Z fs d s : (forall f, In f fs -> cutoff_of (sf_kind f) <= rc) ->
  calculateAll Z fs a d allocated = Some s -> untouched s.
Proof.
  intros H E. refine (ofold_inv _ untouched fs allocated s _ _ E).
  - intros f s0 s1 Hf. apply calculate_untouched. auto.
  - intros j n i _ _. reflexivity.
Qed.
End Untouched.
