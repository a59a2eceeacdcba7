(** C29 for functions without and with cache slots, concrete cases and cases in
    which group evaluation differs from individual evaluation. *)
From Coq Require Import Reals Lra Lia ZArith Bool Arith Permutation.
From Coquelicot Require Import Coquelicot.
From Coq Require Import List.
From Verif Require Import Base.Vec3 Base.SumR Base.Loop Model.CoreFunction Model.CutoffFunction Model.CompactScreening
  Model.Strings Model.Scaling Model.NeighborList Model.SymFunctions Model.SymCache Model.SymSetup Model.SymGroups
  Spec.CompactSpec Spec.SymSpec Spec.GroupSpec Proofs.CutoffProofs Proofs.CompactProofs Proofs.SymEval Proofs.SymGrad
  Proofs.CacheProofs Proofs.SymAll Proofs.SymInv Proofs.SymApi Proofs.SymExamples Proofs.GroupEval Proofs.GroupAll.
From Verif Require Proofs.LammpsCompute.
Import ListNotations.
Local Open Scope R_scope.

Lemma uncached_result Z a sc fs : good_list a ->
  (forall f, In f fs -> no_slots f /\ admissible (sf_kind f) /\ evaluable (sf_kind f) (env_of (a_nbs a))) ->
  forall deriv s, exists s1, calculateAll Z (map (set_scaling sc) fs) a deriv s = Some s1 /\
    (forall i, st_G s1 i = put_values Z a (map (set_scaling sc) fs) (st_G s) i) /\
    (forall x, st_D s1 x = vadd (st_D s x)
       (if deriv then vsum (map (fun f => ev_at x (contributions Z f a)) (map (set_scaling sc) fs)) else vzero)).
Proof.
  intros Hg Hf deriv s.
  destruct (calculateAll_effect Z no_assignment a (map (set_scaling sc) fs)) with (deriv := deriv) (s := s)
    as (t2 & X2 & _ & G2 & D2); auto.
  { apply no_assignment_consistent. }
  { intros f' H'. apply in_map_iff in H'. destruct H' as (h & <- & H').
    destruct (Hf h H') as (A & B & C). split; [apply no_slots_ok; exact A|]. split; auto. }
  { apply no_coherent. }
  exists t2. auto.
Qed.
Lemma no_group_slots nbs f : no_slots f -> group_slots_ok no_assignment nbs f.
Proof.
  intros H. destruct (no_slots_ok nbs f H) as (A & B). split; auto. unfold group_both_cached. destruct (sf_kind f); auto.
Qed.
Lemma groups_uncached Z a sc gsort msort fs :
  (forall l, Permutation l (gsort l)) -> (forall l, Permutation l (msort l)) ->
  good_list a -> NoDup (map (fun f => sf_index (sf_c f)) fs) ->
  (forall f, In f fs -> no_slots f /\ admissible (sf_kind f) /\ evaluable (sf_kind f) (env_of (a_nbs a)) /\
     groupable_parameters (scalingFactor (sc (sf_index (sf_c f)))) (sf_kind f) /\
     distinct_neighbors (sf_kind f) (env_of (a_nbs a))) ->
  (forall f h, In f fs -> In h fs -> same_radial_part (sf_kind f) (sf_kind h)) ->
  exists gs, setupSymmetryFunctionGroups gsort msort fs = Some gs /\
    forall deriv s, exists s1 s2,
      calculateAll Z (map (set_scaling sc) fs) a deriv s = Some s1 /\
      calculateGroups Z a deriv (map (set_group_scaling sc) gs) s = Some s2 /\
      (forall i, st_G s2 i = st_G s1 i) /\ (forall x, st_D s2 x = st_D s1 x).
Proof.
  intros Hgs Hms Hg Hn Hf Hr.
  assert (P := fun deriv => groups_result Z no_assignment a deriv sc gsort msort fs no_assignment_consistent Hg Hgs Hms Hn).
  assert (R0 : forall f, In f fs -> gready no_assignment a f /\
     groupable_parameters (scalingFactor (sc (sf_index (sf_c f)))) (sf_kind f) /\
     distinct_neighbors (sf_kind f) (env_of (a_nbs a))).
  { intros f Hi. destruct (Hf f Hi) as (A & B & C & D). split; [|exact D]. split; [now apply no_group_slots|]. split; auto. }
  destruct (P true R0 Hr) as (gs & E & _). exists gs. split; auto. intros deriv s.
  destruct (P deriv R0 Hr) as (gs' & E' & Q). rewrite E in E'. injection E' as <-.
  destruct (Q s (no_coherent _ _)) as (s2 & E2 & G2 & D2).
  destruct (uncached_result Z a sc fs Hg) with (deriv := deriv) (s := s) as (s1 & E1 & G1 & D1).
  { intros f Hi. destruct (Hf f Hi) as (A & B & C & _). split; auto. }
  exists s1, s2. split; auto. split; auto. split; intros x; [now rewrite G1, G2|now rewrite D1, D2].
Qed.

Lemma groups_cached {T} (T_dec : forall a b : T, {a = b} + {a <> b}) (fmt : R -> T) conv Z numElements a sc gsort msort fs fs' sizes :
  (forall l, Permutation l (gsort l)) -> (forall l, Permutation l (msort l)) ->
  conv <> 0 -> numbered fs -> (forall f, In f fs -> no_slots f) ->
  (forall f g x y, In f fs -> In g fs -> In x (printed conv (sf_kind f)) -> In y (printed conv (sf_kind g)) ->
     fmt x = fmt y -> x = y) ->
  setupCache (text T) (text_dec T_dec) (text_of T fmt conv) numElements fs = Some (fs', sizes) ->
  (forall f', In f' fs' -> group_both_cached (a_nbs a) f') -> good_list a ->
  (forall f, In f fs -> admissible (sf_kind f) /\ evaluable (sf_kind f) (env_of (a_nbs a)) /\
     groupable_parameters (scalingFactor (sc (sf_index (sf_c f)))) (sf_kind f) /\
     distinct_neighbors (sf_kind f) (env_of (a_nbs a))) ->
  (forall f h, In f fs -> In h fs -> same_radial_part (sf_kind f) (sf_kind h)) ->
  exists gs, setupSymmetryFunctionGroups gsort msort fs' = Some gs /\
    forall deriv s, fresh s -> exists s1 s2,
      calculateAll Z (map (set_scaling sc) fs) a deriv s = Some s1 /\
      calculateGroups Z a deriv (map (set_group_scaling sc) gs) s = Some s2 /\
      (forall i, st_G s2 i = st_G s1 i) /\ (forall x, st_D s2 x = st_D s1 x).
Proof.
  intros Hgs Hms Hc Hn Hs Hi E Hb Hg Ha Hr.
  set (K := text T). set (dec := text_dec T_dec). set (key := text_of T fmt conv).
  destruct (setup_slots K dec key numElements fs Hn Hs) as (fs2 & sz & E2 & LN & _ & _ & P).
  unfold K, dec, key in E2. rewrite E in E2. injection E2 as <- <-.
  assert (SF : Forall2 same_function fs' fs).
  { apply LammpsCompute.nth_Forall2; [now rewrite LN|]. intros j x Hx. destruct (P j x Hx) as (f & ci & Hf & -> & _).
    exists f. split; [exact Hf|apply with_ci_same]. }
  assert (F : forall f', In f' fs' -> exists f ci, In f fs /\ f' = with_ci ci f).
  { intros f' H. apply In_nth_error in H. destruct H as (j & Hj). destruct (P j f' Hj) as (f & ci & Hf & -> & _).
    exists f, ci. split; auto. eapply nth_error_In; eauto. }
  assert (KC : forall f g, In f fs -> In g fs -> key f = key g ->
     forall r, cached_function (sf_kind f) r = cached_function (sf_kind g) r).
  { intros f g Hf Hgi Ht r. apply (text_function fmt conv f g); auto.
    - apply (Ha f Hf).
    - apply (Ha g Hgi).
    - intros x y. apply Hi; auto. }
  assert (IX : map (fun f => sf_index (sf_c f)) fs' = map (fun f => sf_index (sf_c f)) fs).
  { clear - SF. induction SF as [|x y l l' H _ IH]; cbn; auto. f_equal; auto. apply H. }
  assert (ND : NoDup (map (fun f => sf_index (sf_c f)) fs)).
  { assert (Q : map (fun f => sf_index (sf_c f)) fs = seq 0 (length fs)).
    { apply nth_ext with (d := O) (d' := O); rewrite ?map_length, ?seq_length; auto. intros k Hk.
      rewrite seq_nth by auto. cbn. destruct (nth_error fs k) as [f|] eqn:N.
      - erewrite nth_error_nth; [|rewrite nth_error_map, N; reflexivity]. apply (Hn k f N).
      - apply nth_error_None in N. lia. }
    rewrite Q. apply seq_NoDup. }
  assert (Q := fun deriv => groups_result Z (setup_asg K dec key numElements fs) a deriv sc gsort msort fs'
    (setup_asg_consistent K dec key numElements fs KC) Hg Hgs Hms).
  assert (R0 : forall f', In f' fs' -> gready (setup_asg K dec key numElements fs) a f' /\
     groupable_parameters (scalingFactor (sc (sf_index (sf_c f')))) (sf_kind f') /\
     distinct_neighbors (sf_kind f') (env_of (a_nbs a))).
  { intros f' H'. destruct (F f' H') as (f & ci & Hf & X).
    assert (W : group_slots_ok (setup_asg K dec key numElements fs) (a_nbs a) f').
    { split; [|exact (Hb f' H')].
      apply (cache_slots_ok K dec key numElements fs fs' sizes Hn Hs E [] f' H'). intros _ n n' []. }
    subst f'. destruct (Ha f Hf) as (A & B & C). split; [|exact C]. split; [exact W|]. split; auto. }
  assert (R1 : forall f h, In f fs' -> In h fs' -> same_radial_part (sf_kind f) (sf_kind h)).
  { intros f' h' Hf' Hh'. destruct (F f' Hf') as (f & ci & Hf & ->). destruct (F h' Hh') as (h & ci' & Hh & ->). exact (Hr f h Hf Hh). }
  rewrite <- IX in ND.
  destruct (Q true ND R0 R1) as (gs & Eg & _). exists gs. split; auto. intros deriv s Hfr.
  destruct (Q deriv ND R0 R1) as (gs' & Eg' & Q'). rewrite Eg in Eg'. injection Eg' as <-.
  destruct (Q' s) as (s2 & E2 & G2 & D2); [now apply fresh_coherent|].
  assert (SF' : Forall2 same_function (map (set_scaling sc) fs') (map (set_scaling sc) fs)).
  { clear - SF. induction SF as [|x y l l' (A & B & C & D) _ IH]; cbn; constructor; auto.
    repeat split; cbn; auto. }
  destruct (uncached_result Z a sc fs Hg) with (deriv := deriv) (s := s) as (s1 & E1 & G1 & D1).
  { intros f Hi'. destruct (Ha f Hi') as (A & B & _). split; auto. }
  exists s1, s2. split; auto. split; auto. split.
  - intros i. rewrite G1, G2. apply put_same. auto.
  - intros x. rewrite D1, D2. now rewrite (contrib_same Z a _ _ x SF').
Qed.
