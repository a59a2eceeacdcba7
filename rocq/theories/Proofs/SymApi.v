(** The statements of C26-C28 and C32 in terms of calculate. *)
From Coq Require Import Reals Lra Lia ZArith Bool Arith Permutation.
From Coquelicot Require Import Coquelicot.
From Coq Require Import List.
From Verif Require Import Base.Vec3 Base.SumR Base.Loop Model.CoreFunction Model.CutoffFunction Model.CompactScreening
  Model.Strings Model.Scaling Model.NeighborList Model.SymFunctions Model.SymCache
  Spec.CompactSpec Spec.SymSpec Proofs.CutoffProofs Proofs.CompactProofs Proofs.SymEval Proofs.SymGrad
  Proofs.CacheProofs Proofs.SymAll Proofs.SymInv.
Import ListNotations.
Local Open Scope R_scope.

Lemma no_coherent nbs s : coherent no_assignment nbs s.
Proof. intros j n c0 c1 F _ []. Qed.

Theorem calculate_api Z f a deriv s : good_list a -> no_slots f -> admissible (sf_kind f) ->
  evaluable (sf_kind f) (env_of (a_nbs a)) ->
  exists s', calculate Z f a deriv s = Some s' /\
    st_G s' (sf_index (sf_c f)) = scale (sf_scaling (sf_c f)) (sf_value Z (sf_kind f) (env_of (a_nbs a))) /\
    (forall i, i <> sf_index (sf_c f) -> st_G s' i = st_G s i) /\
    (deriv = false -> forall l, st_D s' l = st_D s l) /\
    (forall l, st_D s' l <> st_D s l -> own_entry f (a_nbs a) l) /\
    (deriv = true -> smooth_at (sf_kind f) (env_of (a_nbs a)) -> scaling_setup (sf_scaling (sf_c f)) -> forall u v,
       is_derive (fun t => scale (sf_scaling (sf_c f)) (sf_value Z (sf_kind f) (displace u v t (env_of (a_nbs a))))) 0
         (directional (sf_c f) (a_nbs a) (fun l => vsub (st_D s' l) (st_D s l)) u v)) /\
    derivative_sum (sf_c f) (a_nbs a) (fun l => vsub (st_D s' l) (st_D s l)) = vzero.
Proof.
  intros Hg Hn Ha He.
  destruct (calculate_effect Z f no_assignment a no_assignment_consistent Hg (no_slots_ok _ f Hn) Ha He deriv s
    (no_coherent _ _)) as (s' & E & _ & G & D).
  exists s'. split; auto. split; [rewrite G, Nat.eqb_refl; auto|]. split.
  { intros i Hi. rewrite G. apply Nat.eqb_neq in Hi. now rewrite Hi. }
  split; [intros ->; intros l; rewrite D; vring|].
  assert (X : forall l, vsub (st_D s' l) (st_D s l) = if deriv then ev_at l (contributions Z f a) else vzero).
  { intros l. rewrite D. destruct deriv; vring. }
  split; [|split].
  - intros l Hl. destruct deriv.
    + apply (contributions_local Z f a l Ha). intros Z0. apply Hl. rewrite D, Z0. vring.
    + elim Hl. rewrite D. vring.
  - intros -> Hs Hsc u v.
    apply (is_derive_eq _ _ _ _ (contributions_gradient Z f a u v Hg Ha Hs Hsc)).
    unfold directional. f_equal. { now rewrite X. } apply rsum_ext. intros jn _. now rewrite X.
  - transitivity (derivative_sum (sf_c f) (a_nbs a) (fun l => if deriv then ev_at l (contributions Z f a) else vzero)).
    { unfold derivative_sum. f_equal; [apply X|]. f_equal. apply map_ext. intros jn. apply X. }
    destruct deriv; [apply contributions_sum_zero|].
    apply dot_zero_all. intros u. rewrite <- directional_const. unfold directional.
    rewrite dot_vzero_l, rsum_zero; [ring|]. intros jn _. try apply dot_vzero_l; reflexivity.
Qed.

Theorem values_permuted Z fs a a' : good_list a -> good_list a' -> (forall f, In f fs -> no_slots f) ->
  Permutation (env_of (a_nbs a)) (env_of (a_nbs a')) ->
  (forall f, In f fs -> admissible (sf_kind f) /\ evaluable (sf_kind f) (env_of (a_nbs a))) ->
  forall d d' s s', (forall i, st_G s i = st_G s' i) -> exists s1 s2,
    calculateAll Z fs a d s = Some s1 /\ calculateAll Z fs a' d' s' = Some s2 /\
    forall i, st_G s1 i = st_G s2 i.
Proof.
  intros Hg Hg' Hn HP Hf. apply same_values; auto. intros f Hin. destruct (Hf f Hin) as (A & B).
  split; auto. split; auto. split; [exact (evaluable_permut _ _ _ HP B)|]. now apply sf_value_permut.
Qed.
Theorem values_moved Z fs a a' g c ps : good_list a -> good_list a' -> (forall f, In f fs -> no_slots f) ->
  isometry g -> Permutation (env_of (a_nbs a)) (env_at c ps) ->
  Permutation (env_of (a_nbs a')) (env_at (g c) (moved g ps)) ->
  (forall f, In f fs -> admissible (sf_kind f) /\ evaluable (sf_kind f) (env_of (a_nbs a))) ->
  forall d d' s s', (forall i, st_G s i = st_G s' i) -> exists s1 s2,
    calculateAll Z fs a d s = Some s1 /\ calculateAll Z fs a' d' s' = Some s2 /\
    forall i, st_G s1 i = st_G s2 i.
Proof.
  intros Hg Hg' Hn HI HP HP' Hf. apply same_values; auto. intros f Hin. destruct (Hf f Hin) as (A & B).
  assert (C := isometry_congruent g c ps HI).
  assert (B' : evaluable (sf_kind f) (env_of (a_nbs a'))).
  { apply (evaluable_permut _ _ _ (Permutation_sym HP')). apply (evaluable_congruent _ _ _ C).
    apply (evaluable_permut _ _ _ HP B). }
  split; auto. split; auto. split; auto.
  rewrite (sf_value_permut _ _ _ _ HP), (sf_value_permut _ _ _ _ HP'). now apply sf_value_congruent.
Qed.

(** ** Texts *)
Lemma core_eq (x y : core_function) : core_type x = core_type y -> core_asym x = core_asym y -> x = y.
Proof. destruct x, y; simpl; intros; subst; auto. Qed.
Lemma cutoff_from_text fc rc fc' rc' : cutoff_setup fc rc -> cutoff_setup fc' rc' ->
  cf_type fc = cf_type fc' -> cf_alpha fc = cf_alpha fc' -> rc = rc' -> fc = fc'.
Proof.
  intros (_ & t & al & E) (_ & t' & al' & E') A B C. apply configure_eq in E. apply configure_eq in E'.
  destruct E as (_ & ->), E' as (_ & ->). simpl in A, B. subst. reflexivity.
Qed.
Lemma compact_from_text c l r c' l' r' : compact_setup c l r -> compact_setup c' l' r' ->
  core_type (cp_core c) = core_type (cp_core c') -> core_asym (cp_core c) = core_asym (cp_core c') ->
  l = l' -> r = r' -> c = c'.
Proof.
  intros (k & as_ & E) (k' & as' & E') A B -> ->. apply compact_config_eq in E. apply compact_config_eq in E'.
  destruct E as (_ & ->), E' as (_ & ->). simpl in A, B. f_equal. now apply core_eq.
Qed.

Lemma text_function {T} (fmt : R -> T) conv f g : conv <> 0 -> admissible (sf_kind f) -> admissible (sf_kind g) ->
  (forall x y, In x (printed conv (sf_kind f)) -> In y (printed conv (sf_kind g)) -> fmt x = fmt y -> x = y) ->
  text_of T fmt conv f = text_of T fmt conv g ->
  forall r, cached_function (sf_kind f) r = cached_function (sf_kind g) r.
Proof.
  intros Hc Af Ag Hi E r. destruct f as [cf k], g as [cg k']. unfold text_of in E. cbn [sf_kind] in *.
  assert (DV : forall x y, x / conv = y / conv -> x = y).
  { intros x y H. apply (f_equal (fun z => z * conv)) in H. field_simplify in H; auto. }
  assert (CU : forall fc rc fc' rc', cutoff_setup fc rc -> cutoff_setup fc' rc' ->
     (forall x y, In x [cf_alpha fc; rc / conv] -> In y [cf_alpha fc'; rc' / conv] -> fmt x = fmt y -> x = y) ->
     cut_text T fmt conv fc rc = cut_text T fmt conv fc' rc' -> fc = fc').
  { intros fc rc fc' rc' S S' I H. injection H as A B C. apply (cutoff_from_text fc rc fc' rc'); auto.
    - apply I; simpl; auto.
    - apply DV, I; simpl; auto. }
  assert (CO : forall c l r c' l' r', compact_setup c l r -> compact_setup c' l' r' ->
     (forall x y, In x [l / conv; r / conv] -> In y [l' / conv; r' / conv] -> fmt x = fmt y -> x = y) ->
     comp_text T fmt conv c l r = comp_text T fmt conv c' l' r' -> c = c').
  { intros c l r0 c' l' r' S S' I H. injection H as A A' B C. apply (compact_from_text c l r0 c' l' r'); auto.
    - apply DV, I; simpl; auto.
    - apply DV, I; simpl; auto. }
  destruct k, k'; cbn [admissible printed cached_function] in *; try (discriminate E);
    repeat match goal with H : _ /\ _ |- _ => destruct H end;
    lazymatch type of E with
    | cut_text _ _ _ ?fc ?rc = cut_text _ _ _ ?fc' ?rc' => rewrite (CU fc rc fc' rc'); auto
    | comp_text _ _ _ ?c ?l ?h = comp_text _ _ _ ?c' ?l' ?h' => rewrite (CO c l h c' l' h'); auto
    end.
Qed.

Theorem cache_transparent_text {T} (T_dec : forall a b : T, {a = b} + {a <> b}) (fmt : R -> T) conv Z numElements a fs fs' sizes sel gs' gs :
  conv <> 0 -> numbered fs -> (forall f, In f fs -> no_slots f) ->
  (forall f g x y, In f fs -> In g fs -> In x (printed conv (sf_kind f)) -> In y (printed conv (sf_kind g)) ->
     fmt x = fmt y -> x = y) ->
  setupCache (text T) (text_dec T_dec) (text_of T fmt conv) numElements fs = Some (fs', sizes) ->
  (forall f', In f' fs' -> both_cached (a_nbs a) f') -> good_list a ->
  (forall f, In f fs -> admissible (sf_kind f) /\ evaluable (sf_kind f) (env_of (a_nbs a))) ->
  Forall2 (fun j f' => nth_error fs' j = Some f') sel gs' ->
  Forall2 (fun j f => nth_error fs j = Some f) sel gs ->
  forall deriv s, fresh s -> exists s1 s2,
    calculateAll Z gs' a deriv s = Some s1 /\ calculateAll Z gs a deriv s = Some s2 /\
    (forall i, st_G s1 i = st_G s2 i) /\ (forall l, st_D s1 l = st_D s2 l).
Proof.
  intros Hc Hn Hs Hi E Hb Hg Ha. eapply cache_transparent; eauto.
  intros f g Hf Hgi Ht r. apply (text_function fmt conv f g); auto.
  - apply (Ha f Hf).
  - apply (Ha g Hgi).
  - intros x y. apply Hi; auto.
Qed.
Lemma radial_api Z f a deriv s : radial (sf_kind f) -> good_list a -> no_slots f ->
  admissible (sf_kind f) -> (forall n, In n (a_nbs a) -> nb_dr n <> vzero) ->
  exists s', calculate Z f a deriv s = Some s' /\
    st_G s' (sf_index (sf_c f)) = scale (sf_scaling (sf_c f)) (sf_value Z (sf_kind f) (env_of (a_nbs a))) /\
    (forall i, i <> sf_index (sf_c f) -> st_G s' i = st_G s i) /\
    (deriv = false -> forall l, st_D s' l = st_D s l) /\
    (forall l, st_D s' l <> st_D s l -> own_entry f (a_nbs a) l) /\
    (deriv = true -> smooth_at (sf_kind f) (env_of (a_nbs a)) -> scaling_setup (sf_scaling (sf_c f)) -> forall u v,
       is_derive (fun t => scale (sf_scaling (sf_c f)) (sf_value Z (sf_kind f) (displace u v t (env_of (a_nbs a))))) 0
         (directional (sf_c f) (a_nbs a) (fun l => vsub (st_D s' l) (st_D s l)) u v)).
Proof.
  intros Hr Hg Hn Ha Hz. destruct (calculate_api Z f a deriv s Hg Hn Ha) as (s' & A & B & C & D & E & F & _).
  - split.
    + intros n Hin. unfold env_of in Hin. apply in_map_iff in Hin. destruct Hin as (m & <- & Hm). apply (Hz m Hm).
    + destruct (sf_kind f); simpl in Hr; try contradiction; exact I.
  - exists s'. repeat (split; auto).
Qed.
Lemma angular_api Z f a deriv s : angular (sf_kind f) -> good_list a -> no_slots f ->
  admissible (sf_kind f) -> evaluable (sf_kind f) (env_of (a_nbs a)) ->
  exists s', calculate Z f a deriv s = Some s' /\
    st_G s' (sf_index (sf_c f)) = scale (sf_scaling (sf_c f)) (sf_value Z (sf_kind f) (env_of (a_nbs a))) /\
    (forall i, i <> sf_index (sf_c f) -> st_G s' i = st_G s i) /\
    (deriv = false -> forall l, st_D s' l = st_D s l) /\
    (forall l, st_D s' l <> st_D s l -> own_entry f (a_nbs a) l) /\
    (deriv = true -> smooth_at (sf_kind f) (env_of (a_nbs a)) -> scaling_setup (sf_scaling (sf_c f)) -> forall u v,
       is_derive (fun t => scale (sf_scaling (sf_c f)) (sf_value Z (sf_kind f) (displace u v t (env_of (a_nbs a))))) 0
         (directional (sf_c f) (a_nbs a) (fun l => vsub (st_D s' l) (st_D s l)) u v)).
Proof.
  intros _ Hg Hn Ha He. destruct (calculate_api Z f a deriv s Hg Hn Ha He) as (s' & A & B & C & D & E & F & _).
  exists s'. repeat (split; auto).
Qed.
Lemma derivatives_cancel Z f a s : good_list a -> no_slots f -> admissible (sf_kind f) ->
  evaluable (sf_kind f) (env_of (a_nbs a)) ->
  exists s', calculate Z f a true s = Some s' /\
    derivative_sum (sf_c f) (a_nbs a) (fun l => vsub (st_D s' l) (st_D s l)) = vzero.
Proof.
  intros Hg Hn Ha He. destruct (calculate_api Z f a true s Hg Hn Ha He) as (s' & A & B & C & D & E & F & G).
  exists s'. auto.
Qed.
