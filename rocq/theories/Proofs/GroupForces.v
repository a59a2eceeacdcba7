(** Evaluation with cache and groups gives the same energies and forces as
    evaluating the symmetry functions one by one. *)
From Coq Require Import Reals Lra Lia ZArith Bool Arith Permutation FunctionalExtensionality.
From Coquelicot Require Import Coquelicot.
From Coq Require Import List.
From Verif Require Import Base.Vec3 Base.SumR Base.Loop Model.NeuralNetwork Model.Scaling Model.NeighborList Model.SymFunctions
  Model.SymCache Model.SymSetup Model.SymGroups Model.Forces Model.GroupEvaluation
  Spec.NetworkSpec Spec.GeometrySpec Spec.NeighborSpec Spec.SymSpec Spec.SetupSpec Spec.GroupSpec Spec.ForceSpec Spec.EvaluationSpec
  Proofs.NeighborProofs Proofs.SetupProofs Proofs.CacheProofs Proofs.SymAll Proofs.GroupApi Proofs.LammpsCompute Proofs.ForceProofs Proofs.ForceExamples.
Import ListNotations.
Local Open Scope R_scope.

(** ** The caches are evenly used *)
Section Even.
Variables (K : Type) (K_dec : forall a b : K, {a = b} + {a <> b}) (key : symfnc -> K) (N : nat).

Lemma depends_in_elems e f : (e < N)%nat -> depends (sf_kind f) e = true -> in_elems N e f = true.
Proof.
  intros He H. unfold in_elems. destruct (in_dec Nat.eq_dec e (id_elements N (sf_kind f))) as [|n]; auto. elim n. clear n.
  unfold id_elements, depends in *. destruct (sf_kind f); cbn; try (apply Nat.eqb_eq in H; now left); try (apply in_seq; lia);
    apply orb_true_iff in H; rewrite !Nat.eqb_eq in H;
    match goal with |- In _ (if Nat.eqb ?x ?y then _ else _) => destruct (Nat.eqb_spec x y); cbn; intuition congruence end.
Qed.
Lemma in_elems_depends e f : in_elems N e f = true -> depends (sf_kind f) e = true.
Proof.
  unfold in_elems. destruct (in_dec Nat.eq_dec e (id_elements N (sf_kind f))) as [H|]; [|discriminate]. intros _.
  unfold id_elements, depends in *. destruct (sf_kind f); auto; cbn in H; try (apply Nat.eqb_eq; intuition congruence);
    apply orb_true_iff; rewrite !Nat.eqb_eq;
    match goal with H : In _ (if Nat.eqb ?x ?y then _ else _) |- _ => destruct (Nat.eqb_spec x y); cbn in H; intuition congruence end.
Qed.

Lemma even_slots fs fs' sizes : numbered fs -> (forall f, In f fs -> no_slots f) -> evenly_shared key N fs ->
  setupCache K K_dec key N fs = Some (fs', sizes) ->
  forall f' p, In f' fs' -> sf_kind f' = ExpAngnWeighted p -> forall e e', (e < N)%nat -> (e' < N)%nat ->
    sf_ci (sf_c f') e <> [] -> sf_ci (sf_c f') e' <> [].
Proof.
  intros Hn Hs Hev E f' p Hf' Hk e e' He He' Hc.
  destruct (setup_slots K K_dec key N fs Hn Hs) as (fs2 & sz & E2 & LN & _ & Q & P). rewrite E in E2. injection E2 as <- <-.
  apply In_nth_error in Hf' as (j & Hj). destruct (P j f' Hj) as (f & ci & Hf & -> & Hci).
  cbn [with_ci sf_c sf_ci sf_kind] in *.
  destruct (Hci e) as [|(q & g & _ & Hg & Hkg & He1 & _ & Hin)]; [contradiction|].
  assert (ES := Hev f (nth_error_In _ _ Hf)). rewrite Hk in ES.
  assert (X : cutoff_shared key fs f e).
  { destruct (shared_ok K K_dec key N e fs) as (_ & HM). apply nth_error_In in Hg as Hg'. specialize (HM g Hg').
    assert (L := shared_twice K K_dec key N e fs g Hg'). rewrite HM in L.
    assert (ND := members_nodup K K_dec key N fs Hn e (fst g)). 
    assert (Y : exists j', In j' (members K K_dec key N e (fst g) fs) /\ j' <> j).
    { destruct (members K K_dec key N e (fst g) fs) as [|x [|y r]]; cbn in L; try lia. destruct (Nat.eq_dec x j) as [->|Hx].
      - exists y. split; [cbn; auto|]. intros ->. inversion ND as [|? ? Z]; subst. apply Z. now left.
      - exists x. split; [now left|auto]. }
    destruct Y as (j' & Hj' & Hne). destruct (member_spec K K_dec key N fs Hn e (fst g) j' Hj') as (h & Hh & H1 & H2).
    exists h. split; [eapply nth_error_In; eauto|]. split; [rewrite (Hn _ _ Hh), (Hn _ _ Hf); auto|]. split; [congruence|].
    now apply in_elems_depends. }
  destruct (ES e e' He He' X) as (h & Hh & Hne & Hkh & Hd).
  apply In_nth_error in Hh as (j' & Hj'). rewrite (Hn _ _ Hj'), (Hn _ _ Hf) in Hne.
  assert (I1 : in_elems N e' f = true). { unfold in_elems, id_elements. rewrite Hk. destruct (in_dec _ _ _) as [|n]; auto. elim n. apply in_seq. lia. }
  assert (I2 := depends_in_elems e' h He' Hd).
  assert (M1 := member_intro K K_dec key N fs Hn e' f j Hf I1). assert (M2 := member_intro K K_dec key N fs Hn e' h j' Hj' I2). rewrite Hkh in M2.
  destruct (groups_ok K K_dec key N e' fs) as (_ & GM & GK). specialize (GK f (nth_error_In _ _ Hf) I1).
  apply in_map_iff in GK as (g' & Hg1 & Hg2). assert (L : (1 < length (snd g'))%nat).
  { rewrite (GM g' Hg2), Hg1. destruct (members K K_dec key N e' (key f) fs) as [|x [|y r]]; cbn in *; [tauto| |lia].
    destruct M1 as [->|[]], M2 as [->|[]]. congruence. }
  assert (Sh : In g' (shared K K_dec key N e' fs)) by (apply filter_In; split; auto; now apply Nat.ltb_lt).
  apply In_nth_error in Sh as (q' & Hq'). destruct (Q e' q' g' j He' Hq') as (f2 & Hf2 & Hci2).
  { rewrite (GM g' Hg2), Hg1. exact M1. }
  rewrite Hj in Hf2. injection Hf2 as <-. cbn [with_ci sf_c sf_ci] in Hci2. rewrite Hci2. discriminate.
Qed.
End Even.

Lemma allocated_fresh : fresh allocated.
Proof.
  intros j c. cbn. unfold dbl_max. assert (0 < 2 ^ 1023) by (apply pow_lt; lra).
  assert (0 < / 2 ^ 52 <= 1). { split; [apply Rinv_0_lt_compat, pow_lt; lra|]. rewrite <- Rinv_1. apply Rinv_le_contravar; [lra|]. apply pow_R1_Rle. lra. }
  assert (0 < (2 - / 2 ^ 52) * 2 ^ 1023) by (apply Rmult_lt_0_compat; lra). lra.
Qed.

(** ** The set-up of one element *)
Lemma register_scaling N f sc table : 
  register_memory N (set_scaling sc f) table = (set_scaling sc (fst (register_memory N f table)), snd (register_memory N f table)).
Proof.
  unfold register_memory. generalize (seq 0 N). intros l. revert f table. induction l as [|i l IH]; intros f table; auto.
  cbn [fold_left]. change (checkRelevantElement (sf_kind (set_scaling sc f)) i) with (checkRelevantElement (sf_kind f) i).
  destruct (checkRelevantElement (sf_kind f) i); [|apply IH].
  change (setIndexPerElement i (length (table i)) (set_scaling sc f)) with (set_scaling sc (setIndexPerElement i (length (table i)) f)).
  change (sf_index (sf_c (set_scaling sc f))) with (sf_index (sf_c f)). apply IH.
Qed.
Lemma memory_scaling N sc fs fs' t k : setupMemory N fs = (fs', t, k) -> setupMemory N (map (set_scaling sc) fs) = (map (set_scaling sc) fs', t, k).
Proof.
  unfold setupMemory. 
  assert (X : forall fs done (table : nat -> list nat),
    fold_left (fun st f => let (done, table) := (st : list symfnc * (nat -> list nat)) in
                           let (f', table') := register_memory N f table in (done ++ [f'], table'))
              (map (set_scaling sc) fs) (map (set_scaling sc) done, table) =
    let (d, t) := fold_left (fun st f => let (done, table) := (st : list symfnc * (nat -> list nat)) in
                           let (f', table') := register_memory N f table in (done ++ [f'], table')) fs (done, table) in (map (set_scaling sc) d, t)).
  { clear. induction fs as [|f fs IH]; intros done table; auto. cbn [fold_left map]. rewrite register_scaling.
    destruct (register_memory N f table) as [f' t']. cbn [fst snd].
    change ([set_scaling sc f']) with (map (set_scaling sc) [f']). rewrite <- map_app. apply IH. }
  specialize (X fs [] (fun _ => [])). cbn [map] in X. rewrite X. clear X.
  destruct (fold_left _ fs ([], fun _ => [])) as [d table]. intros [= <- <- <-]. reflexivity.
Qed.

Definition same_but_cache (x y : eatom) : Prop :=
  e_atom x = e_atom y /\ st_G (e_store x) = st_G (e_store y) /\ st_D (e_store x) = st_D (e_store y) /\
  e_dEdG x = e_dEdG y /\ e_energy x = e_energy y /\ e_f x = e_f y.
Definition same_tables (x y : elem) : Prop :=
  length (el_fs x) = length (el_fs y) /\ el_table x = el_table y /\ el_nums x = el_nums y.

(** ** The later stages *)
Lemma networks_same nets : forall xs ys, Forall2 same_but_cache xs ys -> 
  Forall2 same_but_cache (fst (atomicNetworks nets xs)) (fst (atomicNetworks nets ys)).
Proof.
  intros xs ys H. revert nets. induction H as [|x y xs ys (A & B & C & D & E & F) _ IH]; intros nets; cbn; [constructor|].
  rewrite A, B. specialize (IH (upd nets (a_element (e_atom y)) (propagate (setInput (st_G (e_store y)) (nets (a_element (e_atom y))))))).
  destruct (atomicNetworks _ xs) as [r n1]. destruct (atomicNetworks _ ys) as [r' n2]. cbn [fst] in *.
  constructor; auto. repeat split; cbn; auto.
Qed.
Lemma energy_same xs ys : Forall2 same_but_cache xs ys -> calculateEnergy xs = calculateEnergy ys.
Proof.
  intros H. unfold calculateEnergy. f_equal. generalize 0. induction H as [|x y xs ys (A & B & C & D & E & F) _ IH]; intros z; cbn; auto.
  rewrite E. apply IH.
Qed.
Lemma selfForce_same n x y : same_but_cache x y -> selfForce n x = selfForce n y.
Proof. intros (A & B & C & D & E & F). unfold selfForce. now rewrite C, D. Qed.
Lemma pairForce_same e e' x y k m : same_tables e e' -> same_but_cache x y -> pairForce e x k m = pairForce e' y k m.
Proof. intros (T1 & T2 & T3) (A & B & C & D & E & F). unfold pairForce. now rewrite T1, T2, T3, C, D. Qed.
Lemma ofold_ext {A S} (f g : A -> S -> option S) l : (forall a s, In a l -> f a s = g a s) -> forall s, ofold f l s = ofold g l s.
Proof.
  induction l as [|a l IH]; intros H s; cbn; auto. rewrite H by now left. destruct (g a s); auto. apply IH. intros. apply H. now right.
Qed.
Lemma Forall2_length_eq {A B} (R : A -> B -> Prop) l l' : Forall2 R l l' -> length l = length l'.
Proof. induction 1; cbn; auto. Qed.
Arguments Forall2_length_eq {A B R l l'} _.
Lemma nth_error_Some_lt {A} (l : list A) i x : nth_error l i = Some x -> (i < length l)%nat.
Proof. intros H. apply nth_error_Some. congruence. Qed.
Lemma F2_nth_error {A B} (R : A -> B -> Prop) l l' : Forall2 R l l' -> forall i,
  match nth_error l i, nth_error l' i with Some x, Some y => R x y | None, None => True | _, _ => False end.
Proof. induction 1; intros [|i]; cbn; auto. apply IHForall2. Qed.
Lemma force_from_same elems elems' xs ys rc i j f : Forall2 same_tables elems elems' -> Forall2 same_but_cache xs ys ->
  force_from elems xs rc i j f = force_from elems' ys rc i j f.
Proof.
  intros HE HX. unfold force_from. assert (Q := F2_nth_error _ _ _ HX j).
  destruct (nth_error xs j) as [x|], (nth_error ys j) as [y|]; try contradiction; auto.
  assert (Q2 := Q). destruct Q2 as (A & _). rewrite A. assert (Q3 := F2_nth_error _ _ _ HE (a_element (e_atom y))).
  destruct (nth_error elems _) as [e|], (nth_error elems' _) as [e'|]; try contradiction; auto.
  apply ofold_ext. intros k g _. destruct (nth_error (a_nbs (e_atom y)) k) as [m|]; auto. destruct (Nat.eqb (nb_index m) i); auto.
  now rewrite (pairForce_same e e' x y k m Q3 Q).
Qed.
Lemma force_atom_same elems elems' xs ys rc i x y : Forall2 same_tables elems elems' -> Forall2 same_but_cache xs ys -> same_but_cache x y ->
  match force_atom elems xs rc i x, force_atom elems' ys rc i y with Some x', Some y' => same_but_cache x' y' | None, None => True | _, _ => False end.
Proof.
  intros HE HX Hx. unfold force_atom. assert (Q := Hx). destruct Q as (A & B & C & D & E & F). rewrite A.
  assert (Q3 := F2_nth_error _ _ _ HE (a_element (e_atom y))).
  destruct (nth_error elems _) as [e|], (nth_error elems' _) as [e'|]; try contradiction; auto.
  destruct Q3 as (T & _). rewrite T, (selfForce_same _ x y Hx). destruct (a_unique (e_atom y)) as [|u U]; auto.
  rewrite (ofold_ext (force_from elems xs rc i) (force_from elems' ys rc i)).
  2:{ intros j f _. apply force_from_same; auto. }
  destruct (ofold _ U _); auto. repeat split; cbn; auto.
Qed.
Lemma forces_same elems elems' rc xs ys : Forall2 same_tables elems elems' -> Forall2 same_but_cache xs ys ->
  match calculateForces elems rc xs, calculateForces elems' rc ys with
  | Some xs', Some ys' => Forall2 same_but_cache xs' ys' | None, None => True | _, _ => False end.
Proof.
  intros HE HX. unfold calculateForces, mapi. rewrite (Forall2_length_eq HX).
  assert (G : forall l l' (ks : list nat), Forall2 same_but_cache l l' ->
    match sequence (map (fun ia => force_atom elems xs rc (fst ia) (snd ia)) (List.combine ks l)),
          sequence (map (fun ia => force_atom elems' ys rc (fst ia) (snd ia)) (List.combine ks l')) with
    | Some xs', Some ys' => Forall2 same_but_cache xs' ys' | None, None => True | _, _ => False end).
  { intros l l' ks H. revert ks. induction H as [|x y l l' H _ IH]; intros [|k ks]; cbn; try constructor.
    assert (Q := force_atom_same elems elems' xs ys rc k x y HE HX H). specialize (IH ks).
    destruct (force_atom elems xs rc k x), (force_atom elems' ys rc k y); try contradiction; auto.
    destruct (sequence _), (sequence _); try contradiction; auto. }
  apply G. auto.
Qed.

(** ** Symmetry functions *)
Section Evaluation.
Variables (T : Type) (T_dec : forall a b : T, {a = b} + {a <> b}) (fmt : R -> T) (conv : R).
Variables (gsort : list (list symfnc) -> list (list symfnc)) (msort : list symfnc -> list symfnc).
Hypothesis Hgs : forall l, Permutation l (gsort l).
Hypothesis Hms : forall l, Permutation l (msort l).
Hypothesis Hconv : conv <> 0.
Variables (N : nat) (rc : R) (P : potential) (sc : nat -> nat -> scaling).
Let Q := scaled_potential sc P.
Hypothesis HQ : sensible N rc Q.
Hypothesis HC : cached_and_grouped (text_of T fmt conv) fmt conv sc N P.
Notation setup := (setupElement (text T) (text_dec T_dec) (text_of T fmt conv) gsort msort N true).

Definition bare (l : list neighbor) : atom := mkAtom 0 vzero false false (length l) 0 [] [] l [].
Lemma bare_good : good_list (bare []).
Proof. split; [reflexivity|]. split; [intros n []|]. intros r. split; [cbn; auto|]. intros [|j] n _ H; discriminate. Qed.

Lemma element_setup e : (e < N)%nat -> exists g, setup (p_fs P e) = Some g /\
  same_tables (el_of N Q e) (mkElem (map (set_scaling (sc e)) (el_fs (ge_elem g))) (el_table (ge_elem g)) (el_nums (ge_elem g))) /\
  forall a, good_list a -> (forall m, In m (a_nbs a) -> (nb_element m < N)%nat) ->
    (forall f, In f (p_fs P e) -> evaluable (sf_kind f) (env_of (a_nbs a)) /\ distinct_neighbors (sf_kind f) (env_of (a_nbs a))) ->
    exists s1 s2, calculateAll (p_weight P) (el_fs (el_of N Q e)) a true allocated = Some s1 /\
      calculateGroups (p_weight P) a true (map (set_group_scaling (sc e)) (ge_groups g)) allocated = Some s2 /\
      st_G s2 = st_G s1 /\ st_D s2 = st_D s1.
Proof.
  intros He. destruct (HQ e He) as ((Hne & Hnum & Hf) & _). destruct (HC e He) as ((G1 & G2) & HD & HE).
  set (fs := p_fs P e) in *.
  assert (Hf0 : forall f, In f fs -> no_slots f /\ admissible (sf_kind f)).
  { intros f Hin. destruct (Hf (set_scaling (sc e) f)) as (A & B & _); auto.
    change (p_fs Q e) with (map (set_scaling (sc e)) fs). now apply in_map. }
  assert (Hnum0 : numbered fs).
  { intros j f Hj. apply (Hnum j (set_scaling (sc e) f)). change (p_fs Q e) with (map (set_scaling (sc e)) fs). now rewrite nth_error_map, Hj. }
  destruct (setupMemory N fs) as [[fs1 table] nums] eqn:EM.
  assert (EQ : el_of N Q e = mkElem (map (set_scaling (sc e)) fs1) table nums).
  { unfold el_of. change (p_fs Q e) with (map (set_scaling (sc e)) fs). now rewrite (memory_scaling N (sc e) fs fs1 table nums EM). }
  destruct (memory_setup N fs) as (fs1' & table' & nums' & EM' & _ & L1 & _ & F1). rewrite EM in EM'. injection EM' as <- <- <-.
  assert (W : forall f1, In f1 fs1 -> exists f g, In f fs /\ f1 = with_per g f).
  { intros f1 H1. apply In_nth_error in H1 as (j & Hj). assert (j < length fs)%nat by (rewrite <- L1; apply nth_error_Some; congruence).
    destruct (nth_error fs j) as [f|] eqn:Ef; [|apply nth_error_None in Ef; lia]. destruct (F1 j f Ef) as (g & Hg & _).
    rewrite Hj in Hg. injection Hg as ->. exists f, g. split; auto. eapply nth_error_In; eauto. }
  assert (W' : forall f, In f fs -> exists g, In (with_per g f) fs1).
  { intros f H. apply In_nth_error in H as (j & Hj). destruct (F1 j f Hj) as (g & Hg & _). exists g. eapply nth_error_In; eauto. }
  assert (Hnum1 : numbered fs1).
  { intros j f1 Hj. assert (j < length fs)%nat by (rewrite <- L1; apply nth_error_Some; congruence).
    destruct (nth_error fs j) as [f|] eqn:Ef; [|apply nth_error_None in Ef; lia]. destruct (F1 j f Ef) as (g & Hg & _).
    rewrite Hj in Hg. injection Hg as ->. apply (Hnum0 j f Ef). }
  assert (Hs1 : forall f, In f fs1 -> no_slots f).
  { intros f1 H1. destruct (W f1 H1) as (f & g & Hin & ->). apply (Hf0 f Hin). }
  destruct (setup_slots (text T) (text_dec T_dec) (text_of T fmt conv) N fs1 Hnum1 Hs1) as (fs2 & sizes & EC & L2 & _ & _ & Sl).
  assert (Ev : evenly_shared (text_of T fmt conv) N fs1).
  { intros f1 H1. destruct (W f1 H1) as (f & g & Hin & ->). specialize (HE f Hin). cbn [with_per sf_kind]. destruct (sf_kind f) eqn:Kf; auto.
    intros e1 e2 B1 B2 (h1 & Hh1 & X1 & X2 & X3). destruct (W h1 Hh1) as (h & gh & Hinh & ->).
    destruct (HE e1 e2 B1 B2) as (k & Hk & Y1 & Y2 & Y3). { exists h. auto. }
    destruct (W' k Hk) as (gk & Hk1). exists (with_per gk k). auto. }
  assert (GC := fun a => groups_cached T_dec fmt conv (p_weight P) N a (sc e) gsort msort fs1 fs2 sizes Hgs Hms Hconv Hnum1 Hs1).
  assert (GC' : forall a, (forall m, In m (a_nbs a) -> (nb_element m < N)%nat) -> good_list a ->
    (forall f, In f fs -> evaluable (sf_kind f) (env_of (a_nbs a)) /\ distinct_neighbors (sf_kind f) (env_of (a_nbs a))) ->
     exists gs, setupSymmetryFunctionGroups gsort msort fs2 = Some gs /\
      forall deriv s, fresh s -> exists s1 s2,
      calculateAll (p_weight P) (map (set_scaling (sc e)) fs1) a deriv s = Some s1 /\
      calculateGroups (p_weight P) a deriv (map (set_group_scaling (sc e)) gs) s = Some s2 /\
      (forall i, st_G s2 i = st_G s1 i) /\ (forall x, st_D s2 x = st_D s1 x)).
  { intros a Ha Hg Hfa. apply GC; auto.
    - intros f1 g1 x y I1 I2. destruct (W f1 I1) as (f & ? & Hin & ->). destruct (W g1 I2) as (g & ? & Hin2 & ->). exact (HD f g x y Hin Hin2).
    - intros f2 Hf2. unfold group_both_cached. destruct (sf_kind f2) as [| |? |? |p | | | | | | ] eqn:Kf; auto.
      intros _ m m' Hm Hm' _ _. apply (even_slots (text T) (text_dec T_dec) (text_of T fmt conv) N fs1 fs2 sizes Hnum1 Hs1 Ev EC f2 p); auto.
    - intros f1 I1. destruct (W f1 I1) as (f & ? & Hin & ->). destruct (Hfa f Hin). split; [apply (Hf0 f Hin)|]. split; [auto|]. split; [exact (G1 f Hin)|auto].
    - intros f1 h1 I1 I2. destruct (W f1 I1) as (f & ? & Hin & ->). destruct (W h1 I2) as (h & ? & Hin2 & ->). exact (G2 f h Hin Hin2). }
  destruct (GC' (bare [])) as (gs & Egs & _).
  { intros m []. } { apply bare_good. }
  { intros f Hin. assert (N0 : forall R, on_pairs R []) by (intros R0 [|j] k x y _ H; discriminate).
    split; [split; [intros x []|]|]; cbn [a_nbs bare env_of map]; destruct (sf_kind f); cbn; auto; apply N0. }
  exists (mkGElem (mkElem fs2 table nums) gs). split; [|split].
  - unfold setupElement. rewrite EM, EC, Egs. reflexivity.
  - rewrite EQ. cbn. repeat split; cbn; auto. rewrite !map_length. auto.
  - intros a Hg Ha Hfa. destruct (GC' a Ha Hg Hfa) as (gs' & Egs' & R0). rewrite Egs in Egs'. injection Egs' as <-.
    destruct (R0 true allocated) as (s1 & s2 & A & B & C & D).
    { apply allocated_fresh. }
    exists s1, s2. rewrite EQ. cbn [el_fs ge_groups]. split; [exact A|]. split; [exact B|]. split; apply functional_extensionality; auto.
Qed.

(** ** Whole evaluation *)
Variables (s : structure) (nsort : list neighbor -> list neighbor) (fuel : nat) (s' : structure).
Hypothesis Hrc : 0 <= rc.
Hypothesis HN : s_numElements s = N.
Hypothesis Hs : unprocessed rc s.
Hypothesis Hsort : is_sort nsort.
Hypothesis Es' : calculateNeighborList nsort fuel rc false s = Some s'.
Hypothesis Hev : everywhere P rc s evaluable.
Hypothesis Hdi : everywhere P rc s distinct_neighbors.

Lemma setup_some : exists es, setupAll (text T) (text_dec T_dec) (text_of T fmt conv) gsort msort N true (map (p_fs P) (seq 0 N)) = Some es /\
  length es = N /\ forall e g, nth_error es e = Some g -> setup (p_fs P e) = Some g.
Proof.
  unfold setupAll. rewrite map_map. destruct (sequence_some (map (fun e => setup (p_fs P e)) (seq 0 N))) as [es Ees].
  { intros o Ho. apply in_map_iff in Ho as (e & <- & He). apply in_seq in He. destruct (element_setup e) as (g & -> & _); [clear - He; lia|discriminate]. }
  exists es. split; auto. apply sequence_spec in Ees as [L H]. rewrite map_length, seq_length in L. split; auto.
  intros e g Hg. assert (He : (e < N)%nat) by (rewrite <- L; apply nth_error_Some; congruence).
  specialize (H e (setup (p_fs P e))). rewrite nth_error_map, (nth_error_nth' _ 0%nat), seq_nth in H by (rewrite ?seq_length; auto).
  rewrite Hg in H. now apply H.
Qed.

Theorem grouped_evaluation_sf : exists es xs0 ys0 E xs ys,
  setupAll (text T) (text_dec T_dec) (text_of T fmt conv) gsort msort N true (map (p_fs P) (seq 0 N)) = Some es /\
  Forall2 same_tables (setupMemoryAll N (map (p_fs Q) (seq 0 N))) (map ge_elem (setupScaling sc es)) /\
  calculateSymmetryFunctions (p_weight P) (setupMemoryAll N (map (p_fs Q) (seq 0 N))) (s_atoms s') = Some xs0 /\
  calculateSymmetryFunctionGroups (p_weight P) (setupScaling sc es) (s_atoms s') = Some ys0 /\
  Forall2 same_but_cache xs0 ys0 /\
  evaluateNNP nsort fuel (p_weight P) (setupMemoryAll N (map (p_fs Q) (seq 0 N))) (p_net P) rc s = Some (E, xs) /\
  evaluateGroups nsort fuel (p_weight P) (setupScaling sc es) (p_net P) rc s = Some (E, ys) /\
  Forall2 same_but_cache xs ys.
Proof.
  destruct setup_some as (es & Ees & Les & Hes).
  assert (HevQ : everywhere Q rc s evaluable).
  { intros i a e f H1 H2 H3. apply in_map_iff in H3 as (h & <- & H3). exact (Hev i a e h H1 H2 H3). }
  destruct (evaluation_stages N rc Q s nsort fuel s' HQ Hrc HN Hs Hsort Es' HevQ) as (xsq & xs & Ev & _).
  change (p_weight Q) with (p_weight P) in Ev. change (p_net Q) with (p_net P) in Ev.
  set (elems := setupMemoryAll N (map (p_fs Q) (seq 0 N))) in *. set (ges := setupScaling sc es).
  assert (Hel : forall e, (e < N)%nat -> nth_error elems e = Some (el_of N Q e)) by (intros e He; apply elem_at; auto).
  assert (Hge : forall e g, nth_error es e = Some g -> nth_error ges e = Some (mkGElem (mkElem (map (set_scaling (sc e)) (el_fs (ge_elem g))) (el_table (ge_elem g)) (el_nums (ge_elem g)))
                           (map (set_group_scaling (sc e)) (ge_groups g)))).
  { intros e g Hg. unfold ges, setupScaling. rewrite nth_error_mapi, Hg. reflexivity. }
  assert (Hes' : forall e, (e < N)%nat -> exists g, nth_error es e = Some g /\ setup (p_fs P e) = Some g).
  { intros e He. destruct (nth_error es e) as [g|] eqn:Eg; [|apply nth_error_None in Eg; lia]. eauto. }
  assert (ST : Forall2 same_tables elems (map ge_elem ges)).
  { apply LammpsCompute.nth_Forall2.
    - unfold elems, setupMemoryAll, ges, setupScaling. now rewrite !map_length, mapi_length, seq_length, Les.
    - intros e x Hx. assert (He : (e < N)%nat). { apply nth_error_Some_lt in Hx. unfold elems, setupMemoryAll in Hx. now rewrite !map_length, seq_length in Hx. }
      rewrite (Hel e He) in Hx. injection Hx as <-. destruct (Hes' e He) as (g & Hg & Es). destruct (element_setup e He) as (g' & Es2 & Tb & _).
      rewrite Es in Es2. injection Es2 as <-. eexists. rewrite nth_error_map, (Hge e g Hg). split; [reflexivity|exact Tb]. }
  destruct (list_stage N rc Q s HQ Hrc HN Hs nsort fuel s' Hsort Es') as (Ln & HL & _).
  unfold evaluateNNP in Ev. rewrite Es' in Ev. unfold calculateSymmetryFunctions in Ev.
  assert (SA : forall a, In a (s_atoms s') -> exists x y, sf_atom (p_weight P) elems a = Some x /\ sf_atom_groups (p_weight P) ges a = Some y /\ same_but_cache x y).
  { intros a' Ha. apply In_nth_error in Ha as (i & Hi).
    assert (Hi' : (i < length (s_atoms s))%nat) by (rewrite <- Ln; apply nth_error_Some; congruence).
    destruct (nth_error (s_atoms s) i) as [ai|] eqn:Ei; [|apply nth_error_None in Ei; lia].
    destruct (HL i ai Ei) as (a2 & E2 & Hl). rewrite Hi in E2. injection E2 as <-.
    assert (He : (a_element a' < N)%nat). { destruct Hl as (-> & _). rewrite <- HN. apply Hs. eapply nth_error_In; eauto. }
    destruct (Hes' _ He) as (g & Hg & Es). destruct (element_setup _ He) as (g' & Es2 & Tb & R0). rewrite Es in Es2. injection Es2 as <-.
    assert (Nb := listed_neighbourhood N rc s i ai a' Ei Hl).
    destruct (R0 a') as (s1 & s2 & A & B & C & D).
    { apply Hl. } { intros m Hm. now apply Hl. }
    { assert (Ee : a_element a' = a_element ai) by apply Hl. rewrite Ee. intros f Hf. split; [apply (Hev i ai); auto|apply (Hdi i ai); auto]. }
    destruct Tb as (Tb & _). cbn [el_fs] in Tb.
    assert (L0 : length (el_fs (el_of N Q (a_element a'))) <> 0%nat).
    { destruct (HQ _ He) as ((Hne & _) & _). intros X. apply Hne. apply length_zero_iff_nil.
      assert (EM := el_of_memory N Q (a_element a')). destruct (memory_setup N (p_fs Q (a_element a'))) as (f1 & t1 & k1 & EM1 & _ & L1 & _).
      rewrite EM in EM1. injection EM1 as E1 _ _. rewrite <- L1, <- E1. exact X. }
    exists (mkEAtom a' s1 (fun _ => 0) 0 vzero), (mkEAtom a' s2 (fun _ => 0) 0 vzero).
    unfold sf_atom, sf_atom_groups. rewrite (Hel _ He), (Hge _ g Hg). cbn [ge_elem ge_groups el_fs].
    rewrite <- Tb. destruct (Nat.eqb_spec (length (el_fs (el_of N Q (a_element a')))) 0) as [X|_]; [contradiction|].
    rewrite A, B. split; auto. split; auto. repeat split; cbn; auto. }
  assert (X0 : forall l, (forall a, In a l -> In a (s_atoms s')) -> exists xs0 ys0, sequence (map (sf_atom (p_weight P) elems) l) = Some xs0 /\
     sequence (map (sf_atom_groups (p_weight P) ges) l) = Some ys0 /\ Forall2 same_but_cache xs0 ys0).
  { induction l as [|a l IH]; intros Hl; cbn.
    - exists [], []. repeat split; auto.
    - destruct (SA a) as (x & y & -> & -> & Hxy); [apply Hl; now left|]. destruct IH as (xs0 & ys0 & -> & -> & Hr); [intros; apply Hl; now right|].
      exists (x :: xs0), (y :: ys0). repeat split; auto. }
  destruct (X0 (s_atoms s') (fun a H => H)) as (xs0 & ys0 & Ex & Ey & H0). rewrite Ex in Ev.
  assert (H1 := networks_same (p_net P) xs0 ys0 H0).
  destruct (atomicNetworks (p_net P) xs0) as [xs1 n1] eqn:E1. destruct (atomicNetworks (p_net P) ys0) as [ys1 n2] eqn:E2. cbn [fst] in H1.
  assert (H2 := forces_same elems (map ge_elem ges) rc xs1 ys1 ST H1).
  destruct (calculateForces elems rc xs1) as [xs2|] eqn:F1; [|discriminate].
  destruct (calculateForces (map ge_elem ges) rc ys1) as [ys2|] eqn:F2; [|contradiction].
  exists es, xs0, ys0, (calculateEnergy xs1), xs2, ys2. split; auto. split; [exact ST|]. split; [exact Ex|]. split; [exact Ey|]. split; [exact H0|]. split.
  { unfold evaluateNNP. rewrite Es'. unfold calculateSymmetryFunctions. now rewrite Ex, E1, F1. }
  split; auto. unfold evaluateGroups. rewrite Es'. unfold calculateSymmetryFunctionGroups. fold ges. rewrite Ey, E2, F2.
  now rewrite (energy_same xs1 ys1 H1).
Qed.
Theorem grouped_evaluation : exists es E xs ys,
  setupAll (text T) (text_dec T_dec) (text_of T fmt conv) gsort msort N true (map (p_fs P) (seq 0 N)) = Some es /\
  evaluateNNP nsort fuel (p_weight P) (setupMemoryAll N (map (p_fs Q) (seq 0 N))) (p_net P) rc s = Some (E, xs) /\
  evaluateGroups nsort fuel (p_weight P) (setupScaling sc es) (p_net P) rc s = Some (E, ys) /\
  Forall2 same_but_cache xs ys.
Proof.
  destruct grouped_evaluation_sf as (es & xs0 & ys0 & E & xs & ys & A & _ & _ & _ & _ & B & C & D). exists es, E, xs, ys. auto.
Qed.
End Evaluation.

(** ** Final forms *)
Lemma smooth_distinct P rc s : everywhere P rc s smooth_at -> everywhere P rc s distinct_neighbors.
Proof.
  intros H i a e f H1 H2 H3. assert (Q := H i a e f H1 H2 H3). destruct Q as (_ & Q). unfold distinct_neighbors.
  destruct (sf_kind f); auto; destruct Q as (_ & Q); intros j k x y L X Y; apply (Q j k x y L X Y).
Qed.
Lemma scaled_everywhere sc P rc s R0 : everywhere (scaled_potential sc P) rc s R0 -> everywhere P rc s R0.
Proof.
  intros H i a e f H1 H2 H3. apply (H i a e (with_function_scaling (sc (a_element a) (sf_index (sf_c f))) f) H1 H2).
  cbn. now apply (in_map (fun f => with_function_scaling (sc (a_element a) (sf_index (sf_c f))) f)).
Qed.

Section Final.
Variables (T : Type) (T_dec : forall a b : T, {a = b} + {a <> b}) (fmt : R -> T) (conv : R).
Variables (gsort : list (list symfnc) -> list (list symfnc)) (msort : list symfnc -> list symfnc).
Variables (N : nat) (rc : R) (P : potential) (sc : nat -> nat -> scaling).
Notation Q := (scaled_potential sc P).
Variables (s : structure) (nsort : list neighbor -> list neighbor) (fuel : nat) (s' : structure).

Theorem grouped_energy : (forall l, Permutation l (gsort l)) -> (forall l, Permutation l (msort l)) -> conv <> 0 ->
  sensible N rc Q -> cached_and_grouped (text_of T fmt conv) fmt conv sc N P -> 0 <= rc -> s_numElements s = N -> unprocessed rc s -> is_sort nsort ->
  calculateNeighborList nsort fuel rc false s = Some s' -> everywhere Q rc s evaluable -> everywhere Q rc s distinct_neighbors ->
  exists es E ys, setupAll (text T) (text_dec T_dec) (text_of T fmt conv) gsort msort N true (map (p_fs P) (seq 0 N)) = Some es /\
    evaluateGroups nsort fuel (p_weight P) (setupScaling sc es) (p_net P) rc s = Some (E, ys) /\
    has_energy Q rc s E /\ (forall E', has_energy Q rc s E' -> E' = E) /\ E = rsum (map e_energy ys).
Proof.
  intros H1 H2 H3 H4 H5 H6 H7 H8 H9 H10 H11 H12.
  destruct (grouped_evaluation T T_dec fmt conv gsort msort H1 H2 H3 N rc P sc H4 H5 s nsort fuel s' H6 H7 H8 H9 H10
     (scaled_everywhere sc P rc s _ H11) (scaled_everywhere sc P rc s _ H12)) as (es & E & xs & ys & A & B & C & D).
  destruct (energy_evaluated N rc Q s nsort fuel s' H4 H6 H7 H8 H9 H10 H11) as (E' & xs' & B' & G1 & G2 & G3).
  change (p_weight Q) with (p_weight P) in B'. change (p_net Q) with (p_net P) in B'. rewrite B in B'. injection B' as <- <-.
  exists es, E, ys. split; auto. split; auto. split; auto. split; auto. rewrite G3. f_equal.
  clear - D. induction D as [|x y l l' (_ & _ & _ & _ & X & _) _ IH]; cbn; auto. now rewrite X, IH.
Qed.
Lemma work_same xs ys (u : nat -> vec) : Forall2 same_but_cache xs ys ->
  rsum (map (fun iy => dot (e_f (snd iy)) (u (fst iy))) (List.combine (seq 0 (length xs)) xs)) =
  rsum (map (fun iy => dot (e_f (snd iy)) (u (fst iy))) (List.combine (seq 0 (length ys)) ys)).
Proof.
  intros H. rewrite (Forall2_length_eq H). generalize (seq 0 (length ys)). intros l. f_equal. revert l.
  induction H as [|x y xs ys (_ & _ & _ & _ & _ & X) _ IH]; intros [|k l]; cbn; auto. now rewrite X, IH.
Qed.
Theorem grouped_gradient : (forall l, Permutation l (gsort l)) -> (forall l, Permutation l (msort l)) -> conv <> 0 ->
  sensible N rc Q -> cached_and_grouped (text_of T fmt conv) fmt conv sc N P -> 0 <= rc -> s_numElements s = N -> unprocessed rc s -> is_sort nsort ->
  calculateNeighborList nsort fuel rc false s = Some s' -> everywhere Q rc s smooth_at -> regular_networks Q rc s ->
  (no_self_image s rc \/ forall e f, In f (p_fs P e) -> radial (sf_kind f)) ->
  exists es E ys, setupAll (text T) (text_dec T_dec) (text_of T fmt conv) gsort msort N true (map (p_fs P) (seq 0 N)) = Some es /\
    evaluateGroups nsort fuel (p_weight P) (setupScaling sc es) (p_net P) rc s = Some (E, ys) /\
    has_energy Q rc s E /\ length ys = length (s_atoms s) /\
    forall u Ef, (forall t, has_energy Q rc (displaced u t s) (Ef t)) ->
       is_derive Ef 0 (- rsum (map (fun iy => dot (e_f (snd iy)) (u (fst iy))) (List.combine (seq 0 (length ys)) ys))).
Proof.
  intros H1 H2 H3 H4 H5 H6 H7 H8 H9 H10 H11 H12 H13.
  destruct (grouped_evaluation T T_dec fmt conv gsort msort H1 H2 H3 N rc P sc H4 H5 s nsort fuel s' H6 H7 H8 H9 H10)
    as (es & E & xs & ys & A & B & C & D).
  { apply (scaled_everywhere sc). intros i a e f X Y Z. apply (H11 i a e f X Y Z). }
  { apply smooth_distinct, (scaled_everywhere sc). auto. }
  destruct (forces_gradient N rc Q s nsort fuel s' H4 H6 H7 H8 H9 H10 H11 H12) as (E' & xs' & B' & G1 & G2 & G3).
  { destruct H13 as [H13|H13]; [now left|right]. intros e f Hf. apply in_map_iff in Hf as (h & <- & Hh). exact (H13 e h Hh). }
  change (p_weight Q) with (p_weight P) in B'. change (p_net Q) with (p_net P) in B'. rewrite B in B'. injection B' as <- <-.
  exists es, E, ys. split; auto. split; auto. split; auto. split; [rewrite <- G2; symmetry; apply (Forall2_length_eq D)|].
  intros u Ef HE. rewrite <- (work_same xs ys u D). auto.
Qed.
Theorem grouped_balanced : (forall l, Permutation l (gsort l)) -> (forall l, Permutation l (msort l)) -> conv <> 0 ->
  sensible N rc Q -> cached_and_grouped (text_of T fmt conv) fmt conv sc N P -> 0 <= rc -> s_numElements s = N -> unprocessed rc s -> is_sort nsort ->
  calculateNeighborList nsort fuel rc false s = Some s' -> everywhere Q rc s evaluable -> everywhere Q rc s distinct_neighbors ->
  (no_self_image s rc \/ forall e f, In f (p_fs P e) -> radial (sf_kind f)) ->
  exists es E ys, setupAll (text T) (text_dec T_dec) (text_of T fmt conv) gsort msort N true (map (p_fs P) (seq 0 N)) = Some es /\
    evaluateGroups nsort fuel (p_weight P) (setupScaling sc es) (p_net P) rc s = Some (E, ys) /\
    forall w, rsum (map (fun y => dot (e_f y) w) ys) = 0.
Proof.
  intros H1 H2 H3 H4 H5 H6 H7 H8 H9 H10 H11 H12 H13.
  destruct (grouped_evaluation T T_dec fmt conv gsort msort H1 H2 H3 N rc P sc H4 H5 s nsort fuel s' H6 H7 H8 H9 H10
     (scaled_everywhere sc P rc s _ H11) (scaled_everywhere sc P rc s _ H12)) as (es & E & xs & ys & A & B & C & D).
  destruct (forces_balanced N rc Q s nsort fuel s' H4 H6 H7 H8 H9 H10 H11) as (E' & xs' & B' & G1).
  { destruct H13 as [H13|H13]; [now left|right]. intros e f Hf. apply in_map_iff in Hf as (h & <- & Hh). exact (H13 e h Hh). }
  change (p_weight Q) with (p_weight P) in B'. change (p_net Q) with (p_net P) in B'. rewrite B in B'. injection B' as <- <-.
  exists es, E, ys. split; auto. split; auto. intros w. rewrite <- (G1 w).
  clear - D. induction D as [|x y l l' (_ & _ & _ & _ & _ & X) _ IH]; cbn; auto. now rewrite X, IH.
Qed.
End Final.
