(** Symmetry functions after pruning (C73). *)
From Coq Require Import Reals ZArith Ascii String Bool Arith Lia Lra Permutation Sorted.
From Flocq Require Import Core.
From Coq Require Import List.
From Verif Require Import Base.AssocMap Model.Strings Model.Printf Model.ElementMap Model.CoreFunction Model.CutoffFunction
  Model.CompactScreening Model.Scaling Model.SymFunctions Model.SymSetup Model.SymLines Model.Settings Spec.StringSpec Spec.ElementSpec Spec.CompactSpec
  Spec.SymSpec Spec.SetupSpec Spec.ForceSpec Spec.SymLineSpec Proofs.StringProofs Proofs.ElementMapProofs Proofs.SetupProofs Proofs.UnitProofs
  Proofs.SymLineProofs Proofs.SymLineSetup Proofs.SymLineMode Proofs.SymLineFinal Proofs.SymLineResult Proofs.PruneSettings.
Import ListNotations.
Local Open Scope R_scope.

Lemma F2_filter {A B} (P : A -> B -> Prop) (p : A -> bool) (q : B -> bool) l l' : (forall x y, P x y -> p x = q y) ->
  Forall2 P l l' -> Forall2 P (filter p l) (filter q l').
Proof. intros H F. induction F as [|x y l l' E F IH]; cbn; auto. rewrite (H x y E). destruct (q y); auto. Qed.
Lemma F2_map_eq {A B C} (f : A -> C) (g : B -> C) l l' : Forall2 (fun x y => f x = g y) l l' -> map f l = map g l'.
Proof. induction 1; cbn; congruence. Qed.
Lemma map_some_inj {A} (l l' : list A) : map Some l = map Some l' -> l = l'.
Proof. revert l'. induction l as [|x l IH]; intros [|y l']; cbn; intros H; try discriminate; auto. injection H as -> H. f_equal; auto. Qed.

Section Prune.
  Variables (em : element_map) (normalize : bool) (conv : R) (t : cutoff_kind) (alpha : R).
  Hypothesis (HR : registered em) (Hc : 0 < conv).
  Variable P : nat -> bool.
  Let pick := filter (fun f => P (lf_line f)).

  Lemma element_pruned sort sort' e fs gs r gs' r' : sorts lf_lt sort -> sorts lf_lt sort' -> Forall lf_canon fs ->
    finish normalize conv t alpha sort e fs = Done (gs, r) -> finish normalize conv t alpha sort' e (pick fs) = Done (gs', r') ->
    map lf_kind gs' = map lf_kind (pick gs) /\ Permutation (map lf_line gs') (map lf_line (pick gs)).
  Proof.
    intros S S' C H H'.
    assert (C' : Forall lf_canon (pick fs)).
    { rewrite Forall_forall in *. intros f Hf. apply filter_In in Hf. now apply C. }
    unfold finish in *. apply finish_done in H, H'; auto using of_canon. destruct H as (M & _), H' as (M' & _).
    set (u := map (unitf normalize conv) (of_element e fs)) in *.
    assert (Eu : map (unitf normalize conv) (of_element e (pick fs)) = pick u).
    { unfold u, pick, of_element. rewrite filter_filter, map_filter. f_equal. }
    rewrite Eu in M'. destruct (S u) as (P1 & S1), (S' (pick u)) as (P2 & S2).
    assert (Cu : Forall lf_canon u) by (apply unit_canons; auto using of_canon).
    assert (Pp : Permutation (sort' (pick u)) (pick (sort u))).
    { etransitivity; [symmetry; exact P2|]. apply filter_perm, P1. }
    assert (E : map proj (sort' (pick u)) = map proj (pick (sort u))).
    { apply sort_unique; auto; [now apply Permutation_map| |now apply sorted_filter].
      apply (perm_forall lf_canon (pick u)); [exact P2|]. rewrite Forall_forall in *. intros f Hf. apply filter_In in Hf. now apply Cu. }
    apply final_list in M, M'.
    assert (F : Forall2 (fun f g => lf_ec g = lf_ec f /\ lf_line g = lf_line f /\ set_cutoff t alpha (lf_kind f) = Some (lf_kind g) /\
      (is_gaussian (lf_kind f) = false -> lf_subtype g = lf_subtype f) /\
      sf_ci (sf_c (lf_sf g)) = sf_ci (sf_c (lf_sf f)) /\ sf_scaling (sf_c (lf_sf g)) = sf_scaling (sf_c (lf_sf f))) (pick (sort u)) (pick gs)).
    { apply F2_filter; auto. intros x y (_ & -> & _). reflexivity. }
    assert (K : forall ss gs, Forall2 (fun f g => lf_ec g = lf_ec f /\ lf_line g = lf_line f /\ set_cutoff t alpha (lf_kind f) = Some (lf_kind g) /\
      (is_gaussian (lf_kind f) = false -> lf_subtype g = lf_subtype f) /\
      sf_ci (sf_c (lf_sf g)) = sf_ci (sf_c (lf_sf f)) /\ sf_scaling (sf_c (lf_sf g)) = sf_scaling (sf_c (lf_sf f))) ss gs ->
      map (set_cutoff t alpha) (map (fun x => snd x) (map proj ss)) = map Some (map lf_kind gs) /\ map lf_line ss = map lf_line gs).
    { clear. intros ss gs F. rewrite !map_map. split; apply F2_map_eq; eapply F2_weaken; try exact F; cbn; intuition congruence. }
    destruct (K _ _ F) as (K1 & K2), (K _ _ M') as (K1' & K2'). split.
    - apply map_some_inj. rewrite <- K1, <- K1', E. reflexivity.
    - rewrite <- K2, <- K2'. now apply Permutation_map.
  Qed.

  Theorem values_pruned sort sort' values fss rmax : sorts lf_lt sort -> sorts lf_lt sort' ->
    setupSymmetryFunctions sort em normalize conv t alpha values = Done (fss, rmax) ->
    exists fss' rmax',
      setupSymmetryFunctions sort' em normalize conv t alpha (filter (fun v => P (snd v)) values) = Done (fss', rmax') /\
      Forall2 (fun fs fs' => map lf_kind fs' = map lf_kind (pick fs) /\ Permutation (map lf_line fs') (map lf_line (pick fs))) fss fss'.
  Proof.
    intros S S' H.
    assert (A : exists fss' rmax', setupSymmetryFunctions sort' em normalize conv t alpha (filter (fun v => P (snd v)) values) = Done (fss', rmax')).
    { apply accepted; auto. intros v Hv. apply filter_In in Hv. apply (proj1 (accepted em normalize conv t alpha HR Hc sort values S)); [eauto|apply Hv]. }
    destruct A as (fss' & rmax' & H'). exists fss', rmax'. split; auto.
    apply setup_done in H, H'; auto. destruct H as (fs & rs & M & F & -> & _), H' as (fs' & rs' & M' & F' & -> & _).
    destruct (reads_canon _ _ _ M) as (C & _).
    assert (E : fs' = pick fs).
    { apply mapo_done in M, M'.
      assert (M2 : Forall2 (fun v f => read_line em v = Done f) (filter (fun v => P (snd v)) values) (pick fs)).
      { apply F2_filter; auto. intros v f R. apply read_new in R. destruct R as (_ & _ & ->). reflexivity. }
      apply mapo_done in M', M2. congruence. }
    subst fs'. clear M M'.
    revert F F'. generalize (seq 0 (em_size em)). intros l F. revert rs'. induction F as [|e (gs & r) l rs E F IH]; intros rs' F'; inversion F'; subst; cbn; constructor.
    - destruct y as (gs' & r'). cbn. exact (element_pruned sort sort' e fs gs r gs' r' S S' C E H1).
    - now apply IH.
  Qed.
End Prune.

(** ** The two ways of pruning *)
(** Functions flagged by [bs]. *)
Definition select {A} (bs : list bool) (fs : list A) : list A := map snd (filter fst (List.combine bs fs)).
Lemma select_in {A} bs (fs : list A) x : In x (select bs fs) <-> exists j, nth_error bs j = Some true /\ nth_error fs j = Some x.
Proof.
  revert fs. induction bs as [|b bs IH]; intros [|y fs]; unfold select in *; cbn.
  - split; [easy|]. intros (j & H & _). destruct j; discriminate.
  - split; [easy|]. intros (j & H & _). destruct j; discriminate.
  - split; [easy|]. intros (j & _ & H). destruct j; discriminate.
  - assert (X : (exists j, nth_error (b :: bs) j = Some true /\ nth_error (y :: fs) j = Some x) <-> (b = true /\ y = x) \/
        exists j, nth_error bs j = Some true /\ nth_error fs j = Some x).
    { split; [intros ([|j] & A1 & A2); [left; cbn in *; split; congruence|right; eauto]|].
      intros [(-> & ->)|(j & A1 & A2)]; [exists 0%nat; auto|exists (Datatypes.S j); auto]. }
    rewrite X, <- IH. destruct b; cbn; intuition congruence.
Qed.
(** Distinct lines: taking away the lines flagged false leaves the functions
    flagged true. *)
Lemma select_lines prune bss fss : NoDup (map lf_line (concat fss)) -> Forall2 (fun bs fs => List.length bs = List.length fs) bss fss ->
  (forall l, In l prune <-> exists bs fs f, In (bs, fs) (List.combine bss fss) /\ In f (select (map negb bs) fs) /\ lf_line f = l) ->
  Forall2 (fun bs fs => filter (fun f => kept prune (lf_line f)) fs = select bs fs) bss fss.
Proof.
  intros N L Hp.
  assert (G : forall bs fs, In (bs, fs) (List.combine bss fss) -> List.length bs = List.length fs ->
    forall j f, nth_error fs j = Some f -> kept prune (lf_line f) = nth j bs false).
  { intros bs fs Hin Le j f Hj. assert (Hb : exists b, nth_error bs j = Some b).
    { destruct (nth_error bs j) eqn:Q; eauto. apply nth_error_None in Q. assert (j < List.length fs)%nat by (apply nth_error_Some; congruence). lia. }
    destruct Hb as (b & Hb). rewrite (nth_error_nth _ _ _ Hb). destruct b.
    - apply kept_iff. intros Hi. apply Hp in Hi. destruct Hi as (bs2 & fs2 & f2 & Hin2 & Hs & El). apply select_in in Hs.
      destruct Hs as (j2 & B2 & F2). rewrite nth_error_map in B2.
      assert (U : f2 = f).
      { assert (I1 : In f (concat fss)). { apply in_concat. exists fs. split; [eapply in_combine_r; eauto|]. eapply nth_error_In; eauto. }
        assert (I2 : In f2 (concat fss)). { apply in_concat. exists fs2. split; [eapply in_combine_r; eauto|]. eapply nth_error_In; eauto. }
        clear - N I1 I2 El. induction (concat fss) as [|x l IH]; [easy|]. cbn in N. inversion N as [|? ? Nx Nl]; subst.
        destruct I1 as [<-|I1], I2 as [<-|I2]; auto; exfalso; apply Nx; [rewrite <- El|rewrite El]; now apply in_map. }
      subst f2.
      (* the same occurrence *)
      assert (Nd : NoDup (concat fss)) by (eapply NoDup_map_inv; eauto).
      assert (Q : bs2 = bs /\ j2 = j).
      { clear - Nd Hin Hin2 Hj F2 L. revert fss L Hin Hin2 Nd. induction bss as [|b bss IH]; intros [|g fss] L Hin Hin2 Nd; try easy.
        inversion L as [|? ? ? ? L1 L2]; subst. cbn in Nd.
        assert (Nd1 : NoDup g) by (clear - Nd; induction g; cbn in *; [constructor|inversion Nd; subst; constructor; auto; intros X; apply H1, in_or_app; auto]).
        assert (Dj : forall x, In x g -> ~ In x (concat fss)).
        { clear - Nd. induction g as [|y g IH]; cbn in *; [easy|]. inversion Nd; subst. intros x [<-|Hx]; [intros X; apply H1, in_or_app; auto|auto]. }
        assert (Nd2 : NoDup (concat fss)) by (clear - Nd; induction g; cbn in *; auto; inversion Nd; auto).
        cbn in Hin, Hin2. destruct Hin as [X|Hin], Hin2 as [X2|Hin2].
        - injection X as -> ->. injection X2 as -> ->. split; auto. apply (proj1 (NoDup_nth_error _) Nd1); [apply nth_error_Some; rewrite F2; discriminate|now rewrite F2, Hj].
        - injection X as -> ->. exfalso. apply (Dj f); [eapply nth_error_In; eauto|]. apply in_concat. exists fs2. split; [eapply in_combine_r; eauto|eapply nth_error_In; eauto].
        - injection X2 as -> ->. exfalso. apply (Dj f); [eapply nth_error_In; eauto|]. apply in_concat. exists fs. split; [eapply in_combine_r; eauto|eapply nth_error_In; eauto].
        - eapply IH; eauto. }
      destruct Q as (-> & ->). rewrite Hb in B2. discriminate.
    - apply not_true_iff_false. intros K. apply kept_iff in K. apply K. apply Hp. exists bs, fs, f. split; auto. split; auto.
      apply select_in. exists j. split; auto. rewrite nth_error_map, Hb. reflexivity. }
  clear Hp N. induction L as [|bs fs bss fss Le L IH]; constructor.
  - specialize (G bs fs (or_introl eq_refl) Le). clear - G Le. revert fs Le G. induction bs as [|b bs IH]; intros [|f fs] Le G; try discriminate; auto.
    unfold select. cbn. rewrite (G 0%nat f eq_refl). cbn. unfold select in IH.
    rewrite (IH fs); [destruct b; reflexivity|cbn in Le; lia|]. intros j g Hj. exact (G (Datatypes.S j) g Hj).
  - apply IH. intros bs' fs' Hin. apply G. now right.
Qed.

Lemma F2_len {A B} (P : A -> B -> Prop) l l' : Forall2 P l l' -> List.length l = List.length l'.
Proof. induction 1; cbn; auto. Qed.
Lemma same_lines fss elements : same_functions fss elements -> map lf_line (concat elements) = map lf_line (concat fss).
Proof.
  induction 1 as [|fs gs fss elements E F IH]; auto. cbn. rewrite !map_app, IH. f_equal. symmetry. apply F2_map_eq.
  eapply F2_weaken; [|exact E]. cbn. intuition.
Qed.
Section Reload.
  Variables (em : element_map) (normalize : bool) (conv : R) (t : cutoff_kind) (alpha : R).
  Hypothesis (HR : registered em) (Hc : 0 < conv).
  Variables (text : str) (s : settings) (values : list (str * nat)) (sort : list linefn -> list linefn)
    (fss elements : list (list linefn)) (rmax : R).
  Hypothesis (Hl : loadFile settings_init text = (s, 0%nat)) (Hv : getValues s sym_short = Some values)
    (Hs : sorts lf_lt sort) (Hf : setupSymmetryFunctions sort em normalize conv t alpha values = Done (fss, rmax))
    (He : same_functions fss elements).

  Lemma made_lines : Permutation (map lf_line (concat fss)) (map snd values).
  Proof.
    destruct (functions em normalize conv t alpha HR Hc sort values fss rmax Hs Hf) as (_ & (vss & P & F) & _).
    etransitivity; [|apply Permutation_map; exact P].
    replace (map lf_line (concat fss)) with (map snd (concat vss)); [reflexivity|].
    clear - F. induction F as [|vs fs vss fss0 E F IH]; auto. cbn. rewrite !map_app, IH. f_equal. apply F2_map_eq.
    eapply F2_weaken; [|exact E]. intros v f (L & _). auto.
  Qed.

  Theorem reload_flags prune bss sort' : sorts lf_lt sort' ->
    Forall2 (fun bs fs => List.length bs = List.length fs) bss elements ->
    (forall l, In l prune <-> exists bs fs f, In (bs, fs) (List.combine bss elements) /\ In f (select (map negb bs) fs) /\ lf_line f = l) ->
    (exists bs fs, In (bs, fs) (List.combine bss elements) /\ select bs fs <> []) ->
    exists s' values' fss' rmax', loadFile settings_init (writePrunedSettingsFile s prune) = (s', 0%nat) /\
      getValues s' sym_short = Some values' /\
      setupSymmetryFunctions sort' em normalize conv t alpha values' = Done (fss', rmax') /\
      (forall kw, ~ In kw sym_names -> getValue s' kw = getValue s kw /\ getValues s' kw = getValues s kw /\
         forall b, keywordExists s' kw b = keywordExists s kw b) /\
      Forall2 (fun x fs' => map lf_kind fs' = map lf_kind (select (fst x) (snd x))) (List.combine bss elements) fss'.
  Proof.
    intros Hs' L Hp (bs0 & fs0 & Hin0 & Hk).
    assert (N : NoDup (map lf_line (concat elements))).
    { rewrite (same_lines _ _ He). apply Permutation_NoDup with (map snd values); [symmetry; apply made_lines|]. eapply values_lines; eauto. }
    pose proof (select_lines prune bss elements N L Hp) as Sel.
    assert (Lines : forall l, In l (map lf_line (concat elements)) <-> In l (map snd values)).
    { intros l. rewrite (same_lines _ _ He). split; apply Permutation_in; [|symmetry]; apply made_lines. }
    destruct (pruned_settings text s values prune Hl Hv) as (s' & Hl' & Hv' & Ho).
    { intros l Hin. apply Hp in Hin. destruct Hin as (bs & fs & f & Hin & Hsel & <-). apply Lines. apply in_map, in_concat.
      exists fs. split; [eapply in_combine_r; eauto|]. apply select_in in Hsel. destruct Hsel as (j & _ & Hj). eapply nth_error_In; eauto. }
    { destruct (select bs0 fs0) as [|f r] eqn:Q; [easy|].
      assert (Fk : In f (filter (fun f => kept prune (lf_line f)) fs0)).
      { assert (E0 : filter (fun f => kept prune (lf_line f)) fs0 = select bs0 fs0).
        { clear - Sel Hin0. induction Sel as [|bs fs bss fss E F IH]; [easy|]. destruct Hin0 as [X|X]; [injection X as -> ->; auto|auto]. }
        rewrite E0, Q. now left. }
      apply filter_In in Fk. destruct Fk as (Fin & Fk).
      assert (Hl0 : In (lf_line f) (map snd values)). { apply Lines. apply in_map, in_concat. exists fs0. split; [eapply in_combine_r; eauto|auto]. }
      apply in_map_iff in Hl0. destruct Hl0 as (v & Ev & Hv0). exists v. split; auto. rewrite Ev. now apply kept_iff. }
    destruct (values_pruned em normalize conv t alpha HR Hc (kept prune) sort sort' values fss rmax Hs Hs' Hf) as (fss' & rmax' & Hf' & F).
    exists s', (filter (fun v => kept prune (snd v)) values), fss', rmax'. repeat split; auto; try apply Ho; auto.
    clear - F Sel He L. revert fss fss' He F. induction Sel as [|bs fs bss elements E Sel IH]; intros fss fss' He F.
    - inversion He; subst. inversion F; subst. constructor.
    - inversion He as [|g ? fss0 ? Eg Eh]; subst. inversion F as [|? fs' ? fss0' Ef Fh]; subst. inversion L; subst. cbn [List.combine]. constructor; [|eapply IH; eauto].
      cbn [fst snd]. destruct Ef as (Ef & _). rewrite Ef, <- E. apply F2_map_eq.
      eapply F2_weaken; [|apply (F2_filter _ _ (fun f => kept prune (lf_line f))); [|exact Eg]]; cbv beta.
      + intros x y (_ & E2). now symmetry.
      + intros x y (E1 & _). now rewrite E1.
  Qed.

  Lemma select_filter {A} (p : A -> bool) fs : select (map p fs) fs = filter p fs.
  Proof. unfold select. induction fs as [|f fs IH]; cbn; auto. destruct (p f); cbn; now rewrite IH. Qed.
  Lemma combine_map {A B} (g : B -> A) l x y : In (x, y) (List.combine (map g l) l) <-> In y l /\ x = g y.
  Proof. induction l as [|z l IH]; cbn; [tauto|]. rewrite IH. split; [intros [E|E]; [injection E as <- <-; auto|tauto]|intros ([->|H] & ->); auto]. Qed.
  Lemma wide_ltR threshold f : wide threshold f = negb (ltR (Rabs (s_Gmax (sf_scaling (sf_c (lf_sf f))) - s_Gmin (sf_scaling (sf_c (lf_sf f))))) threshold).
  Proof. unfold wide, ltR. destruct (Rle_dec _ _), (Rlt_dec _ _); auto; lra. Qed.

  Theorem reload_range threshold sort' : sorts lf_lt sort' ->
    (exists fs f, In fs elements /\ In f fs /\ wide threshold f = true) ->
    exists s' values' fss' rmax', loadFile settings_init (writePrunedSettingsFile s (pruneRange threshold elements)) = (s', 0%nat) /\
      getValues s' sym_short = Some values' /\
      setupSymmetryFunctions sort' em normalize conv t alpha values' = Done (fss', rmax') /\
      (forall kw, ~ In kw sym_names -> getValue s' kw = getValue s kw /\ getValues s' kw = getValues s kw /\
         forall b, keywordExists s' kw b = keywordExists s kw b) /\
      Forall2 (fun fs fs' => map lf_kind fs' = map lf_kind (filter (wide threshold) fs)) elements fss'.
  Proof.
    intros Hs' (fs0 & f0 & Hfs0 & Hf0 & Hw).
    destruct (reload_flags (pruneRange threshold elements) (map (map (wide threshold)) elements) sort' Hs') as (s' & values' & fss' & rmax' & A1 & A2 & A3 & A4 & A5).
    - clear. induction elements; cbn; constructor; auto. apply map_length.
    - intros l. unfold pruneRange. rewrite in_flat_map. split.
      + intros (fs & Hfs & Hl0). apply in_map_iff in Hl0. destruct Hl0 as (f & <- & Hf1). apply filter_In in Hf1.
        exists (map (wide threshold) fs), fs, f. split; [apply (proj2 (combine_map _ _ _ _)); split; [assumption|reflexivity]|]. split; auto. rewrite map_map, select_filter. apply filter_In.
        split; [apply Hf1|]. rewrite wide_ltR. now rewrite (proj2 Hf1).
      + intros (bs & fs & f & Hin & Hsel & <-). apply combine_map in Hin. destruct Hin as (Hin & ->). exists fs. split; auto.
        rewrite map_map, select_filter in Hsel. apply filter_In in Hsel. apply in_map. apply filter_In. split; [apply Hsel|].
        destruct Hsel as (_ & Hw'). rewrite wide_ltR, negb_involutive in Hw'. exact Hw'.
    - exists (map (wide threshold) fs0), fs0. split; [apply (proj2 (combine_map _ _ _ _)); split; [assumption|reflexivity]|]. rewrite select_filter. intros E.
      assert (X : In f0 (filter (wide threshold) fs0)) by (apply filter_In; auto). rewrite E in X. easy.
    - exists s', values', fss', rmax'. repeat split; auto; try apply A4; auto.
      clear - A5. revert fss' A5. induction elements as [|fs els IH]; intros fss' A5; cbn [map List.combine] in A5; inversion A5; subst; constructor; auto.
      cbn [fst snd] in H1. rewrite select_filter in H1. exact H1.
  Qed.

  (** Sensitivities. *)
  Lemma sens_inner threshold sens e fs : forall j prune prune',
    foldo (fun (jf : nat * linefn) prune => row <- throwing (nth_error sens e); x <- throwing (nth_error row (fst jf));
        Done (if ltR x threshold then prune ++ [lf_line (snd jf)] else prune)) (List.combine (seq j (List.length fs)) fs) prune = Done prune' <->
    (fs = [] \/ List.length fs + j <= List.length (nth e sens []))%nat /\
    prune' = prune ++ map (fun x => lf_line (snd x)) (filter (fun x => ltR (fst x) threshold) (List.combine (skipn j (nth e sens [])) fs)).
  Proof.
    induction fs as [|f fs IH]; intros j prune prune'; cbn [List.length seq List.combine foldo].
    - destruct (skipn j (nth e sens [])); cbn; rewrite app_nil_r; split; [intros H; injection H as <-; auto|intros (_ & ->); auto|intros H; injection H as <-; auto|intros (_ & ->); auto].
    - assert (X : forall x, nth_error (nth e sens []) j = Some x -> skipn j (nth e sens []) = x :: skipn (Datatypes.S j) (nth e sens [])).
      { intros x. generalize (nth e sens []). clear. induction j as [|j IHj]; intros [|y l] H; try discriminate; cbn in *; [congruence|now apply IHj]. }
      assert (Y : forall row, nth_error sens e = Some row -> nth e sens [] = row) by (intros row; apply nth_error_nth).
      split.
      + intros H. apply bindo_done in H. destruct H as (p1 & H1 & H). apply bindo_done in H1. destruct H1 as (row & R & H1). apply throwing_done in R.
        apply bindo_done in H1. destruct H1 as (x & Ex & H1). apply throwing_done in Ex. cbn [fst snd] in *. injection H1 as <-.
        apply IH in H. destruct H as (L & ->). rewrite (Y row R) in *. rewrite (X x Ex).
        assert (j < List.length row)%nat by (apply nth_error_Some; congruence). split; [right; destruct L as [->|L]; cbn in *; lia|].
        cbn [List.combine filter fst]. destruct (ltR x threshold); cbn; now rewrite <- ?app_assoc.
      + intros (L & ->). destruct L as [L|L]; [discriminate|].
        destruct (nth_error (nth e sens []) j) as [x|] eqn:Ex; [|apply nth_error_None in Ex; lia].
        assert (Z : nth_error sens e = Some (nth e sens [])).
        { apply nth_error_nth'. destruct (Nat.lt_ge_cases e (List.length sens)) as [|G]; auto. rewrite nth_overflow in Ex by auto. now destruct j. }
        apply bindo_done. exists (if ltR x threshold then prune ++ [lf_line f] else prune). split.
        { cbn [fst snd]. apply bindo_done. exists (nth e sens []). split; [now apply throwing_done|]. rewrite Ex. reflexivity. }
        apply (proj2 (IH _ _ _)). split; [right; lia|]. rewrite (X x eq_refl).
        cbn [List.combine filter fst]. destruct (ltR x threshold); cbn; now rewrite <- ?app_assoc.
  Qed.
  Definition low threshold (sens : list (list R)) (e : nat) (fs : list linefn) : list nat :=
    map (fun x => lf_line (snd x)) (filter (fun x => ltR (fst x) threshold) (List.combine (nth e sens []) fs)).
  Lemma sens_outer threshold sens els : forall k prune prune',
    foldo (fun (ie : nat * list linefn) prune =>
      foldo (fun (jf : nat * linefn) prune => row <- throwing (nth_error sens (fst ie)); x <- throwing (nth_error row (fst jf));
        Done (if ltR x threshold then prune ++ [lf_line (snd jf)] else prune)) (List.combine (seq 0 (List.length (snd ie))) (snd ie)) prune)
      (List.combine (seq k (List.length els)) els) prune = Done prune' <->
    (forall e fs, nth_error els e = Some fs -> (List.length fs <= List.length (nth (k + e) sens []))%nat) /\
    prune' = prune ++ concat (map (fun ie => low threshold sens (fst ie) (snd ie)) (List.combine (seq k (List.length els)) els)).
  Proof.
    induction els as [|fs els IH]; intros k prune prune'; cbn [List.length seq List.combine foldo map concat].
    - rewrite app_nil_r. split; [intros H; injection H as <-; split; auto; intros [|]; discriminate|intros (_ & ->); auto].
    - rewrite bindo_done. cbn [fst snd]. split.
      + intros (p1 & H1 & H). apply sens_inner in H1. destruct H1 as (L & ->). apply IH in H. destruct H as (Ls & ->). split; [|now rewrite <- app_assoc].
        intros [|e] gs G; cbn in G.
        * injection G as <-. rewrite Nat.add_0_r. destruct L as [->|L]; cbn; lia.
        * rewrite <- Nat.add_succ_comm. apply Ls, G.
      + intros (L & ->). exists (prune ++ low threshold sens k fs). split.
        * apply (proj2 (sens_inner _ _ _ _ _ _ _)). split; [right; rewrite Nat.add_0_r; rewrite <- (Nat.add_0_r k); now apply (L 0%nat)|reflexivity].
        * apply (proj2 (IH _ _ _)). split; [intros e gs G; rewrite Nat.add_succ_comm; now apply L|now rewrite <- app_assoc].
  Qed.
  Theorem sensitivity_accepted threshold sens : (exists prune, pruneSensitivity threshold sens elements = Done prune) <->
    forall e fs, nth_error elements e = Some fs -> (List.length fs <= List.length (nth e sens []))%nat.
  Proof.
    unfold pruneSensitivity. split.
    - intros (prune & H). apply (proj1 (sens_outer threshold sens elements 0 [] prune)) in H. apply H.
    - intros H. eexists. apply (proj2 (sens_outer threshold sens elements 0 [] _)). split; [exact H|reflexivity].
  Qed.

  Theorem reload_sensitivity threshold sens prune sort' : sorts lf_lt sort' ->
    pruneSensitivity threshold sens elements = Done prune ->
    (exists e fs, nth_error elements e = Some fs /\ sensitive threshold sens e fs <> []) ->
    exists s' values' fss' rmax', loadFile settings_init (writePrunedSettingsFile s prune) = (s', 0%nat) /\
      getValues s' sym_short = Some values' /\
      setupSymmetryFunctions sort' em normalize conv t alpha values' = Done (fss', rmax') /\
      (forall kw, ~ In kw sym_names -> getValue s' kw = getValue s kw /\ getValues s' kw = getValues s kw /\
         forall b, keywordExists s' kw b = keywordExists s kw b) /\
      List.length fss' = List.length elements /\
      forall e fs, nth_error elements e = Some fs ->
        exists fs', nth_error fss' e = Some fs' /\ map lf_kind fs' = map lf_kind (sensitive threshold sens e fs).
  Proof.
    intros Hs' Hp (e0 & fs0 & H0 & Hne). unfold pruneSensitivity in Hp.
    apply (proj1 (sens_outer threshold sens elements 0 [] prune)) in Hp. destruct Hp as (L & Ep). cbn [app] in Ep.
    set (flag := fun x : R => if Rle_dec threshold x then true else false).
    set (flags := fun e (fs : list linefn) => map flag (firstn (List.length fs) (nth e sens []))).
    set (bss := map (fun ie => flags (fst ie) (snd ie)) (List.combine (seq 0 (List.length elements)) elements)).
    assert (Fl : forall x, negb (flag x) = ltR x threshold). { intros x. unfold flag, ltR. destruct (Rle_dec _ _), (Rlt_dec _ _); auto; lra. }
    assert (Se : forall (g : R -> bool) e (fs : list linefn), select (map g (firstn (List.length fs) (nth e sens []))) fs = map snd (filter (fun x => g (fst x)) (List.combine (nth e sens []) fs))).
    { intros g e. generalize (nth e sens []). intros row fs. revert row. unfold select. induction fs as [|f fs IH]; intros [|x row]; auto.
      cbn. destruct (g x); cbn; now rewrite IH. }
    assert (Nth : forall els k j, nth_error (List.combine (seq k (List.length els)) els) j = option_map (pair (k + j)%nat) (@nth_error (list linefn) els j)).
    { clear. induction els as [|x els IH]; intros k [|j]; cbn; auto; [now rewrite Nat.add_0_r|]. rewrite IH, Nat.add_succ_comm. reflexivity. }
    assert (Cb : forall bs fs, In (bs, fs) (List.combine bss elements) <-> exists e, nth_error elements e = Some fs /\ bs = flags e fs).
    { intros bs fs. unfold bss.
      assert (G : forall (els : list (list linefn)) k, In (bs, fs) (List.combine (map (fun ie => flags (fst ie) (snd ie)) (List.combine (seq k (List.length els)) els)) els) <->
        exists e, nth_error els e = Some fs /\ bs = flags (k + e)%nat fs).
      { induction els as [|x els IH]; intros k; cbn.
        - split; [easy|]. intros ([|e] & H & _); discriminate.
        - rewrite IH. split.
          + intros [E|(e & E & ->)]; [injection E as <- <-; exists 0%nat; rewrite Nat.add_0_r; auto|exists (Datatypes.S e); rewrite <- Nat.add_succ_comm; auto].
          + intros ([|e] & E & ->); [left; cbn in E; injection E as ->; now rewrite Nat.add_0_r|right; exists e; rewrite Nat.add_succ_comm; auto]. }
      apply (G elements 0%nat). }
    destruct (reload_flags prune bss sort' Hs') as (s' & values' & fss' & rmax' & A1 & A2 & A3 & A4 & A5).
    - unfold bss. assert (L' : forall e fs, nth_error elements e = Some fs -> (List.length fs <= List.length (nth (0 + e) sens []))%nat) by exact L.
      revert L'. generalize 0%nat. clear. induction elements as [|fs els IH]; intros k L'; cbn; constructor.
      + unfold flags. cbn. rewrite map_length, firstn_length. specialize (L' 0%nat fs eq_refl). rewrite Nat.add_0_r in L'. lia.
      + apply IH. intros e gs G. rewrite Nat.add_succ_comm. now apply L'.
    - intros l. rewrite Ep, in_concat. split.
      + intros (ls & Hls & Hl0). apply in_map_iff in Hls. destruct Hls as ((e & fs) & <- & Hin). apply In_nth_error in Hin. destruct Hin as (j & Hj).
        rewrite Nth in Hj. destruct (nth_error elements j) as [gs|] eqn:G; [|discriminate]. cbn in Hj. injection Hj as <- <-.
        unfold low in Hl0. cbn [fst snd] in Hl0. apply in_map_iff in Hl0. destruct Hl0 as (x & <- & Hx).
        exists (flags j gs), gs, (snd x). split; [apply Cb; eauto|]. split; auto. unfold flags. rewrite map_map, (Se (fun y => negb (flag y))).
        apply in_map. apply filter_In. apply filter_In in Hx. split; [apply Hx|]. rewrite Fl. apply Hx.
      + intros (bs & fs & f & Hin & Hsel & <-). apply Cb in Hin. destruct Hin as (e & G & ->).
        exists (low threshold sens e fs). split.
        * apply in_map_iff. exists (e, fs). split; auto. apply nth_error_In with e. rewrite Nth, G. reflexivity.
        * unfold flags in Hsel. rewrite map_map, (Se (fun y => negb (flag y))) in Hsel. apply in_map_iff in Hsel. destruct Hsel as (x & <- & Hx).
          unfold low. apply (in_map (fun y => lf_line (snd y))). apply filter_In. apply filter_In in Hx. split; [apply Hx|]. rewrite <- Fl. apply Hx.
    - exists (flags e0 fs0), fs0. split; [apply Cb; eauto|]. unfold flags. rewrite Se. exact Hne.
    - exists s', values', fss', rmax'. split; auto. split; auto. split; auto. split; auto.
      assert (Le : List.length bss = List.length elements).
      { unfold bss. rewrite map_length, combine_length, seq_length, Nat.min_id. reflexivity. }
      pose proof (F2_len _ _ _ A5) as Lf. rewrite combine_length, Le, Nat.min_id in Lf. split; auto.
      intros e fs G. destruct (nth_error fss' e) as [fs'|] eqn:G'.
      2:{ apply nth_error_None in G'. assert (e < List.length elements)%nat by (apply nth_error_Some; congruence). lia. }
      exists fs'. split; auto.
      assert (Gc : nth_error (List.combine bss elements) e = Some (flags e fs, fs)).
      { assert (Gb : nth_error bss e = Some (flags e fs)) by (unfold bss; rewrite nth_error_map, Nth, G; reflexivity).
        revert G Gb. generalize bss, (flags e fs). intros bss0 b0. clear. revert e elements. induction bss0 as [|b bs IH]; intros [|e] [|x els] G Gb; try discriminate; cbn in *; [congruence|auto]. }
      assert (R : forall (l : list (list bool * list linefn)) l', Forall2 (fun x fs' => map lf_kind fs' = map lf_kind (select (fst x) (snd x))) l l' -> forall j x y, nth_error l j = Some x -> nth_error l' j = Some y ->
        map lf_kind y = map lf_kind (select (fst x) (snd x))).
      { clear. induction 1 as [|a b l l' E F IH]; intros [|j] x y X Y; try discriminate; cbn in *; [congruence|eauto]. }
      rewrite (R _ _ A5 e _ _ Gc G'). cbn [fst snd]. unfold flags. rewrite Se. reflexivity.
  Qed.
End Reload.
