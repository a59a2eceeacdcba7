(** The functions of all elements, continued (C72). *)
From Coq Require Import Reals ZArith Ascii String Bool Arith Lia Lra Permutation Sorted.
From Flocq Require Import Core.
From Coq Require Import List.
From Verif Require Import Base.AssocMap Model.Strings Model.Printf Model.ElementMap Model.CoreFunction Model.CutoffFunction
  Model.CompactScreening Model.Scaling Model.SymFunctions Model.SymSetup Model.SymLines Spec.StringSpec Spec.ElementSpec Spec.CompactSpec
  Spec.SymSpec Spec.SetupSpec Spec.ForceSpec Spec.SymLineSpec Proofs.StringProofs Proofs.ElementMapProofs Proofs.SetupProofs Proofs.UnitProofs
  Proofs.SymLineProofs Proofs.SymLineSetup Proofs.SymLineMode.
Import ListNotations.
Local Open Scope R_scope.

Lemma describes_iff em t alpha v ln ec k : describes em t alpha v ec k <->
  exists f, newFunction em v ln = Done f /\ lf_ec f = ec /\ set_cutoff t alpha (lf_kind f) = Some k.
Proof.
  unfold describes. split.
  - intros (ws & n & W & E & T & D). apply doc_cutoff in D. destruct D as (k0 & D & S).
    destruct (doc_named em ws n k0 D) as (s & N & SW).
    exists (mkLF ec s ln (mkSF new_common k0)). split; [|auto]. apply new_done. exists ws, n, ec, k0, s. repeat split; auto.
  - intros (f & N & <- & S). apply new_done in N. destruct N as (ws & n & ec & k0 & s & W & E & T & D & Nm & SW & ->).
    exists ws, n. repeat split; auto. apply doc_cutoff. exists k0. auto.
Qed.

Lemma describes_unique em t alpha v ec k ec' k' : describes em t alpha v ec k -> describes em t alpha v ec' k' -> ec' = ec /\ k' = k.
Proof.
  intros H H'. apply (describes_iff _ _ _ _ 0) in H, H'. destruct H as (f & N & E & S), H' as (f' & N' & E' & S').
  rewrite N in N'. injection N' as <-. split; congruence.
Qed.
Lemma read_new em v f : read_line em v = Done f -> lf_canon f /\ new_lf f /\ lf_line f = snd v.
Proof.
  intros N. apply new_done in N. destruct N as (ws & n & ec & k0 & s & W & E & T & D & Nm & SW & ->). cbn.
  split; [|split; reflexivity]. unfold lf_canon. cbn. eapply doc_canon; eauto.
Qed.
Lemma F2_map_l {A B C} (P : B -> C -> Prop) (f : A -> B) l : forall l', Forall2 P (map f l) l' <-> Forall2 (fun x y => P (f x) y) l l'.
Proof.
  induction l as [|x l IH]; intros l'; cbn; split; intros H; inversion H; subst; constructor; auto; now apply IH.
Qed.
Lemma F2_forall_l {A B} (P : A -> B -> Prop) (Q : A -> Prop) l l' : (forall x y, P x y -> Q x) -> Forall2 P l l' -> Forall Q l.
Proof. intros H F. induction F; constructor; eauto. Qed.
Lemma F2_forall_r {A B} (P : A -> B -> Prop) (Q : B -> Prop) l l' : (forall x y, P x y -> Q y) -> Forall2 P l l' -> Forall Q l'.
Proof. intros H F. induction F; constructor; eauto. Qed.
Lemma repeat_seq {A} (x : A) n : forall a, repeat x n = map (fun _ => x) (seq a n).
Proof. induction n as [|n IH]; intros a; cbn; f_equal; auto. Qed.

Section Setup.
  Variables (em : element_map) (normalize : bool) (conv : R) (t : cutoff_kind) (alpha : R).
  Hypothesis (HR : registered em) (Hc : 0 < conv).
  Let n := em_size em.
  Definition finish sort e fs := finishElement sort normalize conv t alpha (of_element e fs).

  Lemma setup_done sort values gss rmax :
    setupSymmetryFunctions sort em normalize conv t alpha values = Done (gss, rmax) <->
    exists fs rs, mapo (read_line em) values = Done fs /\
      Forall2 (fun e x => finish sort e fs = Done x) (seq 0 n) rs /\
      gss = map fst rs /\ rmax = fold_left (fun m x => Rmax (snd x) m) rs 0.
  Proof.
    unfold setupSymmetryFunctions. rewrite bindo_done.
    replace (repeat [] (em_size em)) with (map (fun e => of_element e []) (seq 0 (em_size em))) by (symmetry; apply repeat_seq).
    split.
    - intros (els & E & H). apply (lines_done em values HR) in E. destruct E as (fs & M & ->). apply bindo_done in H.
      destruct H as (rs & E & H). apply mapo_done, F2_map_l in E. injection H as <- <-. exists fs, rs. auto.
    - intros (fs & rs & M & F & -> & ->). eexists. split; [apply (lines_done em values HR); exists fs; split; [exact M|reflexivity]|].
      apply bindo_done. exists rs. split; [|reflexivity]. apply mapo_done, F2_map_l. exact F.
  Qed.

  Lemma reads_canon values fs : mapo (read_line em) values = Done fs -> Forall lf_canon fs /\ Forall new_lf fs.
  Proof.
    intros M. apply mapo_done in M. split; eapply F2_forall_r; try exact M; intros v f E; now apply read_new in E.
  Qed.
  Lemma of_canon e fs : Forall lf_canon fs -> Forall lf_canon (of_element e fs).
  Proof. intros H. apply Forall_forall. rewrite Forall_forall in H. intros f Hf. apply filter_In in Hf. now apply H. Qed.
  Lemma of_new e fs : Forall new_lf fs -> Forall new_lf (of_element e fs).
  Proof. intros H. apply Forall_forall. rewrite Forall_forall in H. intros f Hf. apply filter_In in Hf. now apply H. Qed.
  Lemma unit_new fs : Forall new_lf fs -> Forall new_lf (map (unitf normalize conv) fs).
  Proof. intros H. rewrite Forall_map. eapply Forall_impl; [|exact H]. auto. Qed.
  Lemma unit_canons fs : Forall lf_canon fs -> Forall lf_canon (map (unitf normalize conv) fs).
  Proof. intros H. rewrite Forall_map. eapply Forall_impl; [|exact H]. intros f. now apply unitf_canon. Qed.
  Lemma perm_forall {A} (P : A -> Prop) l l' : Permutation l l' -> Forall P l -> Forall P l'.
  Proof. intros Hp H. rewrite Forall_forall in *. intros x Hx. apply H. apply Permutation_in with l'; auto. now symmetry. Qed.

  (** ** The order of the lines does not matter *)
  Lemma mapo_perm {A B} (f : A -> outcome B) l l' : Permutation l l' -> forall r, mapo f l = Done r ->
    exists r', mapo f l' = Done r' /\ Permutation r r'.
  Proof.
    intros P r E. apply mapo_done in E. destruct (Permutation_Forall2 P E) as (r' & P' & F). exists r'. split; auto. now apply mapo_done.
  Qed.
  Lemma finish_perm sort sort' e fs fs' gs r : sorts lf_lt sort -> sorts lf_lt sort' -> Forall lf_canon fs -> Forall new_lf fs ->
    Permutation fs fs' -> finish sort e fs = Done (gs, r) ->
    exists gs', finish sort' e fs' = Done (gs', r) /\ map lf_sf gs' = map lf_sf gs.
  Proof.
    intros S S' C N P H.
    assert (C' : Forall lf_canon fs') by (eapply perm_forall; eauto). assert (N' : Forall new_lf fs') by (eapply perm_forall; eauto).
    unfold finish in *. apply finish_done in H; auto using of_canon. destruct H as (M & ->).
    set (u := map (unitf normalize conv) (of_element e fs)) in *.
    set (u' := map (unitf normalize conv) (of_element e fs')) in *.
    assert (Pu : Permutation u u') by (apply Permutation_map, filter_perm, P).
    destruct (S u) as (P1 & S1), (S' u') as (P2 & S2).
    assert (Cu : Forall lf_canon (sort u)) by (eapply perm_forall; [exact P1|]; apply unit_canons, of_canon, C).
    assert (E : map proj (sort u) = map proj (sort' u')).
    { apply sort_unique; auto. apply Permutation_map. transitivity u; [now symmetry|]. transitivity u'; auto. }
    destruct (final_same t alpha (sort u) (sort' u') 0 E) with (gs := gs) as (gs' & M' & F); auto.
    { eapply perm_forall; [exact P1|]. apply unit_new, of_new, N. }
    { eapply perm_forall; [exact P2|]. apply unit_new, of_new, N'. }
    exists gs'. split; auto. apply finish_done; auto using of_canon. split; auto. apply radius_same, E.
  Qed.
  Lemma finishes_perm sort sort' fs fs' l : sorts lf_lt sort -> sorts lf_lt sort' -> Forall lf_canon fs -> Forall new_lf fs ->
    Permutation fs fs' -> forall rs, Forall2 (fun e x => finish sort e fs = Done x) l rs ->
    exists rs', Forall2 (fun e x => finish sort' e fs' = Done x) l rs' /\
      map (fun x => map lf_sf (fst x)) rs' = map (fun x => map lf_sf (fst x)) rs /\ map snd rs' = map snd rs.
  Proof.
    intros S S' C N P rs F. induction F as [|e [gs r] l rs E F IH].
    - exists []. repeat split; constructor.
    - destruct IH as (rs' & F' & M1 & M2). destruct (finish_perm sort sort' e fs fs' gs r S S' C N P E) as (gs' & E' & M').
      exists ((gs', r) :: rs'). repeat split; [constructor; auto|cbn; now rewrite M', M1|cbn; now rewrite M2].
  Qed.
  Theorem order_independent sort sort' values values' fss rmax : sorts lf_lt sort -> sorts lf_lt sort' ->
    Permutation values values' ->
    setupSymmetryFunctions sort em normalize conv t alpha values = Done (fss, rmax) ->
    exists fss', setupSymmetryFunctions sort' em normalize conv t alpha values' = Done (fss', rmax) /\
      map (map lf_sf) fss' = map (map lf_sf) fss.
  Proof.
    intros S S' P H. apply setup_done in H. destruct H as (fs & rs & M & F & -> & ->).
    destruct (mapo_perm _ _ _ P fs M) as (fs' & M' & P'). destruct (reads_canon _ _ M) as (C & N).
    destruct (finishes_perm sort sort' fs fs' _ S S' C N P' rs F) as (rs' & F' & E1 & E2).
    exists (map fst rs'). split; [|now rewrite !map_map]. apply setup_done. exists fs', rs'. repeat split; auto.
    assert (L : forall (l : list (list linefn * R)) m, fold_left (fun m x => Rmax (snd x) m) l m = fold_left (fun m x => Rmax x m) (map snd l) m).
    { induction l as [|x l IH]; intros m; cbn; auto. }
    now rewrite !L, E2.
  Qed.

  (** ** Which lines are accepted *)
  Lemma mapo_total {A B} (f : A -> outcome B) l : (forall x, In x l -> exists y, f x = Done y) -> exists l', mapo f l = Done l'.
  Proof.
    induction l as [|x l IH]; intros H; [eexists; reflexivity|]. destruct (H x (or_introl eq_refl)) as (y & E).
    destruct IH as (l' & E'); [intros; apply H; now right|]. exists (y :: l'). cbn. rewrite E. cbn. now rewrite E'.
  Qed.
  Lemma set_gaussian k k' : set_cutoff t alpha k = Some k' -> is_gaussian k = is_gaussian k'.
  Proof.
    destruct k as [p|p|p|p|p|p|p|p|p|p|p]; cbn; unfold set_er, set_ea; try (destruct (set_fc _ _ _); [|discriminate]; cbn);
      intros H; injection H as <-; reflexivity.
  Qed.
  Lemma unit_gaussian k : is_gaussian (unitk normalize conv k) = is_gaussian k.
  Proof.
    unfold unitk. destruct normalize; auto. destruct (changeLengthUnit conv k) as [k'|] eqn:E; auto.
    destruct k as [p|p|p|p|p|p|p|p|p|p|p]; cbn in E; destruct (_ conv p) in E; try discriminate; injection E as <-; reflexivity.
  Qed.
  Theorem accepted sort values : sorts lf_lt sort ->
    (exists fss rmax, setupSymmetryFunctions sort em normalize conv t alpha values = Done (fss, rmax)) <->
    forall v, In v values -> exists ec k, describes em t alpha (fst v) ec k.
  Proof.
    intros S. split.
    - intros (fss & rmax & H) v Hv. apply setup_done in H. destruct H as (fs & rs & M & F & _ & _).
      destruct (reads_canon _ _ M) as (C & N). apply mapo_done in M.
      assert (Hf : exists f, In f fs /\ read_line em v = Done f).
      { clear - M Hv. induction M as [|x y l l' E M IH]; [easy|]. destruct Hv as [->|Hv]; [exists y; split; [now left|auto]|].
        destruct (IH Hv) as (f & Hf & E'). exists f. split; [now right|auto]. }
      destruct Hf as (f & Hf & E). pose proof (new_bound _ _ _ HR E) as B.
      assert (Hr : exists x, finish sort (lf_ec f) fs = Done x).
      { assert (Hin : In (lf_ec f) (seq 0 n)) by (apply in_seq; unfold n; lia). clear - F Hin.
        induction F as [|e x l rs E F IH]; [easy|]. destruct Hin as [->|Hin]; eauto. }
      destruct Hr as ((gs & r) & Hr). unfold finish in Hr. apply finish_done in Hr; auto using of_canon. destruct Hr as (Hr & _).
      apply final_list in Hr.
      assert (Hu : In (unitf normalize conv f) (sort (map (unitf normalize conv) (of_element (lf_ec f) fs)))).
      { apply Permutation_in with (map (unitf normalize conv) (of_element (lf_ec f) fs)); [apply S|]. apply in_map.
        apply filter_In. split; auto. apply Nat.eqb_refl. }
      assert (Hk : exists k, set_cutoff t alpha (lf_kind (unitf normalize conv f)) = Some k).
      { clear - Hr Hu. induction Hr as [|x y l l' E F IH]; [easy|]. destruct Hu as [->|Hu]; auto. exists (lf_kind y). apply E. }
      pose proof (proj1 (set_total t alpha (unitk normalize conv (lf_kind f))) Hk) as Hk'. rewrite unit_gaussian in Hk'.
      clear Hk. destruct (proj2 (set_total t alpha (lf_kind f)) Hk') as (k & Hk). exists (lf_ec f), k.
      apply (describes_iff _ _ _ _ (snd v)). exists f. auto.
    - intros H.
      assert (R : forall v, In v values -> exists f, read_line em v = Done f /\ (is_gaussian (lf_kind f) = true -> 0 <= alpha < 1)).
      { intros v Hv. destruct (H v Hv) as (ec & k & D). apply (describes_iff _ _ _ _ (snd v)) in D. destruct D as (f & N & _ & D).
        exists f. split; auto. exact (proj1 (set_total t alpha (lf_kind f)) (ex_intro _ k D)). }
      destruct (mapo_total (read_line em) values) as (fs & M). { intros v Hv. destruct (R v Hv) as (f & E & _). eauto. }
      destruct (reads_canon _ _ M) as (C & N).
      assert (G : forall f, In f fs -> is_gaussian (lf_kind f) = true -> 0 <= alpha < 1).
      { apply mapo_done in M. clear - M R. induction M as [|v f l l' E M IH]; [easy|]. intros g [<-|Hg]; [|apply IH; auto; intros; apply R; now right].
        destruct (R v (or_introl eq_refl)) as (f' & E' & G). rewrite E in E'. injection E' as <-. exact G. }
      assert (Fi : forall e, exists x, finish sort e fs = Done x).
      { intros e. set (ss := sort (map (unitf normalize conv) (of_element e fs))).
        assert (T : forall x, In x (indexed 0 ss) -> exists g, setCutoff t alpha x = Done g).
        { intros x Hx. unfold indexed in Hx. apply in_map_iff in Hx. destruct Hx as ((i & f) & <- & Hx). apply in_combine_r in Hx.
          assert (Hf : In f (map (unitf normalize conv) (of_element e fs))) by (apply Permutation_in with ss; auto; symmetry; apply S).
          apply in_map_iff in Hf. destruct Hf as (f0 & <- & Hf). apply filter_In in Hf. destruct Hf as (Hf & _).
          destruct (proj2 (set_total t alpha (unitk normalize conv (lf_kind f0)))) as (k & Hk).
          { rewrite unit_gaussian. now apply G. }
          eexists. apply set_done. exists k. split; [exact Hk|reflexivity]. }
        destruct (mapo_total _ _ T) as (gs & E). exists (gs, getMaxCutoffRadius (indexed 0 ss)). apply finish_done; auto using of_canon. }
      destruct (mapo_total (fun e => finish sort e fs) (seq 0 n)) as (rs & E); [intros; apply Fi|]. apply mapo_done in E.
      exists (map fst rs). eexists. apply setup_done. exists fs, rs. repeat split; auto.
  Qed.
End Setup.
