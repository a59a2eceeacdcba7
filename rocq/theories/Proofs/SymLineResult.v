(** What the functions of all elements are (C72). *)
From Coq Require Import Reals ZArith Ascii String Bool Arith Lia Lra Permutation Sorted.
From Flocq Require Import Core.
From Coq Require Import List.
From Verif Require Import Base.AssocMap Model.Strings Model.Printf Model.ElementMap Model.CoreFunction Model.CutoffFunction
  Model.CompactScreening Model.Scaling Model.SymFunctions Model.SymSetup Model.SymLines Spec.StringSpec Spec.ElementSpec Spec.CompactSpec
  Spec.SymSpec Spec.SetupSpec Spec.ForceSpec Spec.SymLineSpec Proofs.StringProofs Proofs.ElementMapProofs Proofs.SetupProofs Proofs.UnitProofs
  Proofs.SymLineProofs Proofs.SymLineSetup Proofs.SymLineMode Proofs.SymLineFinal.
Import ListNotations.
Local Open Scope R_scope.

Lemma radius_cutoff k : radius k = cutoff_of k.
Proof. destruct k; reflexivity. Qed.
Lemma set_preserves t alpha k k' : set_cutoff t alpha k = Some k' ->
  type_number k' = type_number k /\ cutoff_of k' = cutoff_of k /\ (is_gaussian k = false -> k' = k).
Proof.
  destruct k as [p|p|p|p|p|p|p|p|p|p|p]; cbn; unfold set_er, set_ea; try (destruct (set_fc _ _ _); [|discriminate]; cbn);
    intros H; injection H as <-; repeat split; discriminate.
Qed.
Lemma set_numbers t alpha s k k' : canon s k -> set_cutoff t alpha k = Some k' -> is_gaussian k = true ->
  exists rest, numbers k = INR (cutoff_number CT_HARD) :: 0 :: rest /\ numbers k' = INR (cutoff_number t) :: alpha :: rest.
Proof.
  assert (F : forall rc fc fc', cf_configure CT_HARD rc 0 = Some fc -> set_fc t alpha fc = Some fc' ->
    cf_type fc = CT_HARD /\ cf_alpha fc = 0 /\ cf_type fc' = t /\ cf_alpha fc' = alpha).
  { intros rc fc fc' H. unfold set_fc, cf_configure, cf_setCutoffParameter in *. destruct (Rlt_dec 0 0); [lra|]. destruct (Rge_dec 0 1); [lra|].
    injection H as <-. destruct (Rlt_dec alpha 0); [discriminate|]. destruct (Rge_dec alpha 1); [discriminate|]. intros H. injection H as <-. auto. }
  intros (N & C) H G. destruct k as [p|p|p|p|p|p|p|p|p|p|p]; try discriminate G; cbn [set_cutoff] in H; unfold set_er, set_ea in H;
    destruct (set_fc t alpha _) as [fc'|] eqn:E in H; try discriminate; cbn in H; injection H as <-;
    (destruct C as (_ & _ & _ & C) || destruct C as (_ & C) || idtac); cbn in C;
    destruct (F _ _ _ C E) as (F1 & F2 & F3 & F4); unfold numbers; cbn -[INR]; rewrite F1, F2, F3, F4; eexists; split; reflexivity.
Qed.
Lemma set_lt t alpha f f' g g' : lf_canon f -> lf_canon f' -> lf_ec g = lf_ec f -> lf_ec g' = lf_ec f' ->
  set_cutoff t alpha (lf_kind f) = Some (lf_kind g) -> set_cutoff t alpha (lf_kind f') = Some (lf_kind g') ->
  (is_gaussian (lf_kind f) = false -> lf_subtype g = lf_subtype f) -> (is_gaussian (lf_kind f') = false -> lf_subtype g' = lf_subtype f') ->
  lf_lt g g' = lf_lt f f'.
Proof.
  intros C C' E E' S S' U U'. destruct (set_preserves _ _ _ _ S) as (T & _ & I). destruct (set_preserves _ _ _ _ S') as (T' & _ & I').
  unfold lf_lt. rewrite E, E', T, T'. cbv zeta. rewrite <- (set_gaussian t alpha _ _ S).
  destruct (Nat.ltb (type_number (lf_kind f)) (type_number (lf_kind f'))) eqn:A; auto.
  destruct (Nat.ltb (type_number (lf_kind f')) (type_number (lf_kind f))) eqn:B; auto.
  apply Nat.ltb_ge in A, B. assert (Ty : type_number (lf_kind f) = type_number (lf_kind f')) by lia.
  pose proof (type_gaussian _ _ Ty) as G. destruct (is_gaussian (lf_kind f)) eqn:Gf.
  - destruct (set_numbers _ _ _ _ _ C S Gf) as (r & N1 & N2). destruct (set_numbers _ _ _ _ _ C' S' (eq_sym G)) as (r' & N1' & N2').
    rewrite N1, N2, N1', N2'. cbn [negb andb lexlt].
    repeat (match goal with |- context [Rlt_dec ?x ?x] => destruct (Rlt_dec x x); [lra|] end). reflexivity.
  - rewrite I, I', U, U' by auto. reflexivity.
Qed.
Lemma max_fold {A} (v : A -> R) l : forall m, let r := fold_left (fun m x => Rmax (v x) m) l m in
  m <= r /\ (forall x, In x l -> v x <= r) /\ (r = m \/ exists x, In x l /\ r = v x).
Proof.
  induction l as [|x l IH]; intros m; cbn [fold_left].
  - cbv zeta. repeat split; auto; [lra|intros x []].
  - destruct (IH (Rmax (v x) m)) as (A1 & A2 & A3). cbv zeta.
    pose proof (Rmax_l (v x) m). pose proof (Rmax_r (v x) m). split; [lra|]. split.
    + intros y [<-|Hy]; [lra|auto].
    + destruct A3 as [->|(y & Hy & ->)]; [|right; exists y; split; [now right|auto]].
      destruct (Rle_dec (v x) m); [left; now rewrite Rmax_right by lra|right; exists x; split; [now left|now rewrite Rmax_left by lra]].
Qed.
Lemma F2_in_r {A B} (P : A -> B -> Prop) l l' y : Forall2 P l l' -> In y l' -> exists x, In x l /\ P x y.
Proof. induction 1 as [|a b l l' E F IH]; [easy|]. intros [<-|H]; [exists a; split; [now left|auto]|]. destruct (IH H) as (x & Hx & E'). exists x. split; [now right|auto]. Qed.
Lemma F2_in_l {A B} (P : A -> B -> Prop) l l' x : Forall2 P l l' -> In x l -> exists y, In y l' /\ P x y.
Proof. induction 1 as [|a b l l' E F IH]; [easy|]. intros [<-|H]; [exists b; split; [now left|auto]|]. destruct (IH H) as (y & Hy & E'). exists y. split; [now right|auto]. Qed.
Lemma F2_weaken {A B} (P Q : A -> B -> Prop) l l' : (forall x y, P x y -> Q x y) -> Forall2 P l l' -> Forall2 Q l l'.
Proof. induction 2; constructor; auto. Qed.
Lemma in_indexed f ss n : In f ss -> exists i, In (with_index i f) (indexed n ss).
Proof.
  revert n. induction ss as [|g ss IH]; intros n []; [subst; exists n; rewrite indexed_cons; now left|].
  destruct (IH (S n) H) as (i & Hi). exists i. rewrite indexed_cons. now right.
Qed.
Lemma indexed_in x ss n : In x (indexed n ss) -> exists i f, In f ss /\ x = with_index i f.
Proof.
  revert n. induction ss as [|g ss IH]; intros n; [easy|]. rewrite indexed_cons. intros [<-|H]; [exists n, g; split; [now left|auto]|].
  destruct (IH _ H) as (i & f & Hf & ->). exists i, f. split; [now right|auto].
Qed.

Section Result.
  Variables (em : element_map) (normalize : bool) (conv : R) (t : cutoff_kind) (alpha : R).
  Hypothesis (HR : registered em) (Hc : 0 < conv).
  Let made := made_from em normalize conv t alpha.
  Let order := (fun f g : linefn => lf_lt g f = false).

  Lemma final_made v f g : read_line em v = Done f -> lf_ec g = lf_ec f -> lf_line g = lf_line f ->
    set_cutoff t alpha (unitk normalize conv (lf_kind f)) = Some (lf_kind g) ->
    sf_ci (sf_c (lf_sf g)) = sf_ci (sf_c (lf_sf f)) -> sf_scaling (sf_c (lf_sf g)) = sf_scaling (sf_c (lf_sf f)) -> made v g.
  Proof.
    intros E E1 E2 E3 E4 E5. destruct (read_new _ _ _ E) as (C & N & L). unfold new_lf in N. split; [congruence|].
    split. { unfold untouched. rewrite E4, E5, N. auto. }
    assert (K : exists k, set_cutoff t alpha (lf_kind f) = Some k /\ in_unit normalize conv k (lf_kind g)).
    { unfold unitk, in_unit in *. destruct normalize; [|eauto]. destruct (canon_unit conv _ _ Hc C) as (k1 & U & _). rewrite U in E3.
      rewrite (unit_cutoff conv t alpha _ _ _ C U) in E3. destruct (set_cutoff t alpha (lf_kind f)) as [k|]; [|discriminate]. eauto. }
    destruct K as (k & K1 & K2). exists k. split; auto. apply (describes_iff _ _ _ _ (snd v)). exists f. auto.
  Qed.

  Lemma element_result sort (ps : list (str * nat * linefn)) gs r : sorts lf_lt sort ->
    (forall p, In p ps -> read_line em (fst p) = Done (snd p)) ->
    finishElement sort normalize conv t alpha (map snd ps) = Done (gs, r) ->
    (exists vs, Permutation vs (map fst ps) /\ Forall2 made vs gs) /\ StronglySorted order gs /\ numbered (map lf_sf gs) /\
    (forall g, In g gs -> exists p, In p ps /\ lf_ec g = lf_ec (snd p)) /\
    0 <= r /\ (forall g, In g gs -> cutoff_of (lf_kind g) <= r) /\ (r = 0 \/ exists g, In g gs /\ r = cutoff_of (lf_kind g)).
  Proof.
    intros S R H.
    assert (C : Forall lf_canon (map snd ps)).
    { rewrite Forall_map, Forall_forall. intros p Hp. now apply (read_new _ _ _ (R p Hp)). }
    apply finish_done in H; auto. destruct H as (M & Er). rewrite map_map in M, Er.
    set (u := fun p : str * nat * linefn => unitf normalize conv (snd p)) in *.
    destruct (S (map u ps)) as (P & St).
    destruct (Permutation_map_inv _ _ (Permutation_sym P)) as (qs & Eq & Pq). rewrite Eq in *.
    pose proof (final_list _ _ _ _ _ M) as F. pose proof (final_numbered _ _ _ _ _ M) as Nb.
    assert (Rq : forall p, In p qs -> read_line em (fst p) = Done (snd p)).
    { intros p Hp. apply R. apply Permutation_in with qs; auto. now symmetry. }
    split; [|split; [|split; [|split]]].
    - exists (map fst qs). split; [now apply Permutation_map, Permutation_sym|].
      apply F2_map_l in F. apply F2_map_l. clear - F Rq HR Hc. revert Rq. induction F as [|p g qs gs E F IH]; intros Rq; constructor.
      + destruct E as (E1 & E2 & E3 & _ & E4 & E5). apply (final_made (fst p) (snd p) g); auto. apply Rq. now left.
      + apply IH. intros q Hq. apply Rq. now right.
    - assert (Ca : forall f, In f (map u qs) -> lf_canon f).
      { intros f Hf. apply in_map_iff in Hf. destruct Hf as (p & <- & Hp). apply unitf_canon; auto. now apply (read_new _ _ _ (Rq p Hp)). }
      clear - F St Ca. remember (map u qs) as ss eqn:E. clear E. induction F as [|f g ss gs E F IH]; [constructor|].
      inversion St as [|? ? St' Fo]; subst. constructor; [apply IH; auto; intros; apply Ca; now right|]. rewrite Forall_forall in *. intros g' Hg'.
      destruct (F2_in_r _ _ _ _ F Hg') as (f' & Hf' & E'). specialize (Fo f' Hf'). unfold order in *. rewrite <- Fo.
      rewrite (set_lt t alpha f' f g' g); try tauto; [apply Ca; now right|apply Ca; now left].
    - intros j f Hj. rewrite nth_error_map in Hj. destruct (nth_error gs j) as [g|] eqn:G; [|discriminate]. injection Hj as <-.
      exact (Nb j g G).
    - intros g Hg. destruct (F2_in_r _ _ _ _ F Hg) as (f & Hf & E & _). apply in_map_iff in Hf. destruct Hf as (p & <- & Hp).
      exists p. split; [|exact E]. apply Permutation_in with qs; auto. now symmetry.
    - unfold getMaxCutoffRadius in Er. pose proof (max_fold (fun f => radius (lf_kind f)) (indexed 0 (map u qs)) 0) as (A1 & A2 & A3).
      cbv zeta in A1, A2, A3. rewrite <- Er in A1, A2, A3. split; [exact A1|]. split.
      + intros g Hg. destruct (F2_in_r _ _ _ _ F Hg) as (f & Hf & _ & _ & E & _). destruct (set_preserves _ _ _ _ E) as (_ & -> & _).
        destruct (in_indexed f _ 0 Hf) as (i & Hi). rewrite <- radius_cutoff. exact (A2 _ Hi).
      + destruct A3 as [A3|(x & Hx & A3)]; auto. right. destruct (indexed_in _ _ _ Hx) as (i & f & Hf & ->).
        destruct (F2_in_l _ _ _ _ F Hf) as (g & Hg & _ & _ & E & _). destruct (set_preserves _ _ _ _ E) as (_ & Ec & _).
        exists g. split; auto. rewrite Ec, <- radius_cutoff. exact A3.
  Qed.

  Lemma split_below {A} (c : A -> nat) n l :
    Permutation (filter (fun x => Nat.ltb (c x) (S n)) l) (filter (fun x => Nat.ltb (c x) n) l ++ filter (fun x => Nat.eqb (c x) n) l).
  Proof.
    induction l as [|x l IH]; [constructor|]. cbn [filter].
    destruct (Nat.ltb_spec (c x) (S n)), (Nat.ltb_spec (c x) n), (Nat.eqb_spec (c x) n); try lia; auto.
    - cbn. now apply perm_skip.
    - now apply Permutation_cons_app.
  Qed.
  Lemma split_all {A} (c : A -> nat) n l : Permutation (concat (map (fun e => filter (fun x => Nat.eqb (c x) e) l) (seq 0 n)))
    (filter (fun x => Nat.ltb (c x) n) l).
  Proof.
    induction n as [|n IH].
    - cbn. replace (filter _ l) with (@nil A); [constructor|]. induction l; auto.
    - rewrite seq_S, map_app, concat_app. cbn [map concat Nat.add]. rewrite app_nil_r.
      symmetry. etransitivity; [apply split_below|]. apply Permutation_app; [symmetry; exact IH|reflexivity].
  Qed.

  Lemma pairs values : forall fs, mapo (read_line em) values = Done fs ->
    let ps := List.combine values fs in map fst ps = values /\ map snd ps = fs /\ forall p, In p ps -> read_line em (fst p) = Done (snd p).
  Proof.
    intros fs M. apply mapo_done in M. cbv zeta. induction M as [|v f l l' E M (IH1 & IH2 & IH3)]; cbn; [repeat split; easy|].
    rewrite IH1, IH2. repeat split. intros p [<-|Hp]; auto.
  Qed.
  Lemma of_pairs e ps : of_element e (map snd ps) = map snd (filter (fun p : str * nat * linefn => Nat.eqb (lf_ec (snd p)) e) ps).
  Proof. induction ps as [|p ps IH]; cbn; auto. unfold of_element in *. destruct (Nat.eqb (lf_ec (snd p)) e); cbn; now rewrite IH. Qed.

  Theorem functions sort values fss rmax : sorts lf_lt sort ->
    setupSymmetryFunctions sort em normalize conv t alpha values = Done (fss, rmax) ->
    List.length fss = em_size em /\
    (exists vss, Permutation (concat vss) values /\ Forall2 (Forall2 made) vss fss) /\
    (forall e fs f, nth_error fss e = Some fs -> In f fs -> lf_ec f = e) /\
    Forall (fun fs => StronglySorted order fs /\ numbered (map lf_sf fs)) fss /\
    (forall fs f, In fs fss -> In f fs -> cutoff_of (lf_kind f) <= rmax) /\
    0 <= rmax /\ (rmax = 0 \/ exists fs f, In fs fss /\ In f fs /\ rmax = cutoff_of (lf_kind f)).
  Proof.
    intros S H. apply setup_done in H; auto. destruct H as (lfs & rs & M & F & -> & Er).
    destruct (pairs values lfs M) as (P1 & P2 & P3). set (ps := List.combine values lfs) in *. clearbody ps. subst lfs.
    set (part := fun e => filter (fun p : str * nat * linefn => Nat.eqb (lf_ec (snd p)) e) ps).
    assert (Fr : Forall2 (fun e x => (exists vs, Permutation vs (map fst (part e)) /\ Forall2 made vs (fst x)) /\
        (StronglySorted order (fst x) /\ numbered (map lf_sf (fst x))) /\ (forall g, In g (fst x) -> lf_ec g = e) /\
        0 <= snd x /\ (forall g, In g (fst x) -> cutoff_of (lf_kind g) <= snd x) /\
        (snd x = 0 \/ exists g, In g (fst x) /\ snd x = cutoff_of (lf_kind g))) (seq 0 (em_size em)) rs).
    { clear Er. revert F. generalize (seq 0 (em_size em)). intros l F. induction F as [|e [gs r] l rs E F IH]; constructor; auto. clear IH F.
      unfold finish in E. rewrite of_pairs in E. fold (part e) in E.
      destruct (element_result sort (part e) gs r S) as (A1 & A2 & A3 & A4 & A5); auto.
      { intros p Hp. apply filter_In in Hp. now apply P3. }
      cbn. repeat split; try tauto. intros g Hg. destruct (A4 g Hg) as (p & Hp & ->). apply filter_In in Hp. now apply Nat.eqb_eq. }
    clear F. split; [|split; [|split; [|split; [|split]]]].
    - rewrite map_length, <- (seq_length (em_size em) 0). clear - Fr. revert Fr. generalize (seq 0 (em_size em)). intros l F. induction F; cbn; auto.
    - assert (V : forall l, Forall2 (fun e x => exists vs, Permutation vs (map fst (part e)) /\ Forall2 made vs (fst x)) l rs ->
        exists vss, Permutation (concat vss) (concat (map (fun e => map fst (part e)) l)) /\ Forall2 (Forall2 made) vss (map fst rs)).
      { clear. intros l F. induction F as [|e x l rs (vs & Pv & Fv) F (vss & Pw & Fw)]; [exists []; split; constructor|].
        exists (vs :: vss). split; [cbn; now apply Permutation_app|cbn; constructor; auto]. }
      destruct (V (seq 0 (em_size em))) as (vss & Pv & Fv). { eapply F2_weaken; [|exact Fr]. cbn. tauto. }
      exists vss. split; auto. etransitivity; [exact Pv|].
      rewrite <- (map_map part (map fst)), <- concat_map. rewrite <- P1. apply Permutation_map. unfold part.
      etransitivity; [apply split_all|]. replace (filter _ ps) with ps; [reflexivity|]. symmetry.
      assert (B : forall p, In p ps -> Nat.ltb (lf_ec (snd p)) (em_size em) = true).
      { intros p Hp. apply Nat.ltb_lt. eapply new_bound; eauto. }
      clear - B. induction ps as [|p ps IH]; cbn [filter]; auto. rewrite (B p (or_introl eq_refl)). f_equal. apply IH. intros. apply B. now right.
    - intros e gs f He Hf.
      assert (G : forall m k, Forall2 (fun e x => forall g, In g (fst x) -> lf_ec g = e) (seq k m) rs -> forall j, nth_error (map fst rs) j = Some gs -> lf_ec f = (k + j)%nat).
      { clear - Hf. induction rs as [|x rs IH]; intros m k F j Hj; [destruct j; discriminate|].
        destruct m as [|m]; [inversion F|]. cbn [seq] in F. inversion F as [|? ? ? ? E F']; subst. destruct j as [|j].
        - cbn in Hj. injection Hj as <-. rewrite (E f Hf). lia.
        - cbn in Hj. rewrite (IH m (Datatypes.S k) F' j Hj). lia. }
      apply (G (em_size em) 0%nat); auto. eapply F2_weaken; [|exact Fr]. cbn. tauto.
    - rewrite Forall_map. eapply F2_forall_r; [|exact Fr]. cbn. tauto.
    - intros gs f Hgs Hf. apply in_map_iff in Hgs. destruct Hgs as (x & <- & Hx).
      destruct (max_fold (fun x : list linefn * R => snd x) rs 0) as (_ & A & _). cbv zeta in A. rewrite <- Er in A.
      destruct (F2_in_r _ _ _ _ Fr Hx) as (e & _ & _ & _ & _ & _ & B & _). specialize (A x Hx). specialize (B f Hf). lra.
    - destruct (max_fold (fun x : list linefn * R => snd x) rs 0) as (A0 & _ & A). cbv zeta in A0, A. rewrite <- Er in A0, A. split; [exact A0|].
      destruct A as [A|(x & Hx & A)]; auto. destruct (F2_in_r _ _ _ _ Fr Hx) as (e & _ & _ & _ & _ & _ & _ & [B|(g & Hg & B)]).
      + left. congruence.
      + right. exists (fst x), g. split; [now apply in_map|]. split; auto. congruence.
  Qed.
End Result.
