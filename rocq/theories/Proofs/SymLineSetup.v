(** From the lines to the sorted functions of each element. *)
From Coq Require Import Reals ZArith Ascii String Bool Arith Lia Lra Permutation Sorted.
From Flocq Require Import Core.
From Coq Require Import List.
From Verif Require Import Base.AssocMap Model.Strings Model.Printf Model.ElementMap Model.CoreFunction Model.CutoffFunction
  Model.CompactScreening Model.Scaling Model.SymFunctions Model.SymSetup Model.SymLines Spec.StringSpec Spec.CompactSpec
  Spec.SymSpec Spec.SetupSpec Spec.SymLineSpec Proofs.StringProofs Proofs.SetupProofs Proofs.SymLineProofs.
Import ListNotations.
Local Open Scope R_scope.

(** ** Kinds determined by their parameters *)
Definition canon (s : str) (k : kind) : Prop :=
  named s k /\
  match k with
  | ExpRad p => cf_configure CT_HARD (er_rc p) 0 = Some (er_fc p)
  | ExpRadWeighted p => er_e1 p = 0%nat /\ cf_configure CT_HARD (er_rc p) 0 = Some (er_fc p)
  | ExpAngn p | ExpAngw p =>
      exponent (ea_zeta p) (ea_zetaInt p) (ea_useIntegerPow p) /\ cf_configure CT_HARD (ea_rc p) 0 = Some (ea_fc p)
  | ExpAngnWeighted p => ea_e1 p = 0%nat /\ ea_e2 p = 0%nat /\
      exponent (ea_zeta p) (ea_zetaInt p) (ea_useIntegerPow p) /\ cf_configure CT_HARD (ea_rc p) 0 = Some (ea_fc p)
  | CompRadWeighted p => cr_e1 p = 0%nat
  | CompAngnWeighted p | CompAngwWeighted p => ca_e1 p = 0%nat /\ ca_e2 p = 0%nat
  | _ => True
  end.
Lemma doc_canon em ws n k s : documented_kind em CT_HARD 0 ws n k -> named s k -> canon s k.
Proof. intros H N. split; auto. inversion H; subst; cbn; auto. Qed.

Lemma configure_hard rc fc : cf_configure CT_HARD rc 0 = Some fc -> cf_alpha fc = 0 /\
  fc = cf_setCutoffType CT_HARD fc /\ cf_rc fc = rc.
Proof.
  unfold cf_configure, cf_setCutoffParameter. destruct (Rlt_dec 0 0); [lra|]. destruct (Rge_dec 0 1); [lra|].
  intros H. injection H as <-. repeat split.
Qed.
Lemma hard_total rc : exists fc, cf_configure CT_HARD rc 0 = Some fc.
Proof.
  unfold cf_configure, cf_setCutoffParameter. destruct (Rlt_dec 0 0); [lra|]. destruct (Rge_dec 0 1); [lra|]. eauto.
Qed.
(** Radius changed and cutoff set, in either order. *)
Lemma refresh_hard rc rc' fc : cf_configure CT_HARD rc 0 = Some fc -> refresh_fc rc' fc = cf_configure CT_HARD rc' 0.
Proof.
  intros H. unfold refresh_fc. destruct (configure_hard _ _ H) as (-> & _ & _).
  unfold cf_configure, cf_setCutoffParameter in *. destruct (Rlt_dec 0 0); [lra|]. destruct (Rge_dec 0 1); [lra|].
  injection H as <-. reflexivity.
Qed.
Lemma set_fc_hard rc fc t alpha : cf_configure CT_HARD rc 0 = Some fc -> set_fc t alpha fc = cf_configure t rc alpha.
Proof.
  unfold set_fc, cf_configure, cf_setCutoffParameter. destruct (Rlt_dec 0 0); [lra|]. destruct (Rge_dec 0 1); [lra|].
  intros H. injection H as <-. destruct (Rlt_dec alpha 0); auto.
Qed.
Lemma refresh_configure t rc alpha fc rc' : cf_configure t rc alpha = Some fc -> refresh_fc rc' fc = cf_configure t rc' alpha.
Proof.
  unfold refresh_fc, cf_configure, cf_setCutoffParameter. destruct (Rlt_dec alpha 0) eqn:L; [discriminate|].
  destruct (Rge_dec alpha 1) eqn:G; [discriminate|]. intros H. injection H as <-. cbn. rewrite L, G. reflexivity.
Qed.
Lemma config_rescaled k asym l r l' r' c : compact_config k asym l r = Some c -> cp_setLeftRight l' r' c = compact_config k asym l' r'.
Proof.
  unfold compact_config, cp_setLeftRight. destruct (Rge_dec l r); [discriminate|]. intros H. injection H as <-.
  destruct (Rge_dec l' r'); reflexivity.
Qed.
Lemma config_total k asym l r : l < r -> exists c, compact_config k asym l r = Some c.
Proof. intros H. unfold compact_config, cp_setLeftRight. destruct (Rge_dec l r); [lra|eauto]. Qed.
Lemma config_lt k asym l r c : compact_config k asym l r = Some c -> l < r.
Proof. unfold compact_config, cp_setLeftRight. destruct (Rge_dec l r); [discriminate|lra]. Qed.

(** ** Change of unit *)
Lemma canon_unit conv s k : 0 < conv -> canon s k -> exists k', changeLengthUnit conv k = Some k' /\ canon s k'.
Proof.
  intros Hc (N & C). destruct k as [p|p|p|p|p|p|p|p|p|p|p]; cbn [changeLengthUnit].
  1,2: unfold er_changeLengthUnit;
       (destruct C as (C0 & C) || idtac); destruct (hard_total (er_rc p * conv)) as (fc & F);
       rewrite (refresh_hard _ _ _ C), F; cbn; eexists; (split; [reflexivity|]); (split; [exact N|]); cbn; auto.
  1,2,3: unfold ea_changeLengthUnit;
       destruct (hard_total (ea_rc p * conv)) as (fc & F);
       (destruct C as (C0 & C1 & C2 & C) || destruct C as (C2 & C));
       rewrite (refresh_hard _ _ _ C), F; cbn; eexists; (split; [reflexivity|]); (split; [exact N|]); cbn; auto.
  1,2: unfold cr_changeLengthUnit; destruct N as (kk & asym & S & N);
       pose proof (config_lt _ _ _ _ _ N) as L;
       assert (L' : cr_rl p * conv < cr_rc p * conv) by (apply Rmult_lt_compat_r; auto);
       destruct (config_total kk asym _ _ L') as (c & F);
       rewrite (config_rescaled _ _ _ _ _ _ _ N), F; cbn; eexists; (split; [reflexivity|]); (split; [exists kk, asym; cbn; auto|]); cbn; auto.
  all: unfold ca_changeLengthUnit; destruct N as (kk & asym & S & N & A);
       pose proof (config_lt _ _ _ _ _ N) as L;
       assert (L' : ca_rl p * conv < ca_rc p * conv) by (apply Rmult_lt_compat_r; auto);
       destruct (config_total kk asym _ _ L') as (c & F);
       rewrite (config_rescaled _ _ _ _ _ _ _ N), F; cbn; eexists; (split; [reflexivity|]); (split; [exists kk, asym; cbn; auto|]); cbn; auto.
Qed.

(** Setting the cutoff function commutes with the change of unit. *)
Lemma unit_cutoff conv t alpha s k k1 : canon s k -> changeLengthUnit conv k = Some k1 ->
  set_cutoff t alpha k1 = match set_cutoff t alpha k with Some k' => changeLengthUnit conv k' | None => None end.
Proof.
  intros (N & C) H. destruct k as [p|p|p|p|p|p|p|p|p|p|p]; cbn [changeLengthUnit set_cutoff] in *.
  1,2: unfold er_changeLengthUnit in H; (destruct C as (C0 & C) || idtac);
       rewrite (refresh_hard _ _ _ C) in H; destruct (hard_total (er_rc p * conv)) as (fc & F); rewrite F in H; cbn in H;
       injection H as <-; cbn [set_cutoff]; unfold set_er; cbn [er_fc er_rc]; rewrite (set_fc_hard _ _ _ _ F), (set_fc_hard _ _ _ _ C);
       destruct (cf_configure t (er_rc p) alpha) as [g|] eqn:G; cbn;
       [unfold er_changeLengthUnit; cbn; rewrite (refresh_configure _ _ _ _ _ G); destruct (cf_configure t (er_rc p * conv) alpha); reflexivity|
        unfold cf_configure, cf_setCutoffParameter in *; destruct (Rlt_dec alpha 0); [reflexivity|]; destruct (Rge_dec alpha 1); [reflexivity|discriminate]].
  1,2,3: unfold ea_changeLengthUnit in H; (destruct C as (C0 & C1 & C2 & C) || destruct C as (C2 & C));
       rewrite (refresh_hard _ _ _ C) in H; destruct (hard_total (ea_rc p * conv)) as (fc & F); rewrite F in H; cbn in H;
       injection H as <-; cbn [set_cutoff]; unfold set_ea; cbn [ea_fc ea_rc]; rewrite (set_fc_hard _ _ _ _ F), (set_fc_hard _ _ _ _ C);
       destruct (cf_configure t (ea_rc p) alpha) as [g|] eqn:G; cbn;
       [unfold ea_changeLengthUnit; cbn; rewrite (refresh_configure _ _ _ _ _ G); destruct (cf_configure t (ea_rc p * conv) alpha); reflexivity|
        unfold cf_configure, cf_setCutoffParameter in *; destruct (Rlt_dec alpha 0); [reflexivity|]; destruct (Rge_dec alpha 1); [reflexivity|discriminate]].
  all: destruct (_ conv p) as [q|] eqn:Q in H; [|discriminate]; cbn in H; injection H as <-; cbn; rewrite Q; reflexivity.
Qed.

(** Documented with the default cutoff, then the cutoff set = documented with
    this cutoff. *)
Lemma doc_cutoff em t alpha ws n k : documented_kind em t alpha ws n k <->
  exists k0, documented_kind em CT_HARD 0 ws n k0 /\ set_cutoff t alpha k0 = Some k.
Proof.
  split.
  - intros H. inversion H; subst;
      try (eexists; split; [econstructor; eassumption|]; reflexivity);
      (destruct (hard_total rc) as (f0 & F); eexists; split; [econstructor; eassumption|]; cbn; unfold set_er, set_ea; cbn;
       rewrite (set_fc_hard _ _ _ _ F);
       match goal with E : cf_configure t _ alpha = Some _ |- _ => rewrite E end; reflexivity).
  - intros (k0 & H & E). inversion H; subst; cbn in E; try (injection E as <-; econstructor; eassumption);
      unfold set_er, set_ea in E; cbn in E;
      match goal with C : cf_configure CT_HARD _ 0 = Some _ |- _ => rewrite (set_fc_hard _ _ _ _ C) in E end;
      destruct (cf_configure t rc alpha) as [g|] eqn:G; try discriminate; cbn in E; injection E as <-; econstructor; eassumption.
Qed.

(** ** Order *)
Lemma str_lt_irrefl a : str_lt a a = false.
Proof. induction a as [|x a IH]; cbn [str_lt]; auto. rewrite Nat.ltb_irrefl. exact IH. Qed.
Lemma str_incomparable a : forall b, str_lt a b = false -> str_lt b a = false -> a = b.
Proof.
  induction a as [|x a IH]; intros [|y b]; cbn [str_lt]; auto; try discriminate.
  destruct (Nat.ltb (nat_of_ascii x) (nat_of_ascii y)) eqn:A; [discriminate|].
  destruct (Nat.ltb (nat_of_ascii y) (nat_of_ascii x)) eqn:B; [discriminate|].
  intros H H'. apply Nat.ltb_ge in A, B. f_equal; auto.
  assert (E : nat_of_ascii x = nat_of_ascii y) by lia. rewrite <- (ascii_nat_embedding x), <- (ascii_nat_embedding y). now f_equal.
Qed.
Lemma str_lt_trans a : forall b c, str_lt a b = true -> str_lt b c = true -> str_lt a c = true.
Proof.
  induction a as [|x a IH]; intros [|y b] [|z c]; cbn [str_lt]; auto; try discriminate.
  destruct (Nat.ltb (nat_of_ascii x) (nat_of_ascii y)) eqn:A.
  - apply Nat.ltb_lt in A. intros _. destruct (Nat.ltb (nat_of_ascii y) (nat_of_ascii z)) eqn:B.
    + apply Nat.ltb_lt in B. intros _. replace (Nat.ltb (nat_of_ascii x) (nat_of_ascii z)) with true; auto. symmetry. apply Nat.ltb_lt. lia.
    + apply Nat.ltb_ge in B. destruct (Nat.ltb (nat_of_ascii z) (nat_of_ascii y)) eqn:C; [discriminate|]. apply Nat.ltb_ge in C.
      intros _. replace (Nat.ltb (nat_of_ascii x) (nat_of_ascii z)) with true; auto. symmetry. apply Nat.ltb_lt. lia.
  - apply Nat.ltb_ge in A. destruct (Nat.ltb (nat_of_ascii y) (nat_of_ascii x)) eqn:A'; [discriminate|]. apply Nat.ltb_ge in A'.
    assert (E : nat_of_ascii x = nat_of_ascii y) by lia. rewrite E. destruct (Nat.ltb (nat_of_ascii y) (nat_of_ascii z)); auto.
    destruct (Nat.ltb (nat_of_ascii z) (nat_of_ascii y)); [discriminate|]. apply IH.
Qed.
Lemma numbers_length k l : type_number k = type_number l -> List.length (numbers k) = List.length (numbers l).
Proof. destruct k, l; cbn; intros; auto; discriminate. Qed.
Lemma type_gaussian k l : type_number k = type_number l -> is_gaussian k = is_gaussian l.
Proof. destruct k, l; cbn; auto; discriminate. Qed.

Definition same_as (f g : linefn) : Prop :=
  lf_ec f = lf_ec g /\ type_number (lf_kind f) = type_number (lf_kind g) /\
  (is_gaussian (lf_kind f) = false -> lf_subtype f = lf_subtype g) /\ numbers (lf_kind f) = numbers (lf_kind g).
Lemma lf_incomparable f g : lf_lt f g = false -> lf_lt g f = false -> same_as f g.
Proof.
  unfold lf_lt, same_as. destruct (Nat.ltb (lf_ec f) (lf_ec g)) eqn:A; [discriminate|].
  destruct (Nat.ltb (lf_ec g) (lf_ec f)) eqn:B; [discriminate|]. apply Nat.ltb_ge in A, B. cbv zeta.
  destruct (Nat.ltb (type_number (lf_kind f)) (type_number (lf_kind g))) eqn:T; [discriminate|].
  destruct (Nat.ltb (type_number (lf_kind g)) (type_number (lf_kind f))) eqn:T'; [discriminate|]. apply Nat.ltb_ge in T, T'.
  assert (Ty : type_number (lf_kind f) = type_number (lf_kind g)) by lia. rewrite <- (type_gaussian _ _ Ty).
  destruct (is_gaussian (lf_kind f)); cbn.
  - intros H H'. repeat split; try lia; try discriminate. apply lex_incomparable; auto. now apply numbers_length.
  - destruct (str_lt (lf_subtype f) (lf_subtype g)) eqn:S; [discriminate|].
    destruct (str_lt (lf_subtype g) (lf_subtype f)) eqn:S'; [discriminate|].
    intros H H'. repeat split; try lia. { intros _. now apply str_incomparable. } apply lex_incomparable; auto. now apply numbers_length.
Qed.
Lemma same_lt f g h : same_as f g -> lf_lt f h = lf_lt g h /\ lf_lt h f = lf_lt h g.
Proof.
  intros (E & T & S & N). unfold lf_lt. rewrite E, T, N. cbv zeta. rewrite <- (type_gaussian _ _ T).
  destruct (is_gaussian (lf_kind f)) eqn:G; [|rewrite (S eq_refl); auto].
  cbn [negb andb]. split; auto. destruct (Nat.ltb (type_number (lf_kind h)) (type_number (lf_kind g))) eqn:A; auto.
  destruct (Nat.ltb (type_number (lf_kind g)) (type_number (lf_kind h))) eqn:B; auto.
  apply Nat.ltb_ge in A, B. assert (type_number (lf_kind h) = type_number (lf_kind g)) by lia.
  rewrite (type_gaussian (lf_kind h) (lf_kind g)) by auto. rewrite <- (type_gaussian _ _ T), G. reflexivity.
Qed.

(** Requirement of std::sort. *)
Theorem lf_lt_order : strict_weak_order (fun _ => True) lf_lt.
Proof.
  assert (Ir : forall x, lf_lt x x = false).
  { intros x. unfold lf_lt. rewrite !Nat.ltb_irrefl. cbv zeta. rewrite str_lt_irrefl, andb_false_r. apply lex_irrefl. }
  split; [intros; apply Ir|]. split.
  - intros f g h _ _ _. unfold lf_lt. cbv zeta.
    destruct (Nat.ltb (lf_ec f) (lf_ec g)) eqn:A1; destruct (Nat.ltb (lf_ec g) (lf_ec f)) eqn:A2;
    destruct (Nat.ltb (lf_ec g) (lf_ec h)) eqn:A3; destruct (Nat.ltb (lf_ec h) (lf_ec g)) eqn:A4;
    rewrite ?Nat.ltb_lt, ?Nat.ltb_ge in *; try discriminate; try lia; intros H H';
    (destruct (Nat.ltb (lf_ec f) (lf_ec h)) eqn:A5; [reflexivity|]); rewrite ?Nat.ltb_lt, ?Nat.ltb_ge in *; try lia.
    destruct (Nat.ltb (lf_ec h) (lf_ec f)) eqn:A6; rewrite ?Nat.ltb_lt, ?Nat.ltb_ge in *; try lia.
    clear A1 A2 A3 A4 A5 A6.
    set (tf := type_number (lf_kind f)) in *. set (tg := type_number (lf_kind g)) in *. set (th := type_number (lf_kind h)) in *.
    destruct (Nat.ltb tf tg) eqn:A1; destruct (Nat.ltb tg tf) eqn:A2; destruct (Nat.ltb tg th) eqn:A3; destruct (Nat.ltb th tg) eqn:A4;
    rewrite ?Nat.ltb_lt, ?Nat.ltb_ge in *; try discriminate; try lia;
    (destruct (Nat.ltb tf th) eqn:A5; [reflexivity|]); rewrite ?Nat.ltb_lt, ?Nat.ltb_ge in *; try lia.
    destruct (Nat.ltb th tf) eqn:A6; rewrite ?Nat.ltb_lt, ?Nat.ltb_ge in *; try lia.
    assert (T1 : type_number (lf_kind f) = type_number (lf_kind g)) by (unfold tf, tg in *; lia).
    assert (T2 : type_number (lf_kind g) = type_number (lf_kind h)) by (unfold tg, th in *; lia).
    rewrite <- (type_gaussian _ _ T1) in H'.
    destruct (is_gaussian (lf_kind f)); cbn [negb andb] in *. { eapply lex_trans; eauto. }
    destruct (str_lt (lf_subtype f) (lf_subtype g)) eqn:S1.
    + destruct (str_lt (lf_subtype g) (lf_subtype h)) eqn:S2. { now rewrite (str_lt_trans _ _ _ S1 S2). }
      destruct (str_lt (lf_subtype h) (lf_subtype g)) eqn:S3; [discriminate|].
      rewrite (str_incomparable _ _ S2 S3) in S1. now rewrite S1.
    + destruct (str_lt (lf_subtype g) (lf_subtype f)) eqn:S2; [discriminate|].
      rewrite (str_incomparable _ _ S1 S2) in *. destruct (str_lt (lf_subtype g) (lf_subtype h)); auto.
      destruct (str_lt (lf_subtype h) (lf_subtype g)); [discriminate|]. eapply lex_trans; eauto.
  - intros f g h _ _ _ A B C D. pose proof (lf_incomparable f g A B) as S. destruct (same_lt f g h S) as (E1 & E2).
    rewrite E1, E2. auto.
Qed.

(** ** Equal parameters, equal functions *)
Lemma compact_numbers s s' k k' : canon s k -> canon s' k' -> type_number k = type_number k' ->
  (is_gaussian k = false -> s = s') -> numbers k = numbers k' -> k = k' /\ s = s'.
Proof.
  intros (N & C) (N' & C') T S E.
  assert (S' : s = s').
  { destruct (is_gaussian k) eqn:G; auto. pose proof (type_gaussian _ _ T) as G'. rewrite G in G'.
    destruct k; try discriminate; destruct k'; try discriminate; cbn in N, N'; congruence. }
  split; auto. subst s'. clear S.
  destruct k as [p|p|p|p|p|p|p|p|p|p|p]; destruct k' as [q|q|q|q|q|q|q|q|q|q|q]; try discriminate T; f_equal; clear T;
    destruct p, q; cbn in *.
  all: injection E; intros; repeat match goal with H : INR _ = INR _ |- _ => apply INR_eq in H end.
  all: try (destruct N as (kk & asym & S1 & N), N' as (kk' & asym' & S2 & N'); destruct (subtype_det _ _ _ _ _ S1 S2) as (-> & ->)).
  all: repeat match goal with H : _ /\ _ |- _ => destruct H end; subst; try congruence.
  all: repeat match goal with H : exponent _ _ _ |- _ => destruct H as (? & ? & ?) end; subst.
  all: try (assert (ea_useIntegerPow = ea_useIntegerPow0) by (apply eq_true_iff_eq; intuition)); congruence.
Qed.

Definition proj (f : linefn) : nat * str * kind := (lf_ec f, lf_subtype f, lf_kind f).
Definition lf_canon (f : linefn) : Prop := canon (lf_subtype f) (lf_kind f).
Lemma canon_same f g : lf_canon f -> lf_canon g -> same_as f g -> proj f = proj g.
Proof.
  intros C C' (E & T & S & N). unfold proj. destruct (compact_numbers _ _ _ _ C C' T S N) as (-> & ->). now rewrite E.
Qed.

(** ** Sorted lists are determined up to line numbers *)
Lemma sorted_filter {A} (R : A -> A -> Prop) P l : StronglySorted R l -> StronglySorted R (filter P l).
Proof.
  induction 1 as [|x l S IH F]; cbn; [constructor|]. destruct (P x); auto. constructor; auto.
  rewrite Forall_forall in *. intros y Hy. apply filter_In in Hy. now apply F.
Qed.
Lemma filter_perm {A} (P : A -> bool) l l' : Permutation l l' -> Permutation (filter P l) (filter P l').
Proof.
  induction 1 as [|x l l' H IH|x y l|l l' l'' H IH H' IH']; cbn; auto.
  - destruct (P x); auto.
  - destruct (P x), (P y); auto. apply perm_swap.
  - now transitivity (filter P l').
Qed.
(** Comparison on what matters. *)
Definition rep (x : nat * str * kind) : linefn := mkLF (fst (fst x)) (snd (fst x)) 0 (mkSF new_common (snd x)).
Lemma lt_proj f g : lf_lt f g = lf_lt (rep (proj f)) (rep (proj g)).
Proof. reflexivity. Qed.
Lemma sorted_proj l : StronglySorted (fun x y => lf_lt y x = false) l ->
  StronglySorted (fun x y => lf_lt (rep y) (rep x) = false) (map proj l).
Proof.
  induction 1 as [|x l S IH F]; cbn; constructor; auto. rewrite Forall_map. eapply Forall_impl; [|exact F]. auto.
Qed.
Lemma sort_unique l l' : Permutation (map proj l) (map proj l') -> Forall lf_canon l ->
  StronglySorted (fun x y => lf_lt y x = false) l -> StronglySorted (fun x y => lf_lt y x = false) l' ->
  map proj l = map proj l'.
Proof.
  intros P C S S'. apply (sorted_unique (fun x y => lf_lt (rep y) (rep x) = false)); auto using sorted_proj.
  rewrite Forall_forall in C.
  intros x y Hx Hy A B. apply in_map_iff in Hx, Hy. destruct Hx as (f & <- & Hf), Hy as (g & <- & Hg).
  apply canon_same; auto. apply lf_incomparable; auto.
Qed.
