(** Proofs about the way from settings lines to symmetry functions. *)
From Coq Require Import Reals ZArith Ascii String Bool Arith Lia Lra Permutation Sorted.
From Flocq Require Import Core.
From Coq Require Import List.
From Verif Require Import Base.AssocMap Model.Strings Model.Printf Model.ElementMap Model.CoreFunction Model.CutoffFunction
  Model.CompactScreening Model.Scaling Model.SymFunctions Model.SymSetup Model.SymLines Spec.StringSpec Spec.CompactSpec
  Spec.SymSpec Spec.SetupSpec Spec.SymLineSpec Proofs.StringProofs Proofs.SetupProofs.
Import ListNotations.
Local Open Scope R_scope.

(** ** Outcomes *)
Lemma bindo_done {A B} (x : outcome A) (f : A -> outcome B) b :
  bindo x f = Done b <-> exists a, x = Done a /\ f a = Done b.
Proof.
  destruct x; cbn; split; try discriminate.
  - intros H. exists a. auto.
  - intros (a' & E & H). now injection E as <-.
  - intros (a & E & _). discriminate.
  - intros (a & E & _). discriminate.
Qed.
Lemma throwing_done {A} (x : option A) a : throwing x = Done a <-> x = Some a.
Proof. destruct x; cbn; split; congruence. Qed.
Lemma mapo_done {A B} (f : A -> outcome B) l : forall l', mapo f l = Done l' <-> Forall2 (fun x y => f x = Done y) l l'.
Proof.
  induction l as [|x l IH]; intros l'; cbn.
  - split; [intros E; injection E as <-; constructor|intros H; now inversion H].
  - rewrite bindo_done. split.
    + intros (y & Ey & H). apply bindo_done in H. destruct H as (ys & E & H). injection H as <-. constructor; auto. now apply IH.
    + intros H. inversion H as [|? y ? ys E1 E2]; subst. exists y. split; auto. apply bindo_done. exists ys. split; auto. now apply IH.
Qed.

(** ** Words *)
Lemma at_done l i w : at_ l i = Done w <-> word l i w.
Proof. apply throwing_done. Qed.
Lemma number_done l i x : number_at l i = Done x <-> num l i x.
Proof.
  unfold number_at, num. rewrite bindo_done. split.
  - intros (w & E & H). exists w. split; [now apply at_done|]. congruence.
  - intros (w & E & ->). exists w. split; [now apply at_done|]. reflexivity.
Qed.
Lemma element_done em l i e : element_at em l i = Done e <-> elt em l i e.
Proof.
  unfold element_at, elt. rewrite bindo_done. split; intros (w & E & H); exists w; (split; [now apply at_done|]); now apply throwing_done.
Qed.

(** ** Cutoff and compact functions *)
Lemma new_fc_done rc fc : new_fc rc = Done fc <-> cf_configure CT_HARD rc 0 = Some fc.
Proof. unfold new_fc. rewrite throwing_done. reflexivity. Qed.
Lemma in_int_true z : in_int z = true <-> (- 2 ^ 31 <= z < 2 ^ 31)%Z.
Proof. unfold in_int. rewrite andb_true_iff, Z.leb_le, Z.ltb_lt. reflexivity. Qed.
Lemma leR_true x y : leR x y = true <-> x <= y.
Proof. unfold leR. destruct (Rle_dec x y); split; auto; discriminate. Qed.
Lemma ltR_true x y : ltR x y = true <-> x < y.
Proof. unfold ltR. destruct (Rlt_dec x y); split; auto; discriminate. Qed.
Lemma set_zeta_done zeta zi use : set_zeta zeta = Done (zi, use) <-> exponent zeta zi use.
Proof.
  unfold set_zeta, exponent. destruct (in_int (ZnearestA zeta)) eqn:E.
  - apply in_int_true in E. split.
    + intros H. injection H as <- <-. repeat split; try lia; apply leR_true.
    + intros (-> & _ & H). do 2 f_equal. apply eq_true_iff_eq. rewrite H. apply leR_true.
  - split; [discriminate|]. intros (-> & H & _). apply in_int_true in H. congruence.
Qed.

Lemma subtype_det s k a k' a' : subtype s k a -> subtype s k' a' -> k' = k /\ a' = a.
Proof. intros H H'. destruct H; inversion H'; subst; auto. Qed.
Definition fresh_compact (k : core_kind) (asym : bool) : compact_function := cp_setAsymmetric asym (cp_setCoreFunction k cp_init).
Lemma setCompact_done s c : setCompactFunction s = Done c <-> exists k asym, subtype s k asym /\ c = fresh_compact k asym.
Proof.
  split.
  - unfold setCompactFunction. destruct (Nat.ltb 3 (List.length s)) eqn:L; [discriminate|]. apply Nat.ltb_ge in L.
    destruct s as [|c0 s]; [discriminate|].
    destruct (ch_eqb c0 "p"%char) eqn:Ep.
    + apply ch_eqb_true in Ep. subst c0. destruct s as [|d s]; [discriminate|]. intros H. apply bindo_done in H.
      destruct H as (c1 & E1 & H).
      assert (S2 : s = [] \/ exists a, s = [a]).
      { destruct s as [|a [|? ?]]; auto; [right; eauto|cbn in L; lia]. }
      destruct (ch_eqb d "1"%char) eqn:D1; [apply ch_eqb_true in D1; subst d|
      destruct (ch_eqb d "2"%char) eqn:D2; [apply ch_eqb_true in D2; subst d|
      destruct (ch_eqb d "3"%char) eqn:D3; [apply ch_eqb_true in D3; subst d|
      destruct (ch_eqb d "4"%char) eqn:D4; [apply ch_eqb_true in D4; subst d|discriminate]]]];
      injection E1 as <-; (destruct S2 as [->|(a & ->)];
        [injection H as <-; eexists _, false; split; [constructor|reflexivity]
        |destruct (ch_eqb a "a"%char) eqn:A1; [apply ch_eqb_true in A1; subst a|discriminate]; injection H as <-;
         eexists _, true; split; [constructor|reflexivity]]).
    + destruct (ch_eqb c0 "e"%char) eqn:Ee; [|discriminate]. apply ch_eqb_true in Ee. subst c0.
      intros H. injection H as <-. exists CK_EXP, false. split; [constructor; cbn in L; lia|reflexivity].
  - intros (k & asym & H & ->). destruct H; try reflexivity.
    unfold setCompactFunction. replace (Nat.ltb 3 (List.length ("e"%char :: rest))) with false; [reflexivity|].
    symmetry. apply Nat.ltb_ge. cbn. lia.
Qed.
Lemma set_radial_done rl rc s c : set_radial rl rc s = Done c <-> exists k asym, subtype s k asym /\ compact_config k asym rl rc = Some c.
Proof.
  unfold set_radial. split.
  - destruct (ltR rc rl); [discriminate|]. intros H. apply bindo_done in H. destruct H as (c0 & E & H).
    apply setCompact_done in E. destruct E as (k & asym & S & ->). exists k, asym. split; auto. now apply throwing_done.
  - intros (k & asym & S & H). destruct (ltR rc rl) eqn:L.
    + apply ltR_true in L. unfold compact_config, cp_setLeftRight in H. destruct (Rge_dec rl rc); [discriminate|lra].
    + apply bindo_done. exists (fresh_compact k asym). split; [apply setCompact_done; eauto|]. now apply throwing_done.
Qed.
Lemma compact_core k asym l r c : compact_config k asym l r = Some c -> core_type (cp_core c) = k.
Proof.
  unfold compact_config, cp_setLeftRight. destruct (Rge_dec l r); [discriminate|]. intros H. injection H as <-. reflexivity.
Qed.
Lemma set_angular_done l r c lr rr ca : set_angular l r c = Done (lr, rr, ca) <->
  window l r /\ lr = degrees l /\ rr = degrees r /\ compact_config (core_type (cp_core c)) false lr rr = Some ca.
Proof.
  assert (W : window l r <-> leR r l = false /\
    ((ltR l 0 && negb (eqR ((l + r) / 2) 0)) || (ltR 180 r && negb (eqR ((l + r) / 2) 180)))%bool = false /\
    ltR 360 (r - l) = false).
  { unfold window. unfold leR, ltR, eqR. destruct (Rle_dec r l), (Rlt_dec l 0), (Rlt_dec 180 r), (Rlt_dec 360 (r - l)),
      (Req_EM_T ((l + r) / 2) 0), (Req_EM_T ((l + r) / 2) 180); cbn; split; intros H; try (decompose [and or] H; try lra; discriminate);
      try (repeat split; auto; try lra; try (left; lra); try (right; lra)). }
  rewrite W. unfold set_angular. split.
  - destruct (leR r l); [discriminate|]. cbv zeta. destruct (_ || _)%bool; [discriminate|]. destruct (ltR 360 (r - l)); [discriminate|].
    intros H. apply bindo_done in H. destruct H as (a & E & H). injection H as <- <- <-. apply throwing_done in E. repeat split; auto.
  - intros ((A & B & C) & -> & -> & H). rewrite A. cbv zeta. rewrite B, C. apply bindo_done. exists ca. split; auto. now apply throwing_done.
Qed.

(** ** One line *)
Lemma min_max_swap e1 e2 : (if Nat.ltb e2 e1 then (e2, e1) else (e1, e2)) = (Nat.min e1 e2, Nat.max e1 e2).
Proof.
  destruct (Nat.ltb e2 e1) eqn:E; [apply Nat.ltb_lt in E|apply Nat.ltb_ge in E]; f_equal; lia.
Qed.
Ltac undo :=
  repeat match goal with
  | H : bindo _ _ = Done _ |- _ => let a := fresh "x" in let E := fresh "E" in apply bindo_done in H; destruct H as (a & E & H)
  | H : element_at _ _ _ = Done _ |- _ => apply element_done in H
  | H : number_at _ _ = Done _ |- _ => apply number_done in H
  | H : at_ _ _ = Done _ |- _ => apply at_done in H
  | H : new_fc _ = Done _ |- _ => apply new_fc_done in H
  end.
Ltac redo :=
  repeat match goal with
  | |- bindo _ _ = Done _ => apply bindo_done; eexists; split
  | |- element_at _ _ _ = Done _ => apply element_done; eassumption
  | |- number_at _ _ = Done _ => apply number_done; eassumption
  | |- at_ _ _ = Done _ => apply at_done; eassumption
  | |- new_fc _ = Done _ => apply new_fc_done; eassumption
  | |- set_zeta _ = Done _ => apply set_zeta_done; eassumption
  end.

Lemma shift_done ws rs : (if Nat.ltb 8 (List.length ws) then number_at ws 8 else Done 0) = Done rs <->
  (num ws 8 rs \/ (List.length ws <= 8)%nat /\ rs = 0).
Proof.
  destruct (Nat.ltb 8 (List.length ws)) eqn:L; [apply Nat.ltb_lt in L|apply Nat.ltb_ge in L].
  - rewrite number_done. split; auto. intros [H|(H & _)]; auto. lia.
  - split; [intros H; injection H as <-; auto|]. intros [(w & E & _)|(_ & ->)]; auto.
    exfalso. unfold word in E. apply (f_equal (fun o => match o with Some _ => true | None => false end)) in E.
    assert (N : nth_error ws 8 = None) by (apply nth_error_None; lia). rewrite N in E. discriminate.
Qed.

(** The subtype text belongs to the compact function. *)
Definition named (s : str) (k : kind) : Prop :=
  match k with
  | CompRad p | CompRadWeighted p => exists kk asym, subtype s kk asym /\ compact_config kk asym (cr_rl p) (cr_rc p) = Some (cr_c p)
  | CompAngn p | CompAngw p | CompAngnWeighted p | CompAngwWeighted p =>
      exists kk asym, subtype s kk asym /\ compact_config kk asym (ca_rl p) (ca_rc p) = Some (ca_c p) /\
        compact_config kk false (ca_left p) (ca_right p) = Some (ca_a p)
  | _ => s = lit "ct0"
  end.

Ltac same_word :=
  match goal with H : word ?ws ?i ?s, H' : word ?ws ?i ?s' |- _ => assert (s' = s) by (unfold word in *; congruence); subst s' end.
Section Line.
  Variable em : element_map.
  Notation doc := (documented_kind em CT_HARD 0).

  Lemma expRad_done ws k : setParameters_ExpRad em ws = Done k <-> doc ws 2 k.
  Proof.
    split.
    - unfold setParameters_ExpRad. intros H. undo. injection H as <-. now econstructor.
    - intros H. inversion H; subst. unfold setParameters_ExpRad. redo. reflexivity.
  Qed.
  Lemma expRadW_done ws k : setParameters_ExpRadWeighted ws = Done k <-> doc ws 12 k.
  Proof.
    split.
    - unfold setParameters_ExpRadWeighted. intros H. undo. injection H as <-. now econstructor.
    - intros H. inversion H; subst. unfold setParameters_ExpRadWeighted. redo. reflexivity.
  Qed.
  Lemma expAngnW_done ws k : setParameters_ExpAngnWeighted ws = Done k <-> doc ws 13 k.
  Proof.
    split.
    - unfold setParameters_ExpAngnWeighted. intros H. undo. injection H as <-.
      match goal with E : set_zeta _ = Done ?x |- _ => destruct x; apply set_zeta_done in E end. now econstructor.
    - intros H. inversion H; subst. unfold setParameters_ExpAngnWeighted. redo. reflexivity.
  Qed.
  Lemma expAng_done mk ws k : setParameters_ExpAng mk em ws = Done k <->
    exists e1 e2 eta lambda zeta rc rs zi use fc,
      elt em ws 2 e1 /\ elt em ws 3 e2 /\ num ws 4 eta /\ num ws 5 lambda /\ num ws 6 zeta /\ num ws 7 rc /\
      (num ws 8 rs \/ (List.length ws <= 8)%nat /\ rs = 0) /\ cf_configure CT_HARD rc 0 = Some fc /\ exponent zeta zi use /\
      k = mk (mkEA (Nat.min e1 e2) (Nat.max e1 e2) eta rs lambda zeta zi use rc fc).
  Proof.
    unfold setParameters_ExpAng. split.
    - intros H. undo. rewrite min_max_swap in H. undo. injection H as <-.
      match goal with E : (if Nat.ltb 8 _ then _ else _) = Done _ |- _ => apply shift_done in E end.
      match goal with E : set_zeta _ = Done ?x |- _ => destruct x; apply set_zeta_done in E end.
      do 10 eexists. repeat (split; [eassumption|]). reflexivity.
    - intros (e1 & e2 & eta & lambda & zeta & rc & rs & zi & use & fc & A1 & A2 & A3 & A4 & A5 & A6 & A7 & A8 & A9 & ->).
      redo. { apply shift_done. eassumption. }
      rewrite min_max_swap. redo. reflexivity.
  Qed.
  Lemma expAngn_done ws k : setParameters_ExpAng ExpAngn em ws = Done k <-> doc ws 3 k.
  Proof.
    rewrite expAng_done. split.
    - intros (e1 & e2 & eta & lambda & zeta & rc & rs & zi & use & fc & A1 & A2 & A3 & A4 & A5 & A6 & A7 & A8 & A9 & ->).
      now constructor.
    - intros H. inversion H; subst. do 10 eexists. repeat (split; [eassumption|]). reflexivity.
  Qed.
  Lemma expAngw_done ws k : setParameters_ExpAng ExpAngw em ws = Done k <-> doc ws 9 k.
  Proof.
    rewrite expAng_done. split.
    - intros (e1 & e2 & eta & lambda & zeta & rc & rs & zi & use & fc & A1 & A2 & A3 & A4 & A5 & A6 & A7 & A8 & A9 & ->).
      now constructor.
    - intros H. inversion H; subst. do 10 eexists. repeat (split; [eassumption|]). reflexivity.
  Qed.
  Lemma compRad_done ws s k : setParameters_CompRad em ws = Done (s, k) <-> word ws 5 s /\ named s k /\ doc ws 20 k.
  Proof.
    split.
    - unfold setParameters_CompRad. intros H. undo. injection H as <- <-.
      match goal with E : set_radial _ _ _ = Done _ |- _ => apply set_radial_done in E; destruct E as (kk & asym & S & E) end.
      repeat split; auto. { exists kk, asym. auto. } econstructor; eassumption.
    - intros (W & N & H). inversion H; subst. destruct N as (kk & asym' & S & E). cbn in E. same_word. unfold setParameters_CompRad. redo.
      { apply set_radial_done. eauto. } reflexivity.
  Qed.
  Lemma compRadW_done ws s k : setParameters_CompRadWeighted ws = Done (s, k) <-> word ws 4 s /\ named s k /\ doc ws 23 k.
  Proof.
    split.
    - unfold setParameters_CompRadWeighted. intros H. undo. injection H as <- <-.
      match goal with E : set_radial _ _ _ = Done _ |- _ => apply set_radial_done in E; destruct E as (kk & asym & S & E) end.
      repeat split; auto. { exists kk, asym. auto. } econstructor; eassumption.
    - intros (W & N & H). inversion H; subst. destruct N as (kk & asym' & S & E). cbn in E. same_word. unfold setParameters_CompRadWeighted. redo.
      { apply set_radial_done. eauto. } reflexivity.
  Qed.
  Lemma compAng_done mk ws s k : setParameters_CompAng mk em ws = Done (s, k) <->
    exists e1 e2 rl rc l r kk asym c a,
      elt em ws 2 e1 /\ elt em ws 3 e2 /\ num ws 4 rl /\ num ws 5 rc /\ num ws 6 l /\ num ws 7 r /\ word ws 8 s /\
      subtype s kk asym /\ window l r /\
      compact_config kk asym rl rc = Some c /\ compact_config kk false (degrees l) (degrees r) = Some a /\
      k = mk (mkCA (Nat.min e1 e2) (Nat.max e1 e2) rl rc (degrees l) (degrees r) c a).
  Proof.
    unfold setParameters_CompAng. split.
    - intros H. undo. rewrite min_max_swap in H. undo.
      match goal with E : set_radial _ _ _ = Done _ |- _ => apply set_radial_done in E; destruct E as (kk & asym & S & E) end.
      match goal with E : set_angular _ _ _ = Done ?x |- _ => destruct x as ((lr & rr) & ca);
        apply set_angular_done in E; destruct E as (W & -> & -> & A) end.
      injection H as <- <-. rewrite (compact_core _ _ _ _ _ E6) in A.
      do 10 eexists. repeat (split; [eassumption|]). reflexivity.
    - intros (e1 & e2 & rl & rc & l & r & kk & asym & c & a & A1 & A2 & A3 & A4 & A5 & A6 & A7 & A8 & A9 & B1 & B2 & ->).
      redo. rewrite min_max_swap. redo. { apply set_radial_done. eauto. }
      { apply (proj2 (set_angular_done l r c (degrees l) (degrees r) a)). rewrite (compact_core _ _ _ _ _ B1). auto. } reflexivity.
  Qed.
  Lemma compAngW_done mk ws s k : setParameters_CompAngWeighted mk ws = Done (s, k) <->
    exists rl rc l r kk asym c a,
      num ws 2 rl /\ num ws 3 rc /\ num ws 4 l /\ num ws 5 r /\ word ws 6 s /\
      subtype s kk asym /\ window l r /\
      compact_config kk asym rl rc = Some c /\ compact_config kk false (degrees l) (degrees r) = Some a /\
      k = mk (mkCA 0 0 rl rc (degrees l) (degrees r) c a).
  Proof.
    unfold setParameters_CompAngWeighted. split.
    - intros H. undo.
      match goal with E : set_radial _ _ _ = Done _ |- _ => apply set_radial_done in E; destruct E as (kk & asym & S & E) end.
      match goal with E : set_angular _ _ _ = Done ?x |- _ => destruct x as ((lr & rr) & ca);
        apply set_angular_done in E; destruct E as (W & -> & -> & A) end.
      injection H as <- <-. rewrite (compact_core _ _ _ _ _ E4) in A.
      do 8 eexists. repeat (split; [eassumption|]). reflexivity.
    - intros (rl & rc & l & r & kk & asym & c & a & A3 & A4 & A5 & A6 & A7 & A8 & A9 & B1 & B2 & ->).
      redo. { apply set_radial_done. eauto. }
      { apply (proj2 (set_angular_done l r c (degrees l) (degrees r) a)). rewrite (compact_core _ _ _ _ _ B1). auto. } reflexivity.
  Qed.

  (** Position of the subtype. *)
  Definition subtype_word (ws : list str) (s : str) (k : kind) : Prop :=
    match k with
    | CompRad _ => word ws 5 s | CompRadWeighted _ => word ws 4 s
    | CompAngn _ | CompAngw _ => word ws 8 s | CompAngnWeighted _ | CompAngwWeighted _ => word ws 6 s
    | _ => True
    end.
  Lemma gaussian_done x s k : gaussian x = Done (s, k) <-> x = Done k /\ s = lit "ct0".
  Proof.
    unfold gaussian. rewrite bindo_done. split.
    - intros (a & -> & E). split; congruence.
    - intros (-> & ->). exists k. auto.
  Qed.

  Lemma doc_named ws n k : doc ws n k -> exists s, named s k /\ subtype_word ws s k.
  Proof.
    intros H. inversion H; subst; cbn; try (exists (lit "ct0"); now split);
      eexists; (split; [|eassumption]); do 2 eexists; (split; [eassumption|]); try split; eassumption.
  Qed.

  Lemma new_done v ln f : newFunction em v ln = Done f <->
    exists ws n ec k s, is_words v ws /\ elt em ws 0 ec /\ type_no ws 1 n /\ doc ws n k /\
      named s k /\ subtype_word ws s k /\ f = mkLF ec s ln (mkSF new_common k).
  Proof.
    destruct (words_exist_unique v) as (ws & Hw & Uw).
    unfold newFunction. rewrite (split_reduce_tokens _ _ Hw). split.
    - intros H. undo. injection H as <-. destruct x1 as (s & k). cbn [fst snd].
      exists ws, x0, x2, k, s. split; auto. split; auto.
      split. { exists x. auto. }
      assert (G : doc ws x0 k /\ named s k /\ subtype_word ws s k).
      { destruct x0 as [|p|p]; try discriminate.
        repeat (destruct p as [p|p|]; try discriminate);
        try (apply gaussian_done in E1; destruct E1 as (E1 & ->));
        (apply expRad_done in E1 || apply expRadW_done in E1 || apply expAngn_done in E1 || apply expAngw_done in E1 ||
         apply expAngnW_done in E1 || apply compRad_done in E1 || apply compRadW_done in E1 || apply compAng_done in E1 ||
         apply compAngW_done in E1).
        all: try (decompose [and] E1; split; auto; split; auto;
          match goal with H : doc _ _ _ |- _ => inversion H; subst; assumption end).
        all: try (split; [exact E1|]; inversion E1; subst; cbn; now split).
        all: destruct E1 as (e1 & e2 & rl & rc & l & r & kk & asym & c & a & A1 & A2 & A3 & A4 & A5 & A6 & A7 & A8 & A9 & B1 & B2 & ->) ||
             destruct E1 as (rl & rc & l & r & kk & asym & c & a & A3 & A4 & A5 & A6 & A7 & A8 & A9 & B1 & B2 & ->);
          (split; [econstructor; eassumption|]); (split; [|exact A7]); exists kk, asym; cbn; auto. }
      destruct G as (G1 & G2 & G3). auto.
    - intros (ws' & n & ec & k & s & Hw' & He & (w & W1 & W2) & Hd & Hn & Hs & ->).
      rewrite <- (Uw ws' Hw') in *. clear ws' Hw'.
      apply bindo_done. exists w. split; [now apply at_done|]. apply bindo_done. exists n. split; auto.
      apply bindo_done. exists (s, k). split.
      + inversion Hd; subst n k; cbn in Hn, Hs; try subst s;
          try (apply gaussian_done; split; [|reflexivity]).
        * now apply expRad_done.
        * now apply expRadW_done.
        * now apply expAngn_done.
        * now apply expAngw_done.
        * now apply expAngnW_done.
        * now apply compRad_done.
        * now apply compRadW_done.
        * apply compAng_done. destruct Hn as (kk & as' & S' & C' & D'). do 10 eexists. repeat (split; [eassumption|]). reflexivity.
        * apply compAng_done. destruct Hn as (kk & as' & S' & C' & D'). do 10 eexists. repeat (split; [eassumption|]). reflexivity.
        * apply compAngW_done. destruct Hn as (kk & as' & S' & C' & D'). do 8 eexists. repeat (split; [eassumption|]). reflexivity.
        * apply compAngW_done. destruct Hn as (kk & as' & S' & C' & D'). do 8 eexists. repeat (split; [eassumption|]). reflexivity.
      + apply bindo_done. exists ec. split; [now apply element_done|reflexivity].
  Qed.
End Line.
