(** The functions of all elements (C72). *)
From Coq Require Import Reals ZArith Ascii String Bool Arith Lia Lra Permutation Sorted.
From Flocq Require Import Core.
From Coq Require Import List.
From Verif Require Import Base.AssocMap Model.Strings Model.Printf Model.ElementMap Model.CoreFunction Model.CutoffFunction
  Model.CompactScreening Model.Scaling Model.SymFunctions Model.SymSetup Model.SymLines Spec.StringSpec Spec.ElementSpec Spec.CompactSpec
  Spec.SymSpec Spec.SetupSpec Spec.ForceSpec Spec.SymLineSpec Proofs.StringProofs Proofs.ElementMapProofs Proofs.SetupProofs
  Proofs.SymLineProofs Proofs.SymLineSetup.
Import ListNotations.
Local Open Scope R_scope.

Lemma registered_index em w e : registered em -> em_index em w = Some e -> (e < em_size em)%nat.
Proof.
  intros (line & ws & W & N & K & R) E. destruct (register_bijection line ws W N K) as (m & R' & Sz & B & _ & D & _).
  rewrite R in R'. injection R' as <-. rewrite Sz. apply D. exists w. now apply B.
Qed.

(** ** Reading the lines *)
Definition of_element (e : nat) (fs : list linefn) : list linefn := filter (fun f => Nat.eqb (lf_ec f) e) fs.
Definition read_line em (v : str * nat) : outcome linefn := newFunction em (fst v) (snd v).
Lemma new_element em v f : read_line em v = Done f ->
  element_at em (split (reduce (fst v)) ch_space) 0 = Done (lf_ec f).
Proof.
  unfold read_line, newFunction. intros H. repeat (apply bindo_done in H; destruct H as (? & ? & H)). injection H as <-. cbn. assumption.
Qed.
Lemma new_bound em v f : registered em -> read_line em v = Done f -> (lf_ec f < em_size em)%nat.
Proof.
  intros R H. apply new_element in H. apply element_done in H. destruct H as (w & _ & H). eapply registered_index; eauto.
Qed.
Lemma add_done em v els els' : addLine em v els = Done els' <->
  exists f fs, read_line em v = Done f /\ nth_error els (lf_ec f) = Some fs /\
    els' = firstn (lf_ec f) els ++ (fs ++ [f]) :: skipn (S (lf_ec f)) els.
Proof.
  unfold addLine. rewrite bindo_done. split.
  - intros (e & E & H). apply bindo_done in H. destruct H as (fs & F & H). apply throwing_done in F.
    apply bindo_done in H. destruct H as (f & N & H). injection H as <-. fold (read_line em v) in N.
    pose proof (new_element _ _ _ N) as E'. rewrite E in E'. injection E' as ->. eauto.
  - intros (f & fs & N & F & ->). exists (lf_ec f). split; [now apply new_element|]. apply bindo_done. exists fs.
    split; [now apply throwing_done|]. apply bindo_done. exists f. auto.
Qed.
Lemma map_seq_update {A} (g g' : nat -> A) n e x : (e < n)%nat -> g' e = x -> (forall i, i <> e -> g' i = g i) ->
  firstn e (map g (seq 0 n)) ++ x :: skipn (S e) (map g (seq 0 n)) = map g' (seq 0 n).
Proof.
  intros He Hx Ho. replace n with (e + S (n - S e))%nat at 1 2 by lia.
  rewrite seq_app, map_app. cbn [seq map Nat.add].
  assert (L : List.length (map g (seq 0 e)) = e) by (now rewrite map_length, seq_length).
  rewrite firstn_app, L, Nat.sub_diag, firstn_all2 by lia. cbn [firstn]. rewrite app_nil_r.
  rewrite skipn_app, L. rewrite skipn_all2 by lia. replace (S e - e)%nat with 1%nat by lia. cbn [skipn app].
  replace n with (e + S (n - S e))%nat at 2 by lia. rewrite seq_app, map_app. cbn [seq map Nat.add]. rewrite Hx. f_equal; [|f_equal].
  - apply map_ext_in. intros i Hi. apply in_seq in Hi. symmetry. apply Ho. lia.
  - apply map_ext_in. intros i Hi. apply in_seq in Hi. symmetry. apply Ho. lia.
Qed.
Lemma lines_done em values : registered em -> forall old els',
  foldo (addLine em) values (map (fun e => of_element e old) (seq 0 (em_size em))) = Done els' <->
  exists fs, mapo (read_line em) values = Done fs /\ els' = map (fun e => of_element e (old ++ fs)) (seq 0 (em_size em)).
Proof.
  intros R. induction values as [|v values IH]; intros old els'; cbn [foldo mapo].
  - split; [intros H; injection H as <-; exists []; rewrite app_nil_r; auto|].
    intros (fs & H & ->). injection H as <-. now rewrite app_nil_r.
  - assert (St : forall f, read_line em v = Done f ->
      addLine em v (map (fun e => of_element e old) (seq 0 (em_size em))) =
        Done (map (fun e => of_element e (old ++ [f])) (seq 0 (em_size em)))).
    { intros f E. apply add_done. exists f, (of_element (lf_ec f) old). pose proof (new_bound _ _ _ R E) as B. repeat split; auto.
      - rewrite nth_error_map, (nth_error_nth' _ 0%nat), seq_nth by (rewrite ?seq_length; auto). reflexivity.
      - symmetry. apply map_seq_update; auto.
        + unfold of_element. rewrite filter_app. cbn. now rewrite Nat.eqb_refl.
        + intros i Hi. unfold of_element. rewrite filter_app. cbn. destruct (Nat.eqb_spec (lf_ec f) i); [congruence|]. apply app_nil_r. }
    split.
    + intros H. apply bindo_done in H. destruct H as (s & A & H). pose proof A as A'. apply add_done in A'. destruct A' as (f & _ & E & _).
      rewrite (St f E) in A. injection A as <-. apply IH in H. destruct H as (fs & M & ->). exists (f :: fs). rewrite E. cbn [bindo]. rewrite M.
      split; auto. now rewrite <- app_assoc.
    + intros (fs & H & ->). apply bindo_done in H. destruct H as (f & E & H). apply bindo_done in H. destruct H as (fs' & M & H).
      injection H as <-. apply bindo_done. eexists. split; [exact (St f E)|]. apply IH. exists fs'. split; auto. now rewrite <- app_assoc.
Qed.

(** ** One element *)
Definition unitk (normalize : bool) (conv : R) (k : kind) : kind :=
  if normalize then match changeLengthUnit conv k with Some k' => k' | None => k end else k.
Definition unitf (normalize : bool) (conv : R) (f : linefn) : linefn :=
  mkLF (lf_ec f) (lf_subtype f) (lf_line f) (mkSF (sf_c (lf_sf f)) (unitk normalize conv (lf_kind f))).
Lemma unitk_spec normalize conv s k : 0 < conv -> canon s k -> in_unit normalize conv k (unitk normalize conv k) /\ canon s (unitk normalize conv k).
Proof.
  intros Hc C. unfold in_unit, unitk. destruct normalize; auto. destruct (canon_unit conv s k Hc C) as (k' & -> & C'). auto.
Qed.
Lemma unitf_canon normalize conv f : 0 < conv -> lf_canon f -> lf_canon (unitf normalize conv f).
Proof. intros Hc C. now apply unitk_spec. Qed.
Lemma unit_step (normalize : bool) conv fs : 0 < conv -> Forall lf_canon fs ->
  (if normalize then mapo (changeUnit conv) fs else Done fs) = Done (map (unitf normalize conv) fs).
Proof.
  intros Hc C. destruct normalize.
  - apply mapo_done. induction C as [|f fs C CS IH]; cbn [map]; constructor; auto. unfold changeUnit, unitf, unitk.
    destruct (canon_unit conv _ _ Hc C) as (k' & -> & _). reflexivity.
  - f_equal. rewrite <- (map_id fs) at 1. apply map_ext. intros [e s l [c k]]. reflexivity.
Qed.
Lemma set_done t alpha f g : setCutoff t alpha f = Done g <->
  exists k, set_cutoff t alpha (lf_kind f) = Some k /\
  g = mkLF (lf_ec f) (if is_gaussian (lf_kind f) then lit "ct" ++ [digit (Z.of_nat (cutoff_number t))] else lf_subtype f)
           (lf_line f) (mkSF (sf_c (lf_sf f)) k).
Proof.
  unfold setCutoff. rewrite bindo_done. split.
  - intros (k & E & H). apply throwing_done in E. injection H as <-. eauto.
  - intros (k & E & ->). exists k. split; [now apply throwing_done|reflexivity].
Qed.
Definition indexed (n : nat) (ss : list linefn) : list linefn :=
  map (fun x => with_index (fst x) (snd x)) (List.combine (seq n (List.length ss)) ss).
Definition final t alpha (i : nat) (f g : linefn) : Prop := setCutoff t alpha (with_index i f) = Done g.
Lemma finish_done sort normalize conv t alpha fs gs r : 0 < conv -> Forall lf_canon fs ->
  (finishElement sort normalize conv t alpha fs = Done (gs, r) <->
   mapo (setCutoff t alpha) (indexed 0 (sort (map (unitf normalize conv) fs))) = Done gs /\
   r = getMaxCutoffRadius (indexed 0 (sort (map (unitf normalize conv) fs)))).
Proof.
  intros Hc C. unfold finishElement. rewrite (unit_step normalize conv fs Hc C). cbn [bindo]. unfold sortLines. cbv zeta.
  fold (indexed 0 (sort (map (unitf normalize conv) fs))). rewrite bindo_done. split.
  - intros (a & E & H). injection H as <- <-. auto.
  - intros (E & ->). eauto.
Qed.
Lemma indexed_cons n f ss : indexed n (f :: ss) = with_index n f :: indexed (S n) ss.
Proof. reflexivity. Qed.
(** Everything but the line number and the index. *)
Lemma final_list t alpha ss : forall n gs, mapo (setCutoff t alpha) (indexed n ss) = Done gs ->
  Forall2 (fun f g => lf_ec g = lf_ec f /\ lf_line g = lf_line f /\ set_cutoff t alpha (lf_kind f) = Some (lf_kind g) /\
    (is_gaussian (lf_kind f) = false -> lf_subtype g = lf_subtype f) /\
    sf_ci (sf_c (lf_sf g)) = sf_ci (sf_c (lf_sf f)) /\ sf_scaling (sf_c (lf_sf g)) = sf_scaling (sf_c (lf_sf f))) ss gs.
Proof.
  induction ss as [|f ss IH]; intros n gs H.
  - cbn in H. injection H as <-. constructor.
  - rewrite indexed_cons in H. cbn [mapo] in H. apply bindo_done in H. destruct H as (g & E & H).
    apply bindo_done in H. destruct H as (gs' & E' & H). injection H as <-. constructor; [|eauto].
    apply set_done in E. destruct E as (k & E & ->). cbn. repeat split; auto. intros Hg. unfold lf_kind in Hg.
    unfold lf_kind. cbn. now rewrite Hg.
Qed.
Lemma final_numbered t alpha ss : forall n gs, mapo (setCutoff t alpha) (indexed n ss) = Done gs ->
  forall j g, nth_error gs j = Some g -> sf_index (sf_c (lf_sf g)) = (n + j)%nat.
Proof.
  induction ss as [|f ss IH]; intros n gs H.
  - cbn in H. injection H as <-. intros [|j] g; discriminate.
  - rewrite indexed_cons in H. cbn [mapo] in H. apply bindo_done in H. destruct H as (g & E & H).
    apply bindo_done in H. destruct H as (gs' & E' & H). injection H as <-. intros [|j] g' Hj.
    + cbn in Hj. injection Hj as <-. apply set_done in E. destruct E as (k & E & ->). cbn. lia.
    + cbn in Hj. rewrite (IH _ _ E' j g' Hj). lia.
Qed.
Definition new_lf (f : linefn) : Prop := sf_c (lf_sf f) = new_common.
Lemma final_same t alpha ss : forall ss' n, map proj ss = map proj ss' -> Forall new_lf ss -> Forall new_lf ss' ->
  forall gs, mapo (setCutoff t alpha) (indexed n ss) = Done gs ->
  exists gs', mapo (setCutoff t alpha) (indexed n ss') = Done gs' /\ map lf_sf gs' = map lf_sf gs.
Proof.
  induction ss as [|f ss IH]; intros [|f' ss'] n P N N' gs H; try discriminate.
  - cbn in H. injection H as <-. exists []. auto.
  - rewrite indexed_cons in *. cbn [mapo] in *. apply bindo_done in H. destruct H as (g & E & H).
    apply bindo_done in H. destruct H as (gs1 & E1 & H). injection H as <-. cbn [map] in P. injection P as P1 P2 P3 P4.
    inversion N as [|? ? Nf Ns]; subst. inversion N' as [|? ? Nf' Ns']; subst.
    destruct (IH ss' (S n) P4 Ns Ns' gs1 E1) as (gs2 & E2 & F2).
    apply set_done in E. destruct E as (k & E & ->). unfold new_lf in *.
    eexists. split.
    + apply bindo_done. eexists. split; [apply set_done; exists k; split; [|reflexivity]|].
      * unfold lf_kind, with_index in *. cbn in *. rewrite <- P3. exact E.
      * apply bindo_done. exists gs2. split; [exact E2|reflexivity].
    + cbn. rewrite F2. do 2 f_equal. unfold with_index, set_index. cbn. now rewrite Nf, Nf'.
Qed.
Lemma radius_same ss : forall ss' n m, map proj ss = map proj ss' ->
  fold_left (fun m f => Rmax (radius (lf_kind f)) m) (indexed n ss) m = fold_left (fun m f => Rmax (radius (lf_kind f)) m) (indexed n ss') m.
Proof.
  induction ss as [|f ss IH]; intros [|f' ss'] n m P; try discriminate; auto. rewrite !indexed_cons. cbn [fold_left map] in *.
  injection P as P1 P2 P3 P4. replace (lf_kind (with_index n f')) with (lf_kind (with_index n f)) by (unfold lf_kind in *; cbn; auto). now apply IH.
Qed.

Lemma set_total t alpha k : (exists k', set_cutoff t alpha k = Some k') <-> (is_gaussian k = true -> 0 <= alpha < 1).
Proof.
  assert (F : forall fc, (exists f', set_fc t alpha fc = Some f') <-> 0 <= alpha < 1).
  { intros fc. unfold set_fc, cf_setCutoffParameter. destruct (Rlt_dec alpha 0); [split; [intros (? & H); discriminate|lra]|].
    destruct (Rge_dec alpha 1); [split; [intros (? & H); discriminate|lra]|]. split; [lra|eauto]. }
  destruct k as [p|p|p|p|p|p|p|p|p|p|p]; cbn [set_cutoff is_gaussian]; unfold set_er, set_ea;
    try (split; [discriminate|eauto]); (split; [intros (k' & H) _|intros H; match goal with |- context [set_fc t alpha ?c] => destruct (proj2 (F c) (H eq_refl)) as (f' & E) end]);
    try (rewrite E; cbn; eauto); try (destruct (set_fc _ _ _) eqn:E; [|discriminate]; exact (proj1 (F _) (ex_intro _ _ E))).
Qed.
