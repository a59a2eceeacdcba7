(** Proofs about the element set-up (C100). *)
From Coq Require Import Reals Lra Lia ZArith Ascii String Bool Arith Permutation Sorted.
From Coq Require Import List.
From Verif Require Import Base.AssocMap Model.Strings Model.Printf Model.ElementMap Model.Settings Model.SymLines Model.NetworkSetup Model.ElementSetup
  Spec.StringSpec Spec.ElementSpec Spec.EwaldSpec Spec.ElementSetupSpec
  Proofs.StringProofs Proofs.ElementMapProofs Proofs.SymLineProofs Proofs.NetworkSetupProofs Proofs.NetworkSetupMain Proofs.ElectroSetupProofs Proofs.LearningCurveProofs.
Import ListNotations.
Local Open Scope R_scope.

(** ** Registered symbols are known *)
Lemma insert_perm s l : forall r, insert_sym s l = Some r -> Permutation (s :: l) r.
Proof.
  induction l as [|e l IH]; intros r H; cbn [insert_sym] in H; [injection H as <-; reflexivity|].
  destruct (compareAtomicNumber s e) as [[]|]; [injection H as <-; reflexivity| |discriminate].
  destruct (insert_sym s l) as [r'|] eqn:E; [|discriminate]. injection H as <-.
  rewrite perm_swap. constructor. now apply IH.
Qed.
Lemma sort_perm l : forall r, sort_syms l = Some r -> Permutation l r.
Proof.
  induction l as [|e l IH]; intros r H; cbn [sort_syms] in H; [injection H as <-; reflexivity|].
  destruct (sort_syms l) as [r'|] eqn:E; [|discriminate]. rewrite (IH _ eq_refl). now apply insert_perm.
Qed.
Lemma registered_known s line ws m : getValue s (lit "elements") = Some line -> is_words line ws -> NoDup ws ->
  setupElementMap s em_init = Done m -> Forall isknown ws.
Proof.
  intros G W N H. unfold setupElementMap in H. rewrite G in H. cbn [throwing bindo] in H.
  apply bindo_done in H as ((m1 & k) & R1 & H). cbn [fst] in H. apply bindo_done in H as (zs & Z1 & H). apply done_inj in H. subst m1.
  destruct (registerElements em_init line) as [p|] eqn:E; [|discriminate]. cbn [throwing] in R1. apply done_inj in R1. subst p.
  unfold registerElements in E. rewrite split_reduce, (proj1 (is_words_iff _ _) W) in E.
  destruct (sort_syms ws) as [l|] eqn:Sl; [|discriminate]. cbn [forwardMap em_init] in E. injection E as E1 _.
  pose proof (sort_perm _ _ Sl) as P. assert (Nl : NoDup l) by (eapply Permutation_NoDup; eauto).
  destruct (register_loop_spec l 0 em_init Nl) as (H1 & _ & H3). { intros ? _ []. } { intros ? []. }
  rewrite E1 in H1, H3. cbn [forwardMap em_init List.length Nat.add] in H1.
  apply Forall_forall. intros sy I1. apply (Permutation_in _ P) in I1. apply In_nth_error in I1 as (i & I1).
  assert (Li : (i < length l)%nat) by (apply nth_error_Some; congruence).
  destruct (mapo_nth _ _ _ Z1) as (Lz & Fz). unfold em_size in Lz, Fz. rewrite H1 in Lz, Fz. rewrite seq_length in Lz.
  destruct (nth_error zs i) as [z|] eqn:Ez; [|apply nth_error_None in Ez; lia].
  destruct (Fz _ _ Ez) as (j & J & A).
  assert (nth_error (seq 0 (length l)) i = Some i).
  { rewrite (nth_error_nth' _ 0%nat) by (rewrite seq_length; lia). now rewrite seq_nth by lia. }
  assert (j = i) by congruence. subst j. unfold em_atomicNumber in A. apply bindo_done in A as (sy' & A1 & A2).
  unfold em_symbol in A1. rewrite H3 in A1. cbn [Nat.leb] in A1. rewrite Nat.sub_0_r, I1 in A1. cbn [throwing] in A1. apply done_inj in A1. subst sy'.
  exists z. apply atomicNumber_iff. destruct (atomicNumber sy); [cbn in A2; congruence | discriminate].
Qed.
Lemma known_count ws : NoDup ws -> Forall isknown ws -> (length ws <= 102)%nat.
Proof.
  intros N K. rewrite <- known_length. apply NoDup_incl_length; [exact N|]. intros sy I1. rewrite Forall_forall in K. destruct (K _ I1) as (z & Z1 & Z2).
  rewrite table_eq. eapply nth_error_In; eauto.
Qed.

(** ** The elements *)
Lemma seq_nth_error n i : (i < n)%nat -> nth_error (seq 0 n) i = Some i.
Proof. intro L. rewrite (nth_error_nth' _ 0%nat) by (rewrite seq_length; lia). now rewrite seq_nth by lia. Qed.
Lemma mapo_all {A B} (f : A -> outcome B) (g : A -> B) l : (forall x, In x l -> f x = Done (g x)) -> mapo f l = Done (map g l).
Proof.
  induction l as [|x l IH]; intro H; [reflexivity|]. cbn [mapo map]. rewrite (H x (or_introl eq_refl)). cbn [bindo].
  rewrite IH by (intros; apply H; now right). reflexivity.
Qed.
Lemma in_int_bounds v z : atoi v = Done z -> (- 2 ^ 31 <= z < 2 ^ 31)%Z.
Proof.
  unfold atoi. destruct (scan_sign (skip_space v)) as [neg t]. destruct (scan_digits t 0) as [[a b] c].
  set (y := if neg then _ else _). unfold in_int. destruct (_ && _)%bool eqn:E; [|discriminate]. intro H. apply done_inj in H. subst z.
  apply andb_true_iff in E as [E1 E2]. lia.
Qed.
Lemma to_size_eq v z n : atoi v = Done z -> (n <= 102)%nat -> to_size z = Z.of_nat n -> z = Z.of_nat n.
Proof.
  intros A L H. pose proof (in_int_bounds _ _ A). unfold to_size in H.
  destruct (Z_lt_le_dec z 0).
  - rewrite <- (Z_mod_plus_full z 1), Z.mul_1_l, Z.mod_small in H by lia. lia.
  - rewrite Z.mod_small in H by lia. exact H.
Qed.
Definition data_at (l : list str) (i : nat) : element_data :=
  let sy := nth i l [] in mkElementData i (match atomicNumber sy with Some z => z | None => 0%nat end) sy.

Section Ok.
Variable s : settings.
Variable line : str.
Variable ws : list str.
Hypothesis G : getValue s (lit "elements") = Some line.
Hypothesis W : is_words line ws.
Hypothesis N : NoDup ws.

Lemma map_done : Forall isknown ws -> exists l m, setupElementMap s em_init = Done m /\ Permutation ws l /\ StronglySorted zle l /\ NoDup l /\
  em_size m = length l /\ (forall sy i, em_index m sy = Some i <-> nth_error l i = Some sy) /\ (forall i, em_symbol m i = nth_error l i) /\
  mapo (new_element m) (seq 0 (em_size m)) = Done (map (data_at l) (seq 0 (length l))).
Proof.
  intro K. destruct (register_spec line ws W N K) as (l & m & R1 & P & So & Nl & Sz & Ix & Sy).
  assert (Ln : length l = length ws) by (symmetry; now apply Permutation_length).
  assert (At : forall i, In i (seq 0 (length l)) -> em_atomicNumber m i = Done (ed_atomicNumber (data_at l i)) /\ em_symbol m i = Some (ed_symbol (data_at l i))).
  { intros i Hi. apply in_seq in Hi. unfold em_atomicNumber. rewrite Sy.
    assert (E : nth_error l i = Some (nth i l [])) by (apply nth_error_nth'; lia). rewrite E. cbn [throwing bindo data_at ed_atomicNumber ed_symbol].
    split; [|reflexivity]. assert (I1 : In (nth i l []) ws) by (eapply Permutation_in; [symmetry; exact P | eapply nth_error_In; eauto]).
    rewrite Forall_forall in K. destruct (K _ I1) as (z & Hz). apply atomicNumber_iff in Hz. now rewrite Hz. }
  exists l, m. rewrite Sz, <- Ln.
  assert (M1 : mapo (em_atomicNumber m) (seq 0 (length l)) = Done (map (fun i => ed_atomicNumber (data_at l i)) (seq 0 (length l)))).
  { apply mapo_all. intros i Hi. now apply At. }
  split; [|split; [exact P|split; [exact So|split; [exact Nl|split; [reflexivity|split; [exact Ix|split; [exact Sy|]]]]]]].
  - unfold setupElementMap. rewrite G. cbn [throwing bindo]. rewrite R1. cbn [throwing bindo fst]. rewrite Sz, <- Ln, M1. reflexivity.
  - apply mapo_all. intros i Hi. destruct (At i Hi) as (A1 & A2). unfold new_element. rewrite A1. cbn [bindo]. rewrite A2. reflexivity.
Qed.

Lemma offset_step m v os os' : atom_energy_line m v os = Done os' ->
  exists w0 w rest e, words_of (fst v) = w0 :: w :: rest /\ em_index m w0 = Some e /\ set_at e (atof w) os = Done os'.
Proof.
  unfold atom_energy_line, element_at, number_at. intro H. apply bindo_done in H as (e & E & H). apply bindo_done in E as (w0 & W0 & E).
  apply bindo_done in H as (h & Hh & H). apply bindo_done in Hh as (w1 & W1 & Hh). apply done_inj in Hh. subst h.
  destruct (at_split _ _ _ W0 W1) as (rest & Q). exists w0, w1, rest, e. split; [exact Q|]. split; [|exact H].
  now destruct (em_index m w0); [apply done_inj in E; subst|].
Qed.

Lemma parts m es offsets : elements_from s = Done (m, es, offsets) ->
  Forall isknown ws /\ exists l number, Permutation ws l /\ StronglySorted zle l /\ NoDup l /\ es = map (data_at l) (seq 0 (length l)) /\
  (forall sy i, em_index m sy = Some i <-> nth_error l i = Some sy) /\
  getValue s (lit "number_of_elements") = Some number /\ atoi number = Done (Z.of_nat (length ws)) /\
  exists lines, lines_of s (lit "atom_energy") = Done lines /\ foldo (atom_energy_line m) lines (repeat 0 (length l)) = Done offsets.
Proof.
  unfold elements_from. intro H. apply bindo_done in H as (m1 & H1 & H). apply bindo_done in H as ((es1 & os1) & H2 & H).
  apply done_inj in H. cbn [fst snd] in H. injection H as -> -> ->. pose proof (registered_known s line ws m G W N H1) as K. split; [exact K|].
  destruct (map_done K) as (l & m' & M & P & So & Nl & Sz & Ix & Sy & Es). assert (m' = m) by congruence. subst m'.
  unfold setupElements in H2. apply bindo_done in H2 as (number & Nb & H2). apply bindo_done in H2 as (z & A & H2).
  destruct (Z.eqb_spec (to_size z) (Z.of_nat (em_size m))) as [E|]; [|discriminate]. rewrite Es in H2. cbn [bindo] in H2.
  apply bindo_done in H2 as (lines & L & H2). apply bindo_done in H2 as (os & O & H2). apply done_inj in H2. injection H2 as <- <-.
  exists l, number. split; [exact P|]. split; [exact So|]. split; [exact Nl|]. split; [reflexivity|]. split; [exact Ix|].
  split; [now destruct (getValue s (lit "number_of_elements")); [apply done_inj in Nb; subst|]|].
  assert (Ln : length l = length ws) by (symmetry; now apply Permutation_length).
  split. { rewrite <- Ln, <- Sz. rewrite A. f_equal. apply (to_size_eq number); [exact A| |exact E]. rewrite Sz, Ln. now apply known_count. }
  exists lines. split; [exact L|]. now rewrite <- Sz.
Qed.

Lemma nth_data l i e : nth_error (map (data_at l) (seq 0 (length l))) i = Some e -> (i < length l)%nat /\ e = data_at l i /\ nth_error l i = Some (ed_symbol e).
Proof.
  intro H. assert (Li : (i < length l)%nat).
  { assert (nth_error (map (data_at l) (seq 0 (length l))) i <> None) as X by congruence. apply nth_error_Some in X. now rewrite map_length, seq_length in X. }
  rewrite (map_nth_error _ _ _ (seq_nth_error _ _ Li)) in H. injection H as <-. split; [exact Li|]. split; [reflexivity|]. cbn. now apply nth_error_nth'.
Qed.
Lemma symbols_of l : map ed_symbol (map (data_at l) (seq 0 (length l))) = l.
Proof.
  rewrite map_map. cbn [data_at ed_symbol]. apply (nth_ext _ _ [] []); [now rewrite map_length, seq_length|].
  intros i Hi. rewrite map_length, seq_length in Hi. rewrite (nth_indep _ [] ((fun i => nth i l []) 0%nat)) by (now rewrite map_length, seq_length).
  rewrite (map_nth (fun i => nth i l [])). now rewrite seq_nth by exact Hi.
Qed.
Lemma elements_read m es offsets : elements_from s = Done (m, es, offsets) ->
  (exists number, getValue s (lit "number_of_elements") = Some number /\ atoi number = Done (Z.of_nat (length ws))) /\
  Permutation (map ed_symbol es) ws /\
  (forall i e, nth_error es i = Some e -> ed_index e = i /\ element_Z (ed_symbol e) (ed_atomicNumber e) /\ em_index m (ed_symbol e) = Some i) /\
  (forall i j a b, (i < j)%nat -> nth_error es i = Some a -> nth_error es j = Some b -> (ed_atomicNumber a < ed_atomicNumber b)%nat).
Proof.
  intro H. destruct (parts _ _ _ H) as (K & l & number & P & So & Nl & -> & Ix & Nb & A & _).
  assert (El : forall i e, nth_error (map (data_at l) (seq 0 (length l))) i = Some e ->
    ed_index e = i /\ element_Z (ed_symbol e) (ed_atomicNumber e) /\ em_index m (ed_symbol e) = Some i).
  { intros i e E. destruct (nth_data _ _ _ E) as (Li & -> & Ne). split; [reflexivity|]. split; [|now apply Ix].
    assert (I1 : In (ed_symbol (data_at l i)) ws) by (eapply Permutation_in; [symmetry; exact P | eapply nth_error_In; eauto]).
    rewrite Forall_forall in K. destruct (K _ I1) as (z & Hz). cbn [data_at ed_symbol ed_atomicNumber] in Hz |- *.
    pose proof (proj2 (atomicNumber_iff _ _) Hz) as Q. now rewrite Q. }
  split; [now exists number|]. split; [rewrite symbols_of; now symmetry|]. split; [exact El|].
  intros i j a b Lt Ea Eb. destruct (El _ _ Ea) as (_ & Za & _). destruct (El _ _ Eb) as (_ & Zb & _).
  destruct (nth_data _ _ _ Ea) as (_ & _ & Na). destruct (nth_data _ _ _ Eb) as (_ & _ & Nb').
  exact (sorted_nth l i j _ _ _ _ So Nl Lt Na Nb' Za Zb).
Qed.
Lemma names_about m l sy i v : (forall sy i, em_index m sy = Some i <-> nth_error l i = Some sy) -> nth_error l i = Some sy -> about_line sy v -> names m i v.
Proof. intros Ix E (rest & A). exists sy, rest. split; [now apply words_of_unique | now apply Ix]. Qed.
Lemma offsets_read m es offsets : elements_from s = Done (m, es, offsets) ->
  exists lines, lines_of s (lit "atom_energy") = Done lines /\ length offsets = length es /\
  forall i e, nth_error es i = Some e -> exists x, last_about (ed_symbol e) lines x /\
    nth_error offsets i = Some (match x with None => 0 | Some w => atof w end).
Proof.
  intro H. destruct (parts _ _ _ H) as (K & l & number & P & So & Nl & -> & Ix & Nb & A & lines & L & F).
  destruct (line_fold m (fun x => x) _ (offset_step m) _ _ _ F) as (Lo & Fo). rewrite repeat_length in Lo, Fo.
  exists lines. split; [exact L|]. split; [now rewrite map_length, seq_length|]. intros i e E. destruct (nth_data _ _ _ E) as (Li & _ & Ne).
  destruct (Fo i Li) as (x & X & Nx). exists x. rewrite Nx. split.
  - destruct x as [w|]; cbn [last_value last_about] in *.
    + destruct X as (l1 & v & l2 & sy & rest & -> & Wv & Iv & Af). exists l1, v, l2, rest. split; [reflexivity|].
      apply Ix in Iv. assert (sy = ed_symbol e) by congruence. subst sy. split; [now apply LearningCurveProofs.words_of_is|].
      intros u U B. apply (Af u U). now apply (names_about m l (ed_symbol e)).
    + intros v V B. apply (X v V). now apply (names_about m l (ed_symbol e)).
  - destruct x; [reflexivity|]. now apply nth_repeat_error.
Qed.
Lemma offsets_accepted m l lines : (forall sy i, em_index m sy = Some i <-> nth_error l i = Some sy) ->
  forall os, length os = length l ->
  ((exists r, foldo (atom_energy_line m) lines os = Done r) <->
   Forall (fun v => exists sy x rest, is_words (fst v) (sy :: x :: rest) /\ In sy l) lines).
Proof.
  intro Ix. induction lines as [|v lines IH]; intros os Lo; cbn [foldo].
  - split; [constructor | now exists os].
  - split.
    + intros (r & H). apply bindo_done in H as (o1 & H1 & H). destruct (offset_step _ _ _ _ H1) as (w0 & w & rest & e & Wv & Iv & Se).
      destruct (set_done _ _ _ _ Se) as (_ & L1 & _). constructor.
      * exists w0, w, rest. split; [now apply LearningCurveProofs.words_of_is|]. apply Ix in Iv. eapply nth_error_In; eauto.
      * apply (IH o1); [congruence | now exists r].
    + intro F. inversion F as [|? ? (sy & x & rest & Wv & Is) F']; subst. apply In_nth_error in Is as (i & Is).
      assert (Li : (i < length os)%nat) by (rewrite Lo; apply nth_error_Some; congruence).
      assert (E : exists o1, atom_energy_line m v os = Done o1 /\ length o1 = length os).
      { unfold atom_energy_line, element_at, number_at. rewrite (words_of_unique _ _ Wv). cbn [at_ nth_error throwing bindo].
        rewrite (proj2 (Ix sy i) Is). cbn [throwing bindo]. unfold set_at. destruct (Nat.ltb_spec i (length os)); [|lia].
        eexists. split; [reflexivity|]. rewrite app_length, firstn_length. cbn [length]. rewrite skipn_length. lia. }
      destruct E as (o1 & E1 & L1). rewrite E1. cbn [bindo]. apply (IH o1); [congruence | exact F'].
Qed.
Lemma accepted number z lines : getValue s (lit "number_of_elements") = Some number -> atoi number = Done z -> lines_of s (lit "atom_energy") = Done lines ->
  ((exists r, elements_from s = Done r) <->
   (forall sy, In sy ws -> exists z, element_Z sy z) /\ z = Z.of_nat (length ws) /\
   Forall (fun v => exists sy x rest, is_words (fst v) (sy :: x :: rest) /\ In sy ws) lines).
Proof.
  intros Nb A L. split.
  - intros (((m & es) & os) & H). destruct (parts _ _ _ H) as (K & l & number' & P & So & Nl & _ & Ix & Nb' & A' & lines' & L' & F).
    rewrite Forall_forall in K. split; [exact K|]. split; [congruence|]. assert (lines' = lines) by congruence. subst lines'.
    assert (Fl : Forall (fun v => exists sy x rest, is_words (fst v) (sy :: x :: rest) /\ In sy l) lines).
    { apply (offsets_accepted m l lines Ix (repeat 0 (length l))); [apply repeat_length | now exists os]. }
    rewrite Forall_forall in Fl |- *. intros v V. destruct (Fl v V) as (sy & x & rest & Wv & I1). exists sy, x, rest. split; [exact Wv|].
    eapply Permutation_in; [symmetry; exact P | exact I1].
  - intros (K & -> & F). destruct (map_done (isknown_all _ K)) as (l & m & M & P & So & Nl & Sz & Ix & Sy & Es).
    assert (Ln : length l = length ws) by (symmetry; now apply Permutation_length).
    assert (C : (length ws <= 102)%nat) by (apply known_count; [exact N | now apply isknown_all]).
    destruct (proj2 (offsets_accepted m l lines Ix (repeat 0 (length l)) (repeat_length _ _))) as (os & O).
    { eapply Forall_impl; [|exact F]. intros v (sy & x & rest & Wv & I1). exists sy, x, rest. split; [exact Wv|]. eapply Permutation_in; eauto. }
    exists (m, map (data_at l) (seq 0 (length l)), os). unfold elements_from. rewrite M. cbn [bindo]. unfold setupElements. rewrite Nb. cbn [throwing bindo].
    rewrite A. cbn [bindo]. unfold to_size. rewrite Z.mod_small by lia. rewrite Sz, Ln, Z.eqb_refl. rewrite <- Ln, <- Sz, Es. cbn [bindo]. rewrite L. cbn [bindo].
    rewrite Sz, O. reflexivity.
Qed.
End Ok.

(** ** Cases *)
Definition water_text : str := join [ch_lf] (map lit
  ["number_of_elements 3"; "elements O Cu H"; "atom_energy H -0.5"; "atom_energy O 4"; "atom_energy H 2"]%string).
Definition water_settings : settings := fst (loadFile settings_init water_text).
Lemma ex_water : loadFile settings_init water_text = (water_settings, 0%nat) /\
  getValue water_settings (lit "elements") = Some (lit "O Cu H") /\ is_words (lit "O Cu H") [lit "O"; lit "Cu"; lit "H"] /\ NoDup [lit "O"; lit "Cu"; lit "H"] /\
  exists m, elements_from water_settings =
    Done (m, [mkElementData 0 1 (lit "H"); mkElementData 1 8 (lit "O"); mkElementData 2 29 (lit "Cu")], [atof (lit "2"); atof (lit "4"); 0]).
Proof.
  split; [vm_compute; reflexivity|]. split; [vm_compute; reflexivity|]. split; [apply is_words_iff; reflexivity|].
  split; [apply nodupb_spec; reflexivity|].
  unfold elements_from.
  destruct (setupElementMap water_settings em_init) as [m| |] eqn:M; [|vm_compute in M; discriminate|vm_compute in M; discriminate].
  exists m. cbn [bindo]. vm_compute in M. injection M as <-.
  unfold setupElements.
  replace (getValue water_settings (lit "number_of_elements")) with (Some (lit "3")) by (vm_compute; reflexivity). cbn [throwing bindo].
  replace (atoi (lit "3")) with (Done 3%Z) by (vm_compute; reflexivity). cbn [bindo].
  match goal with |- context [em_size ?m] => set (mm := m) end.
  replace (em_size mm) with 3%nat by (vm_compute; reflexivity).
  replace (Z.eqb (to_size 3) (Z.of_nat 3)) with true by (vm_compute; reflexivity).
  replace (mapo (new_element mm) (seq 0 3)) with (Done [mkElementData 0 1 (lit "H"); mkElementData 1 8 (lit "O"); mkElementData 2 29 (lit "Cu")]) by (vm_compute; reflexivity).
  cbn [bindo].
  replace (lines_of water_settings (lit "atom_energy")) with (Done [(lit "H -0.5", 2%nat); (lit "O 4", 3%nat); (lit "H 2", 4%nat)]) by (vm_compute; reflexivity).
  cbn [bindo foldo]. unfold atom_energy_line at 1. cbn [fst].
  replace (words_of (lit "H -0.5")) with [lit "H"; lit "-0.5"] by (vm_compute; reflexivity).
  unfold element_at, number_at. cbn [at_ nth_error throwing bindo]. replace (em_index mm (lit "H")) with (Some 0%nat) by (vm_compute; reflexivity). cbn [throwing bindo set_at length repeat Nat.ltb Nat.leb firstn skipn app].
  unfold atom_energy_line at 1. cbn [fst].
  replace (words_of (lit "O 4")) with [lit "O"; lit "4"] by (vm_compute; reflexivity).
  unfold element_at, number_at. cbn [at_ nth_error throwing bindo]. replace (em_index mm (lit "O")) with (Some 1%nat) by (vm_compute; reflexivity). cbn [throwing bindo set_at length repeat Nat.ltb Nat.leb firstn skipn app].
  unfold atom_energy_line at 1. cbn [fst].
  replace (words_of (lit "H 2")) with [lit "H"; lit "2"] by (vm_compute; reflexivity).
  unfold element_at, number_at. cbn [at_ nth_error throwing bindo]. replace (em_index mm (lit "H")) with (Some 0%nat) by (vm_compute; reflexivity). cbn [throwing bindo set_at length repeat Nat.ltb Nat.leb firstn skipn app].
  reflexivity.
Qed.
(** A symbol given twice: two elements H, none for O. *)
Definition twice_text : str := join [ch_lf] (map lit ["number_of_elements 2"; "elements H H O"]%string).
Lemma twice : exists st m es offsets, loadFile settings_init twice_text = (st, 0%nat) /\ elements_from st = Done (m, es, offsets) /\
  map ed_symbol es = [lit "H"; lit "H"] /\ em_index m (lit "O") = Some 2%nat /\ length es = 2%nat.
Proof.
  set (st := fst (loadFile settings_init twice_text)). exists st. eexists _, _, _. split; [vm_compute; reflexivity|].
  split; [vm_compute; reflexivity|]. vm_compute. auto.
Qed.
