(** The scaling file. *)
From Coq Require Import Reals Lra ZArith Ascii String Bool Arith Lia.
From Coq Require Import List.
From Verif Require Import Base.SumR Base.AssocMap Model.Strings Model.Printf Model.Settings Model.Scaling Model.SymLines Model.StructureFile
  Model.NeuralNetwork Model.DataFiles Spec.StringSpec Spec.ScalingSpec Spec.PrintfSpec Spec.DataFilesSpec
  Proofs.StringProofs Proofs.PrintfProofs Proofs.ScalingProofs Proofs.StructureFileText Proofs.SymLineProofs Proofs.NetworkSetupProofs Proofs.DataFilesText.
Import ListNotations.
Local Open Scope R_scope.

(** ** Lists *)
Lemma number_list_nth {A} (l : list A) : List.length (number_list l) = List.length l /\
  forall i, nth_error (number_list l) i = match nth_error l i with Some x => Some (i, x) | None => None end.
Proof.
  unfold number_list.
  assert (G : forall k i, nth_error (List.combine (seq k (List.length l)) l) i = match nth_error l i with Some x => Some ((k + i)%nat, x) | None => None end).
  { induction l as [|x l IH]; intros k [|i]; cbn; auto. now rewrite Nat.add_0_r. rewrite IH. now rewrite Nat.add_succ_r. }
  split; [rewrite combine_length, seq_length; lia|]. intros i. apply G.
Qed.
Lemma mapo_rel {A B} (f : A -> outcome B) (Q : A -> B -> Prop) l : (forall x, In x l -> exists y, f x = Done y /\ Q x y) ->
  exists l', mapo f l = Done l' /\ Forall2 Q l l'.
Proof.
  induction l as [|x l IH]; intros H; [exists []; split; auto|].
  destruct (H x (or_introl eq_refl)) as (y & E & HQ). destruct IH as (l' & E' & F); [intros; apply H; now right|].
  exists (y :: l'). cbn. rewrite E. cbn. rewrite E'. split; auto.
Qed.
Lemma F2_nth {A B} (Q : A -> B -> Prop) l l' : Forall2 Q l l' -> List.length l' = List.length l /\
  (forall i x, nth_error l i = Some x -> exists y, nth_error l' i = Some y /\ Q x y) /\
  (forall i y, nth_error l' i = Some y -> exists x, nth_error l i = Some x /\ Q x y).
Proof.
  induction 1 as [|x y l l' HQ F (A1 & A2 & A3)]; [repeat split; intros [|i] ?; cbn; discriminate|].
  split; [cbn; lia|]. split; intros [|i] z; cbn; intros E; try (injection E as <-; eauto); eauto.
Qed.
Lemma F2_of_nth {A B} (Q : A -> B -> Prop) l : forall l', List.length l' = List.length l ->
  (forall i x y, nth_error l i = Some x -> nth_error l' i = Some y -> Q x y) -> Forall2 Q l l'.
Proof.
  induction l as [|x l IH]; intros [|y l'] L H; cbn in L; try discriminate; constructor; [now apply (H 0%nat)|].
  apply IH; [lia|]. intros i a b. apply (H (S i)).
Qed.

(** ** The text of one line *)
Definition good_line (e i : nat) (r : sf_row) (l : str) : Prop := one_line l /\ data_line l /\
  words_of l = [print_d (e + 1); print_d (i + 1); print_E 16 (r_min r); print_E 16 (r_max r); print_E 16 (r_mean r); print_E 16 (r_sigma r)].
Lemma padded_first w w0 rest : (0 < List.length w0)%nat -> plain w0 -> (forall c s, w0 = c :: s -> c <> ch_hash) -> data_line (pad w0 w ch_space false ++ rest).
Proof.
  intros L P H. destruct (pad_left w0 w) as (b & A & B & _). rewrite B. split.
  - destruct b; [destruct w0; [cbn in L; lia|discriminate]|discriminate].
  - intros (r & E). destruct b as [|c b].
    + destruct w0 as [|c s]; [cbn in L; lia|]. cbn in E. injection E as E _. now apply (H c s).
    + cbn in E. injection E as E _. inversion A; subst. discriminate.
Qed.
Lemma digit_not_hash d : (0 <= d < 10)%Z -> digit d <> ch_hash.
Proof. intros D E. assert (N := nat_of_digit d D). rewrite E in N. cbn in N. lia. Qed.
Lemma print_d_first n c s : print_d n = c :: s -> c <> ch_hash.
Proof.
  intros E. destruct (digits_of n) as (k & E' & _). rewrite E' in E.
  destruct (decimals_digits k (Z.of_nat n) c) as (d & D & ->); [rewrite E; now left|]. now apply digit_not_hash.
Qed.
Lemma scaling_line_good e i r : fits (e + 1) -> fits (i + 1) -> exists l, scaling_line e i r = Done (l ++ [ch_lf]) /\ good_line e i r l.
Proof.
  intros Fe Fi. unfold scaling_line. set (nums := [r_min r; r_max r; r_mean r; r_sigma r]).
  set (l := fmt_d 10 (e + 1) ++ lit " " ++ fmt_d 10 (i + 1) ++ numbers nums).
  exists l. destruct (numbers_fields nums) as (ts & Et & Ft & Lt).
  destruct (fmt_d_field 10 (e + 1)) as [_ Le]; [lia|]. destruct (fmt_d_field 10 (i + 1)) as [Hi Li]; [lia|].
  specialize (Le Fe). specialize (Li Fi).
  assert (Ll : (List.length l < 1023)%nat).
  { unfold l. rewrite !app_length, Lt. change (List.length (lit " ")) with 1%nat. cbn [nums List.length]. lia. }
  split; [rewrite line_short by auto; reflexivity|].
  destruct (print_d_plain (e + 1)) as (Pe & Ne & _). destruct (pad_left (print_d (e + 1)) 10) as (b & A & B & _).
  assert (El : l = b ++ print_d (e + 1) ++ List.concat ((lit " " ++ fmt_d 10 (i + 1)) :: ts)).
  { unfold l. unfold fmt_d at 1. rewrite B, Et. cbn [List.concat]. now rewrite <- !app_assoc. }
  destruct (padded_fields b (print_d (e + 1)) ((lit " " ++ fmt_d 10 (i + 1)) :: ts) (print_d (i + 1) :: map (print_E 16) nums)) as [W N]; auto.
  split; [|split].
  - unfold one_line. rewrite El. exact N.
  - unfold l. apply padded_first; auto. destruct (print_d (e + 1)); [congruence|cbn; lia]. intros c s. apply print_d_first.
  - rewrite El, W. reflexivity.
Qed.

(** ** Writing *)
Lemma header_of_scaling : exists ls, scaling_header = Done (map (fun l => l ++ [ch_lf]) ls) /\ (forall l, In l ls -> one_line l /\ comment_line l).
Proof.
  destruct scaling_header as [h| |] eqn:E; [|vm_compute in E; discriminate|vm_compute in E; discriminate].
  assert (C : forall t, In t h -> comment_text ch_hash t).
  { unfold scaling_header in E. eapply header_comments; [| | |exact E]; [discriminate| |exists 10%nat; split; [now left|lia]].
    intros t Ht I. assert (G : forallb (fun t => forallb (fun c => negb (ch_eqb c ch_lf)) t)
      ([lit "Symmetry function scaling data."] ++ [lit "e_index"; lit "sf_index"; lit "sf_min"; lit "sf_max"; lit "sf_mean"; lit "sf_sigma"] ++
       [lit "Element index."; lit "Symmetry function index."; lit "Symmetry function minimum."; lit "Symmetry function maximum."; lit "Symmetry function mean."; lit "Symmetry function sigma."]) = true) by (vm_compute; reflexivity).
    rewrite forallb_forall in G. apply G in Ht. rewrite forallb_forall in Ht. apply Ht in I. vm_compute in I. discriminate. }
  clear E. assert (exists ls, h = map (fun l => l ++ [ch_lf]) ls /\ (forall l, In l ls -> one_line l /\ comment_line l)) as (ls & -> & H).
  { induction h as [|t h IH]; [exists []; split; auto; intros l []|]. destruct (C t (or_introl eq_refl)) as (r & -> & N).
    destruct IH as (ls & -> & H); [intros; apply C; now right|]. exists ((ch_hash :: r) :: ls). split; auto.
    intros l [<-|I]; auto. split; auto. exists r. reflexivity. }
  exists ls. split; auto.
Qed.
Definition good_lines (rows : list (list sf_row)) (LS : list (list str)) : Prop := List.length LS = List.length rows /\
  forall e rs, nth_error rows e = Some rs -> exists ls, nth_error LS e = Some ls /\ List.length ls = List.length rs /\
    forall i r, nth_error rs i = Some r -> exists l, nth_error ls i = Some l /\ good_line e i r l.
Lemma in_number {A} (l : list A) p : In p (number_list l) -> nth_error l (fst p) = Some (snd p).
Proof.
  intros I. apply In_nth_error in I as (i & E). destruct (number_list_nth l) as [_ H]. rewrite H in E. destruct (nth_error l i) eqn:E'; [|discriminate].
  injection E as <-. exact E'.
Qed.
Lemma concat_lines (ls : list str) (ts : list str) : Forall2 (fun l t => t = l ++ [ch_lf]) ls ts -> List.concat ts = file_of ls.
Proof. unfold file_of. induction 1 as [|l t ls ts -> F IH]; auto. cbn. now rewrite IH. Qed.
Lemma F2_swap {A B} (Q : A -> B -> Prop) l l' : Forall2 Q l l' -> Forall2 (fun b a => Q a b) l' l. Proof. induction 1; constructor; auto. Qed.
Lemma F2_choose {A B C} (Q : A -> B -> C -> Prop) l l' : Forall2 (fun a b => exists c, Q a b c) l l' ->
  exists cs, List.length cs = List.length l /\ forall i a b, nth_error l i = Some a -> nth_error l' i = Some b -> exists c, nth_error cs i = Some c /\ Q a b c.
Proof.
  induction 1 as [|a b l l' (c & HQ) F (cs & L & IH)]; [exists []; split; auto; intros [|i] ? ?; cbn; discriminate|].
  exists (c :: cs). split; [cbn; lia|]. intros [|i] x y; cbn; [|apply IH]. intros E E'; injection E as <-; injection E' as <-. eauto.
Qed.
Lemma element_lines e rs : fits (e + 1) -> fits (List.length rs) -> exists ls ts,
  mapo (fun r => scaling_line e (fst r) (snd r)) (number_list rs) = Done ts /\ List.concat ts = file_of ls /\
  List.length ls = List.length rs /\ forall i r, nth_error rs i = Some r -> exists l, nth_error ls i = Some l /\ good_line e i r l.
Proof.
  intros Fe Fl.
  destruct (mapo_rel (fun r => scaling_line e (fst r) (snd r)) (fun p t => exists l, t = l ++ [ch_lf] /\ good_line e (fst p) (snd p) l) (number_list rs)) as (ts & E & F).
  { intros p I. apply in_number in I. assert (L : (fst p < List.length rs)%nat) by (apply nth_error_Some; congruence).
    destruct (scaling_line_good e (fst p) (snd p)) as (l & E & G); auto. { unfold fits in *. lia. } eauto. }
  destruct (number_list_nth rs) as [Ln Nn]. destruct (F2_nth _ _ _ F) as (Lt & H1 & _).
  destruct (F2_choose _ _ _ F) as (ls & Ll & H).
  exists ls, ts. split; auto. split; [|split].
  - apply concat_lines. apply F2_of_nth; [rewrite Ll; exact Lt|]. intros i l t El Et.
    assert (exists p, nth_error (number_list rs) i = Some p) as (p & Ep).
    { destruct (nth_error (number_list rs) i) eqn:Ep; eauto. apply nth_error_None in Ep. assert (i < List.length ls)%nat by (apply nth_error_Some; congruence). lia. }
    destruct (H i p t Ep Et) as (l' & El' & -> & _). congruence.
  - rewrite <- Ln; exact Ll.
  - intros i r Er. assert (Ep : nth_error (number_list rs) i = Some (i, r)) by (rewrite Nn, Er; reflexivity).
    destruct (H1 i _ Ep) as (t & Et & _). destruct (H i _ t Ep Et) as (l & El & _ & G). eauto.
Qed.
Lemma concat_file (LS : list (list str)) : List.concat (map file_of LS) = file_of (List.concat LS).
Proof. induction LS as [|ls LS IH]; auto. cbn [map List.concat]. now rewrite file_of_app, IH. Qed.
Lemma write_lines_good rows : countable rows -> exists hl LS, (forall l, In l hl -> one_line l /\ comment_line l) /\
  writeScaling rows = Done (file_of (hl ++ List.concat LS)) /\ good_lines rows LS.
Proof.
  intros [Hc Hr]. destruct header_of_scaling as (hl & Eh & Hh).
  destruct (mapo_rel (fun e => mapo (fun r => scaling_line (fst e) (fst r) (snd r)) (number_list (snd e)))
     (fun p ts => exists ls, List.concat ts = file_of ls /\ List.length ls = List.length (snd p) /\
        forall i r, nth_error (snd p) i = Some r -> exists l, nth_error ls i = Some l /\ good_line (fst p) i r l) (number_list rows)) as (TS & E & F).
  { intros p I. apply in_number in I. assert (L : (fst p < List.length rows)%nat) by (apply nth_error_Some; congruence).
    destruct (element_lines (fst p) (snd p)) as (ls & ts & E1 & E2 & E3 & E4).
    - unfold fits. lia.
    - unfold fits. apply Hr. eapply nth_error_In; eauto.
    - eauto 8. }
  destruct (number_list_nth rows) as [Ln Nn]. destruct (F2_nth _ _ _ F) as (Lt & H1 & H2). destruct (F2_choose _ _ _ F) as (LS & Ll & H).
  exists hl, LS. split; auto. split.
  - unfold writeScaling. rewrite Eh. cbn [bindo]. rewrite E. cbn [bindo]. f_equal. rewrite file_of_app. f_equal.
    rewrite <- concat_file. f_equal.
    assert (F2 : Forall2 (fun ts ls => List.concat ts = file_of ls) TS LS).
    { apply F2_of_nth; [rewrite Ll; symmetry; exact Lt|]. intros i ts ls Et El. destruct (H2 i ts Et) as (p & Ep & _). destruct (H i p ts Ep Et) as (ls' & El' & E' & _). congruence. }
    clear - F2. induction F2 as [|ts ls TS LS E F2 IH]; auto. cbn. now rewrite E, IH.
  - split; [lia|]. intros e rs Ers. assert (Ep : nth_error (number_list rows) e = Some (e, rs)) by (rewrite Nn, Ers; reflexivity).
    destruct (H1 e _ Ep) as (ts & Et & _). destruct (H e _ ts Ep Et) as (ls & El & _ & A & B). eauto.
Qed.

(** ** Reading *)
Lemma keep_lines ls : forall acc, (forall l, In l ls -> l <> []) ->
  foldo keep_line ls acc = Done (acc ++ filter (is_data ch_hash) ls).
Proof.
  induction ls as [|l ls IH]; intros acc H; cbn [foldo filter]; [now rewrite app_nil_r|].
  assert (Hl := H l (or_introl eq_refl)). destruct l as [|c l]; [congruence|].
  unfold keep_line at 1. cbn [nth_error throwing bindo is_data]. rewrite IH by (intros; apply H; now right).
  destruct (ch_eqb c ch_hash); cbn [negb]; auto. now rewrite <- app_assoc.
Qed.
Lemma keep_lines_inv ls : forall acc r, foldo keep_line ls acc = Done r -> (forall l, In l ls -> l <> []) /\ r = acc ++ filter (is_data ch_hash) ls.
Proof.
  induction ls as [|l ls IH]; intros acc r; cbn [foldo filter].
  - intros E. apply done_inj in E. subst. rewrite app_nil_r. split; auto.
  - destruct l as [|c l]; [discriminate|]. unfold keep_line at 1. cbn [nth_error throwing bindo is_data]. intros E. apply IH in E as [A ->].
    split. { intros x [<-|I]; [discriminate|auto]. } destruct (ch_eqb c ch_hash); cbn [negb]; auto. now rewrite <- app_assoc.
Qed.
Lemma is_data_spec l : is_data ch_hash l = true <-> data_line l.
Proof.
  unfold data_line, comment_line. destruct l as [|c l]; cbn [is_data]; [split; [discriminate|intros [A _]; congruence]|].
  rewrite negb_true_iff. split.
  - intros E. split; [discriminate|]. intros (r & E'). injection E' as -> _. vm_compute in E. discriminate.
  - intros [_ A]. destruct (ch_eqb c ch_hash) eqn:E; auto. apply ch_eqb_true in E. subst. exfalso. apply A. exists l. reflexivity.
Qed.
Lemma filter_selected ls : selected data_line ls (filter (is_data ch_hash) ls).
Proof.
  induction ls as [|l ls IH]; cbn; [constructor|]. destruct (is_data ch_hash l) eqn:E.
  - constructor; auto. now apply is_data_spec.
  - constructor 3; auto. intros H. apply is_data_spec in H. congruence.
Qed.
Lemma selected_filter ls ds : selected data_line ls ds -> ds = filter (is_data ch_hash) ls.
Proof.
  induction 1 as [|l ls ds H S IH|l ls ds H S IH]; cbn; auto.
  - apply is_data_spec in H. rewrite H. now f_equal.
  - destruct (is_data ch_hash l) eqn:E; auto. apply is_data_spec in E. contradiction.
Qed.

(** What a line gives. *)
Definition loaded (t : scaling_type) (lo hi : R) (r : sf_row) (sc : scaling) : Prop :=
  scalingType sc = t /\ s_Smin sc = lo /\ s_Smax sc = hi /\
  s_Gmin sc = atof (print_E 16 (r_min r)) /\ s_Gmax sc = atof (print_E 16 (r_max r)) /\
  s_Gmean sc = atof (print_E 16 (r_mean r)) /\ s_Gsigma sc = atof (print_E 16 (r_sigma r)) /\
  forall x, scale sc x = documented_scale t (s_Gmin sc) (s_Gmax sc) (s_Gmean sc) (s_Gsigma sc) lo hi x.
Lemma set_line t lo hi f e i r l : fits (e + 1) -> good_line e i r l -> id_ec f = e -> id_index f = i ->
  exists sc, setScalingLine f t l lo hi = Done sc /\ loaded t lo hi r sc.
Proof.
  intros Fe (_ & _ & W) He Hi. unfold setScalingLine. rewrite W. cbn [at_ throwing nth_error bindo]. rewrite atoi_print by auto. cbn [bindo].
  rewrite Nat2Z.id, He, Nat.eqb_refl. cbn [bindo negb andb]. rewrite Hi. unfold SymLines.number_at, at_. cbn [nth_error throwing bindo].
  destruct (setScalingType e i (id_sigma f) t _ lo hi) as [sc|] eqn:E.
  2:{ unfold setScalingType in E. cbn [l_ec] in E. rewrite Nat.eqb_refl in E. discriminate E. }
  exists sc. split; auto.
  assert (D := fun x => scale_documented _ _ _ _ _ _ _ _ x E). cbn [l_min l_max l_mean l_sigma] in D.
  unfold setScalingType in E. cbn [l_ec l_index l_min l_max l_mean l_sigma] in E. rewrite Nat.eqb_refl in E. cbn [negb andb] in E. injection E as <-.
  unfold loaded. cbn [scalingType s_Smin s_Smax s_Gmin s_Gmax s_Gmean s_Gsigma]. repeat (split; [reflexivity|]). exact D.
Qed.

Lemma set_element t lo hi e rs ls rest fs : fits (e + 1) -> List.length fs = List.length rs -> List.length ls = List.length rs ->
  (forall i r, nth_error rs i = Some r -> exists l, nth_error ls i = Some l /\ good_line e i r l) ->
  (forall i f, nth_error fs i = Some f -> id_ec f = e /\ id_index f = i) ->
  exists sc, setScaling t fs (ls ++ rest) lo hi = Done sc /\ List.length sc = List.length rs /\
    forall i r, nth_error rs i = Some r -> exists s, nth_error sc i = Some s /\ loaded t lo hi r s.
Proof.
  intros Fe Lf Ll H Hf.
  destruct (mapo_rel (fun p => l <- throwing (nth_error (ls ++ rest) (fst p)); setScalingLine (snd p) t l lo hi)
    (fun p s => exists r, nth_error rs (fst p) = Some r /\ loaded t lo hi r s) (number_list fs)) as (sc & E & F).
  { intros p I. apply in_number in I. assert (L : (fst p < List.length fs)%nat) by (apply nth_error_Some; congruence).
    destruct (nth_error rs (fst p)) as [r|] eqn:Er; [|apply nth_error_None in Er; lia].
    destruct (H _ _ Er) as (l & El & G). destruct (Hf _ _ I) as [A B].
    destruct (set_line t lo hi (snd p) e (fst p) r l) as (s & Es & Hs); auto.
    exists s. split; [|eauto]. rewrite nth_error_app1 by lia. rewrite El. exact Es. }
  destruct (number_list_nth fs) as [Ln Nn]. destruct (F2_nth _ _ _ F) as (Lt & H1 & _).
  exists sc. split; [exact E|]. split; [lia|]. intros i r Er.
  destruct (nth_error fs i) as [f|] eqn:Ef; [|apply nth_error_None in Ef; assert (i < List.length rs)%nat by (apply nth_error_Some; congruence); lia].
  assert (Ep : nth_error (number_list fs) i = Some (i, f)) by (rewrite Nn, Ef; reflexivity).
  destruct (H1 i _ Ep) as (s & Es & r' & Er' & Hs). cbn [fst] in Er'. rewrite Er in Er'. injection Er' as <-. eauto.
Qed.
Lemma set_elements t lo hi elements : forall k rows LS acc,
  (Z.of_nat (k + List.length rows) < 2 ^ 31)%Z -> Forall2 (fun fs (rs : list sf_row) => List.length fs = List.length rs) elements rows ->
  List.length LS = List.length rows ->
  (forall e rs, nth_error rows e = Some rs -> exists ls, nth_error LS e = Some ls /\ List.length ls = List.length rs /\
     forall i r, nth_error rs i = Some r -> exists l, nth_error ls i = Some l /\ good_line (k + e) i r l) ->
  (forall e i fs f, nth_error elements e = Some fs -> nth_error fs i = Some f -> id_ec f = (k + e)%nat /\ id_index f = i) ->
  exists scs, foldo (fun fs st =>
    sc <- setScaling t fs (fst st) lo hi;
    if Nat.leb (List.length fs) (List.length (fst st)) then Done (skipn (List.length fs) (fst st), snd st ++ [sc]) else Undefined)
    elements (List.concat LS, acc) = Done ([], acc ++ scs) /\ List.length scs = List.length rows /\
    forall e i r, entry rows e i r -> exists s, entry scs e i s /\ loaded t lo hi r s.
Proof.
  induction elements as [|fs elements IH]; intros k rows LS acc Hk F L H Hn.
  - inversion F; subst. destruct LS; [|discriminate]. exists []. cbn. rewrite app_nil_r. split; auto. split; auto. intros e i r (x & E & _). destruct e; discriminate.
  - inversion F as [|? rs ? rows' Lf F']; subst. destruct LS as [|ls LS]; [discriminate|].
    destruct (H 0%nat rs eq_refl) as (ls' & E' & Ll & Hls). cbn in E'. injection E' as <-.
    rewrite Nat.add_0_r in Hls. cbn [List.length] in Hk.
    destruct (set_element t lo hi k rs ls (List.concat LS) fs) as (sc & Esc & Lsc & Hsc); auto.
    { unfold fits. lia. }
    { intros i f E. destruct (Hn 0%nat i fs f eq_refl E) as [A B]. rewrite Nat.add_0_r in A. auto. }
    destruct (IH (S k) rows' LS (acc ++ [sc])) as (scs & E & Ls & Hs); auto.
    { rewrite Nat.add_succ_l, <- Nat.add_succ_r. exact Hk. }
    { intros e rs' Er. destruct (H (S e) rs' Er) as (ls' & A & B & C). exists ls'. split; auto. split; auto.
      intros i r Ei. destruct (C i r Ei) as (l & El & G). exists l. split; auto. now rewrite Nat.add_succ_l, <- Nat.add_succ_r. }
    { intros e i fs' f E1 E2. destruct (Hn (S e) i fs' f E1 E2) as [A B]. split; auto. lia. }
    exists (sc :: scs). split; [|split; [cbn; lia|]].
    + cbn [foldo List.concat fst snd]. rewrite Esc. cbn [bindo].
      destruct (Nat.leb_spec (List.length fs) (List.length (ls ++ List.concat LS))) as [_|N]; [|rewrite app_length in N; lia]. cbn [bindo].
      rewrite skipn_app, skipn_all2 by lia. replace (List.length fs - List.length ls)%nat with 0%nat by lia. cbn [skipn app]. rewrite E.
      now rewrite <- app_assoc.
    + intros [|e] i r (x & Ex & Ei); cbn in Ex.
      * injection Ex as <-. destruct (Hsc i r Ei) as (s & Es & G). exists s. split; auto. exists sc. auto.
      * destruct (Hs e i r (ex_intro _ x (conj Ex Ei))) as (s & (y & Ey & Es) & G). exists s. split; auto. exists y. auto.
Qed.

(** ** Settings *)
Definition keyword_ok (k : string) : Prop := exists ks, mget str_eqb (lit k) knownKeywords = Some ks.
Lemma exists_key_spec s k : keyword_ok k -> (exists_key s k = Done true /\ has s k) \/ (exists_key s k = Done false /\ ~ has s k).
Proof.
  intros (ks & E). unfold exists_key, has, keywordExists. rewrite E.
  destruct (false || hasUniqueKeyword ks)%bool; [destruct (c_has (lit k) (s_contents s))|destruct (existsb _ ks)]; cbn; [left|right|left|right]; split; auto; discriminate.
Qed.
Lemma keys_ok : keyword_ok "scale_symmetry_functions" /\ keyword_ok "center_symmetry_functions" /\ keyword_ok "scale_symmetry_functions_sigma" /\
  keyword_ok "scale_min_short" /\ keyword_ok "scale_max_short".
Proof. repeat split; eexists; vm_compute; reflexivity. Qed.
Lemma value_or_spec s k d v : keyword_ok k -> number_or s k d v -> value_or s k d = Done v.
Proof.
  intros K H. unfold value_or. destruct (exists_key_spec s k K) as [[-> A]|[-> A]]; cbn [bindo].
  - destruct H as [(_ & w & -> & ->)|[N _]]; [reflexivity|contradiction].
  - destruct H as [(N & _)|[_ ->]]; [contradiction|reflexivity].
Qed.
Lemma value_or_inv s k d v : keyword_ok k -> value_or s k d = Done v -> number_or s k d v.
Proof.
  intros K H. unfold value_or in H. destruct (exists_key_spec s k K) as [[E A]|[E A]]; rewrite E in H; cbn [bindo] in H.
  - left. split; auto. destruct (getValue s (lit k)) as [w|]; [|discriminate]. cbn in H. apply done_inj in H. eauto.
  - right. apply done_inj in H. auto.
Qed.
Lemma type_spec s : exists t, scaling_type_of s = Done t /\
  match t with
  | ST_SCALE => has s "scale_symmetry_functions" /\ ~ has s "center_symmetry_functions"
  | ST_CENTER => ~ has s "scale_symmetry_functions" /\ has s "center_symmetry_functions"
  | ST_SCALECENTER => has s "scale_symmetry_functions" /\ has s "center_symmetry_functions"
  | ST_SCALESIGMA => ~ has s "scale_symmetry_functions" /\ ~ has s "center_symmetry_functions" /\ has s "scale_symmetry_functions_sigma"
  | ST_NONE => ~ has s "scale_symmetry_functions" /\ ~ has s "center_symmetry_functions" /\ ~ has s "scale_symmetry_functions_sigma"
  end.
Proof.
  destruct keys_ok as (K1 & K2 & K3 & _). unfold scaling_type_of.
  destruct (exists_key_spec s _ K1) as [[-> A]|[-> A]], (exists_key_spec s _ K2) as [[-> B]|[-> B]], (exists_key_spec s _ K3) as [[-> C]|[-> C]];
    cbn [bindo andb negb]; eexists; (split; [reflexivity|]); cbn; auto.
Qed.
Lemma settings_spec s t lo hi : requested s t lo hi -> scaling_type_of s = Done t /\ target_range s t = Done (lo, hi).
Proof.
  intros [H Hr]. destruct keys_ok as (_ & _ & _ & K4 & K5). destruct (type_spec s) as (t' & E & H'). split.
  - rewrite E. f_equal. destruct t, t'; auto; tauto.
  - destruct t; cbn [target_range]; try (destruct Hr as [-> ->]; reflexivity);
      destruct Hr as [R1 R2]; rewrite (value_or_spec _ _ _ _ K4 R1), (value_or_spec _ _ _ _ K5 R2); reflexivity.
Qed.
Lemma settings_inv s t rg : scaling_type_of s = Done t -> target_range s t = Done rg -> requested s t (fst rg) (snd rg).
Proof.
  intros E Er. destruct keys_ok as (_ & _ & _ & K4 & K5). destruct (type_spec s) as (t' & E' & H'). rewrite E in E'. apply done_inj in E'. subst t'.
  split; auto. destruct t; cbn [target_range] in Er; try (apply done_inj in Er; subst rg; auto);
    (destruct (value_or s "scale_min_short" 0) as [lo| |] eqn:E1; cbn [bindo] in Er; try discriminate;
     destruct (value_or s "scale_max_short" 1) as [hi| |] eqn:E2; cbn [bindo] in Er; try discriminate; apply done_inj in Er; subst rg; cbn [fst snd];
     split; apply value_or_inv; auto).
Qed.

(** ** Round trip *)
Lemma in_concat_lines rows LS l : good_lines rows LS -> In l (List.concat LS) -> one_line l /\ data_line l.
Proof.
  intros [L H] I. apply in_concat in I as (ls & I1 & I2). apply In_nth_error in I1 as (e & Ee). apply In_nth_error in I2 as (i & Ei).
  destruct (nth_error rows e) as [rs|] eqn:Er; [|apply nth_error_None in Er; assert (e < List.length LS)%nat by (apply nth_error_Some; congruence); lia].
  destruct (H e rs Er) as (ls' & E' & Ll & G). rewrite Ee in E'. injection E' as <-.
  destruct (nth_error rs i) as [r|] eqn:Eri; [|apply nth_error_None in Eri; assert (i < List.length ls)%nat by (apply nth_error_Some; congruence); lia].
  destruct (G i r Eri) as (l' & El & A & B & _). rewrite Ei in El. injection El as <-. auto.
Qed.
Lemma filter_comments hl : (forall l, In l hl -> comment_line l) -> filter (is_data ch_hash) hl = [].
Proof.
  induction hl as [|l hl IH]; intros H; auto. cbn. destruct (H l (or_introl eq_refl)) as (r & ->). cbn [is_data].
  change (ch_eqb "#"%char ch_hash) with true. cbn [negb]. apply IH. intros; apply H; now right.
Qed.
Lemma filter_data ls : (forall l, In l ls -> data_line l) -> filter (is_data ch_hash) ls = ls.
Proof.
  induction ls as [|l ls IH]; intros H; auto. cbn. rewrite (proj2 (is_data_spec l)) by (apply H; now left). f_equal. apply IH. intros; apply H; now right.
Qed.
Lemma comment_nonempty l : comment_line l -> l <> []. Proof. intros (r & ->). discriminate. Qed.
Lemma scaling_round_trip s t lo hi elements rows :
  requested s t lo hi -> numbered_functions elements -> Forall2 (fun fs (rs : list sf_row) => List.length fs = List.length rs) elements rows -> countable rows ->
  exists text scs, writeScaling rows = Done text /\ setupScaling s text elements = Done scs /\ List.length scs = List.length rows /\
    forall e i r, entry rows e i r -> exists sc, entry scs e i sc /\ loaded t lo hi r sc.
Proof.
  intros Hs Hn F C. destruct (write_lines_good rows C) as (hl & LS & Hh & E & G). destruct (settings_spec _ _ _ _ Hs) as [E1 E2].
  destruct G as [GL GH]. assert (G : good_lines rows LS) by (split; auto).
  destruct (set_elements t lo hi elements 0 rows LS []) as (scs & E3 & L3 & H3); auto.
  { destruct C as [C _]. cbn. exact C. }
  exists (file_of (hl ++ List.concat LS)), scs. split; auto. split; [|auto].
  unfold setupScaling. rewrite E1. cbn [bindo]. rewrite E2. cbn [bindo fst snd].
  assert (Hl : forall l, In l (hl ++ List.concat LS) -> one_line l /\ l <> []).
  { intros l I. apply in_app_iff in I as [I|I].
    - destruct (Hh l I). split; auto. now apply comment_nonempty.
    - destruct (in_concat_lines _ _ _ G I) as [A [B _]]. auto. }
  unfold scaling_data. rewrite split_file by (intros; now apply Hl). rewrite keep_lines by (intros; now apply Hl). cbn [app bindo].
  rewrite filter_app, filter_comments, filter_data; [|intros l I; now apply (in_concat_lines rows LS)|intros; now apply Hh].
  cbn [app]. unfold scale_elements. rewrite E3. cbn. reflexivity.
Qed.
Lemma scaling_round_trip_exact s t lo hi elements rows :
  requested s t lo hi -> numbered_functions elements -> Forall2 (fun fs (rs : list sf_row) => List.length fs = List.length rs) elements rows -> countable rows ->
  (forall e i r, entry rows e i r -> double_row r) ->
  exists text scs, writeScaling rows = Done text /\ setupScaling s text elements = Done scs /\ List.length scs = List.length rows /\
    forall e i r, entry rows e i r -> exists sc, entry scs e i sc /\
      s_Gmin sc = r_min r /\ s_Gmax sc = r_max r /\ s_Gmean sc = r_mean r /\ s_Gsigma sc = r_sigma r /\
      forall x, scale sc x = documented_scale t (r_min r) (r_max r) (r_mean r) (r_sigma r) lo hi x.
Proof.
  intros Hs Hn F C D. destruct (scaling_round_trip s t lo hi elements rows Hs Hn F C) as (text & scs & A & B & L & H).
  exists text, scs. split; auto. split; auto. split; auto. intros e i r Er. destruct (H e i r Er) as (sc & Es & _ & _ & _ & G1 & G2 & G3 & G4 & G5).
  destruct (D e i r Er) as (D1 & D2 & D3 & D4). rewrite read_back_exact in G1, G2, G3, G4 by auto.
  exists sc. split; auto. do 4 (split; auto). intros x. rewrite G5. congruence.
Qed.

(** ** From statistics *)
Lemma holds_double l c : l <> [] -> (forall v, In v l -> double v) -> holds l c -> double (c_min c) /\ double (c_max c) /\
  (forall v, In v l -> c_min c <= v <= c_max c) /\ In (c_min c) l /\ In (c_max c) l.
Proof.
  intros Nl D ((_ & _ & _ & H) & _). destruct (H Nl) as [[A B] [C E]]. split; [auto|]. split; [auto|]. split; [intros v Hv; split; auto|auto].
Qed.
Lemma rows_of_spec n d : (forall i, (i < n)%nat -> exists c, mget Nat.eqb i d = Some c) -> exists rs, rows_of n d = Done rs /\ List.length rs = n /\
  forall i c, (i < n)%nat -> mget Nat.eqb i d = Some c -> nth_error rs i = Some (row_of c).
Proof.
  intros H. unfold rows_of.
  destruct (mapo_rel (fun i => c <- throwing (mget Nat.eqb i d); Done (row_of c)) (fun i r => exists c, mget Nat.eqb i d = Some c /\ r = row_of c) (seq 0 n)) as (rs & E & F).
  { intros i I. apply in_seq in I. destruct (H i) as (c & Ec); [lia|]. exists (row_of c). rewrite Ec. cbn. eauto. }
  destruct (F2_nth _ _ _ F) as (L & H1 & _). rewrite seq_length in L. exists rs. split; auto. split; auto.
  intros i c Hi Ec. destruct (H1 i i) as (r & Er & c' & Ec' & ->).
  { rewrite (nth_error_nth' _ 0%nat) by (rewrite seq_length; lia). now rewrite seq_nth. }
  rewrite Ec in Ec'. injection Ec' as <-. exact Er.
Qed.
Lemma training_range s lo hi elements stats (values : nat -> nat -> list R) :
  requested s ST_SCALE lo hi -> lo < hi -> numbered_functions elements ->
  Forall2 (fun fs (st : nat * stat_data) => List.length fs = fst st) elements stats -> (Z.of_nat (List.length stats) < 2 ^ 31)%Z ->
  (forall e st, nth_error stats e = Some st -> (Z.of_nat (fst st) < 2 ^ 31)%Z /\ forall i, (i < fst st)%nat ->
     (forall v, In v (values e i) -> double v) /\ (exists v w, In v (values e i) /\ In w (values e i) /\ v < w) /\
     exists c, mget Nat.eqb i (snd st) = Some c /\ holds (values e i) c) ->
  exists text scs, writeStatistics stats = Done text /\ setupScaling s text elements = Done scs /\
    forall e i f, entry elements e i f -> exists sc, entry scs e i sc /\
      (forall v, In v (values e i) -> lo <= scale sc v <= hi) /\
      (exists v w, In v (values e i) /\ In w (values e i) /\ scale sc v = lo /\ scale sc w = hi).
Proof.
  intros Hs Hlh Hn F Hc H.
  destruct (mapo_rel (fun e => rows_of (fst e) (snd e)) (fun st rs => List.length rs = fst st /\
     forall i c, (i < fst st)%nat -> mget Nat.eqb i (snd st) = Some c -> nth_error rs i = Some (row_of c)) stats) as (rows & E & FR).
  { intros st I. apply In_nth_error in I as (e & Ee). destruct (H e st Ee) as [_ H'].
    destruct (rows_of_spec (fst st) (snd st)) as (rs & A & B & C); eauto. intros i Hi. destruct (H' i Hi) as (_ & _ & c & Ec & _). eauto. }
  destruct (F2_nth _ _ _ FR) as (LR & R1 & R2). destruct (F2_nth _ _ _ F) as (LE & E1 & E2).
  assert (F' : Forall2 (fun fs (rs : list sf_row) => List.length fs = List.length rs) elements rows).
  { apply F2_of_nth; [lia|]. intros e fs rs Ef Er. destruct (E1 e fs Ef) as (st & Es & L1). destruct (R1 e st Es) as (rs' & Er' & L2 & _). congruence. }
  assert (C : countable rows).
  { split; [now rewrite LR|]. intros rs I. apply In_nth_error in I as (e & Ee). destruct (R2 e rs Ee) as (st & Es & L & _). rewrite L. now apply (H e). }
  destruct (scaling_round_trip s ST_SCALE lo hi elements rows Hs Hn F' C) as (text & scs & A & B & _ & G).
  exists text, scs. unfold writeStatistics. rewrite E. cbn [bindo]. split; auto. split; auto.
  intros e i f (fs & Ef & Ei). destruct (E1 e fs Ef) as (st & Es & L1). destruct (R1 e st Es) as (rs & Er & L2 & Hr).
  assert (Hi : (i < fst st)%nat) by (rewrite <- L1; apply nth_error_Some; congruence).
  destruct (H e st Es) as [_ H']. destruct (H' i Hi) as (D & (v & w & Iv & Iw & Hvw) & c & Ec & Hh).
  destruct (G e i (row_of c)) as (sc & Esc & Ht & Hl & Hh' & G1 & G2 & _ & _ & G5).
  { exists rs. split; auto. }
  destruct (holds_double (values e i) c) as (D1 & D2 & Hb & Im & Ix); auto.
  { intros Z. rewrite Z in Iv. destruct Iv. }
  cbn [row_of r_min r_max] in G1, G2. rewrite read_back_exact in G1, G2 by auto.
  assert (Hlt : c_min c < c_max c) by (destruct (Hb v Iv), (Hb w Iw); lra).
  assert (Sc : forall x, scale sc x = lo + (hi - lo) * (x - c_min c) / (c_max c - c_min c)) by (intros x; rewrite G5, G1, G2; reflexivity).
  exists sc. split; auto. split.
  - intros x Hx. destruct (Hb x Hx) as [B1 B2]. rewrite Sc.
    assert (0 <= (x - c_min c) / (c_max c - c_min c) <= 1).
    { assert (P : 0 < / (c_max c - c_min c)) by (apply Rinv_0_lt_compat; lra). assert (Q : (c_max c - c_min c) * / (c_max c - c_min c) = 1) by (field; lra).
      unfold Rdiv. split; nra. }
    replace ((hi - lo) * (x - c_min c) / (c_max c - c_min c)) with ((hi - lo) * ((x - c_min c) / (c_max c - c_min c))) by (unfold Rdiv; ring). nra.
  - exists (c_min c), (c_max c). split; auto. split; auto. rewrite !Sc. split; field; lra.
Qed.

(** ** Soundness *)
Lemma nth_error_nil_ {A} n : nth_error (@nil A) n = None. Proof. now destruct n. Qed.
Fixpoint offset (elements : list (list sf_id)) (e : nat) : nat :=
  match e, elements with S e, fs :: elements => List.length fs + offset elements e | _, _ => 0%nat end.
Lemma elements_inv t lo hi elements : forall ls acc st,
  foldo (fun fs st =>
    sc <- setScaling t fs (fst st) lo hi;
    if Nat.leb (List.length fs) (List.length (fst st)) then Done (skipn (List.length fs) (fst st), snd st ++ [sc]) else Undefined)
    elements (ls, acc) = Done st ->
  exists scs, snd st = acc ++ scs /\ List.length scs = List.length elements /\
    forall e i f, entry elements e i f -> exists l sc, nth_error ls (offset elements e + i) = Some l /\ entry scs e i sc /\ setScalingLine f t l lo hi = Done sc.
Proof.
  induction elements as [|fs elements IH]; intros ls acc st E; cbn [foldo] in E.
  - apply done_inj in E. subst. exists []. cbn. rewrite app_nil_r. split; auto. split; auto. intros e i f (r & Er & _). destruct e; discriminate.
  - cbn [fst snd] in E. destruct (setScaling t fs ls lo hi) as [sc| |] eqn:Es; cbn [bindo] in E; try discriminate.
    destruct (Nat.leb_spec (List.length fs) (List.length ls)) as [L|L]; cbn [bindo] in E; try discriminate.
    destruct (IH _ _ _ E) as (scs & E1 & L1 & H1). exists (sc :: scs). split; [rewrite E1, <- app_assoc; reflexivity|]. split; [cbn; lia|].
    intros [|e] i f (r & Er & Ei); cbn in Er.
    + injection Er as <-. unfold setScaling in Es. apply mapo_done in Es. destruct (F2_nth _ _ _ Es) as (Ls & G1 & _).
      destruct (number_list_nth fs) as [Ln Nn]. destruct (G1 i (i, f)) as (s & Esi & Q). { rewrite Nn, Ei. reflexivity. }
      cbn [fst snd] in Q. destruct (nth_error ls i) as [l|] eqn:El; [|discriminate]. cbn [throwing bindo] in Q.
      exists l, s. cbn [offset]. split; auto. split; auto. exists sc. auto.
    + destruct (H1 e i f (ex_intro _ r (conj Er Ei))) as (l & s & El & (y & Ey & Eys) & Q).
      exists l, s. cbn [offset]. split; [|split; [exists y; auto|auto]].
      assert (K : forall (n : nat) (a : list str), nth_error (skipn n a) (offset elements e + i) = nth_error a (n + (offset elements e + i))).
      { clear. intros n. induction n as [|n IHn]; intros a; auto. destruct a as [|x a]; cbn; [now rewrite nth_error_nil_|]. apply IHn. }
      rewrite K in El. now rewrite <- Nat.add_assoc.
Qed.
Lemma offset_spec elements : forall e, offset elements e = functions_before elements e.
Proof. unfold functions_before. induction elements as [|fs elements IH]; intros [|e]; cbn; auto. Qed.
Lemma words_of_spec l : is_words l (words_of l).
Proof. assert (W : is_words l (words l)) by (apply is_words_iff; reflexivity). unfold words_of. now rewrite (split_reduce_tokens _ _ W). Qed.
Lemma some_inj {A} (a b : A) : Some a = Some b -> a = b. Proof. congruence. Qed.
Lemma of_nat_eqb (a : Z) n : Nat.eqb (Z.to_nat a) (n + 1) = true -> a = Z.of_nat (n + 1).
Proof. rewrite Nat.eqb_eq. lia. Qed.
Lemma line_inv f t l lo hi sc : setScalingLine f t l lo hi = Done sc -> exists ws w0 w1 w2 w3 w4, is_words l ws /\
  nth_error ws 0 = Some w0 /\ nth_error ws 1 = Some w1 /\ nth_error ws 2 = Some w2 /\ nth_error ws 3 = Some w3 /\ nth_error ws 4 = Some w4 /\
  (atoi w0 = Done (Z.of_nat (id_ec f + 1)) \/ atoi w1 = Done (Z.of_nat (id_index f + 1))) /\
  s_Gmin sc = atof w2 /\ s_Gmax sc = atof w3 /\ s_Gmean sc = atof w4 /\
  s_Gsigma sc = match nth_error ws 5 with Some w => atof w | None => id_sigma f end /\
  forall x, scale sc x = documented_scale t (s_Gmin sc) (s_Gmax sc) (s_Gmean sc) (s_Gsigma sc) lo hi x.
Proof.
  unfold setScalingLine. intros H. exists (words_of l). set (ws := words_of l) in *. assert (W := words_of_spec l). fold ws in W.
  unfold SymLines.number_at, at_ in H.
  destruct (nth_error ws 0) as [w0|] eqn:E0; [|discriminate H]. cbn [throwing bindo] in H.
  destruct (atoi w0) as [a| |] eqn:Ea; [|discriminate H|discriminate H]. cbn [bindo] in H.
  destruct (nth_error ws 4) as [w4|] eqn:E4.
  2:{ destruct (if Nat.eqb (Z.to_nat a) (id_ec f + 1) then Done (Z.of_nat (id_index f + 1)) else w1 <- throwing (nth_error ws 1); atoi w1) as [b| |]; try discriminate H. cbn [bindo] in H.
      destruct (negb _ && negb _)%bool; [discriminate H|]. destruct (nth_error ws 2); [|discriminate H]. destruct (nth_error ws 3); discriminate H. }
  assert (L : (4 < List.length ws)%nat) by (apply nth_error_Some; rewrite E4; discriminate).
  destruct (nth_error ws 1) as [w1|] eqn:E1; [|apply nth_error_None in E1; lia].
  destruct (nth_error ws 2) as [w2|] eqn:E2; [|apply nth_error_None in E2; lia].
  destruct (nth_error ws 3) as [w3|] eqn:E3; [|apply nth_error_None in E3; lia].
  exists w0, w1, w2, w3, w4. split; auto. do 5 (split; [reflexivity|]). cbn [throwing bindo] in H.
  assert (K : exists b, (if Nat.eqb (Z.to_nat a) (id_ec f + 1) then Done (Z.of_nat (id_index f + 1)) else atoi w1) = Done b /\
     (Nat.eqb (Z.to_nat a) (id_ec f + 1) = true \/ Nat.eqb (Z.to_nat b) (id_index f + 1) = true) /\
     (setScalingType (id_ec f) (id_index f) (id_sigma f) t (mkStatLine (Z.to_nat a) (Z.to_nat b) (atof w2) (atof w3) (atof w4)
        match nth_error ws 5 with Some w => Some (atof w) | None => None end) lo hi = Some sc)).
  { destruct (if Nat.eqb (Z.to_nat a) (id_ec f + 1) then Done (Z.of_nat (id_index f + 1)) else atoi w1) as [b| |] eqn:Eb; [|discriminate H|discriminate H].
    cbn [bindo] in H. exists b. split; auto. destruct (negb _ && negb _)%bool eqn:Ec; [discriminate H|].
    split. { apply andb_false_iff in Ec as [Ec|Ec]; apply negb_false_iff in Ec; auto. }
    destruct (nth_error ws 5) as [w5|]; cbn [throwing bindo] in H; destruct (setScalingType _ _ _ _ _ _ _) as [sc'|]; try discriminate H; cbn in H; apply done_inj in H; now subst. }
  destruct K as (b & Eb & Hb & S). clear H. split.
  - destruct (Nat.eqb (Z.to_nat a) (id_ec f + 1)) eqn:Eab.
    + left. apply of_nat_eqb in Eab. now subst.
    + destruct Hb as [Hb|Hb]; [discriminate|]. right. apply of_nat_eqb in Hb. now subst.
  - assert (D := fun x => scale_documented _ _ _ _ _ _ _ _ x S). cbn [l_min l_max l_mean l_sigma] in D.
    unfold setScalingType in S. cbn [l_ec l_index l_min l_max l_mean l_sigma] in S. destruct (negb _ && negb _)%bool; [discriminate S|]. apply some_inj in S. subst sc.
    cbn [s_Gmin s_Gmax s_Gmean s_Gsigma] in *. do 3 (split; [reflexivity|]). split; [now destruct (nth_error ws 5)|]. exact D.
Qed.
Lemma scaling_loaded s ls elements scs : (forall l, In l ls -> one_line l) -> setupScaling s (file_of ls) elements = Done scs ->
  exists t lo hi data, requested s t lo hi /\ (forall l, In l ls -> l <> []) /\ selected data_line ls data /\ List.length scs = List.length elements /\
    forall e i f, entry elements e i f -> exists l sc ws w0 w1 w2 w3 w4,
      nth_error data (functions_before elements e + i) = Some l /\ entry scs e i sc /\ is_words l ws /\
      nth_error ws 0 = Some w0 /\ nth_error ws 1 = Some w1 /\ nth_error ws 2 = Some w2 /\ nth_error ws 3 = Some w3 /\ nth_error ws 4 = Some w4 /\
      (atoi w0 = Done (Z.of_nat (id_ec f + 1)) \/ atoi w1 = Done (Z.of_nat (id_index f + 1))) /\
      s_Gmin sc = atof w2 /\ s_Gmax sc = atof w3 /\ s_Gmean sc = atof w4 /\
      s_Gsigma sc = match nth_error ws 5 with Some w => atof w | None => id_sigma f end /\
      forall x, scale sc x = documented_scale t (s_Gmin sc) (s_Gmax sc) (s_Gmean sc) (s_Gsigma sc) lo hi x.
Proof.
  intros Hl E. unfold setupScaling in E. destruct (scaling_type_of s) as [t| |] eqn:E1; [|discriminate E|discriminate E]. cbn [bindo] in E.
  destruct (target_range s t) as [rg| |] eqn:E2; [|discriminate E|discriminate E]. cbn [bindo] in E.
  unfold scaling_data in E. rewrite split_file in E by auto. destruct (foldo keep_line ls []) as [data| |] eqn:E3; [|discriminate E|discriminate E]. cbn [bindo] in E.
  apply keep_lines_inv in E3 as [Hne ->]. cbn [app] in E. unfold scale_elements in E.
  destruct (foldo _ elements _) as [st| |] eqn:E4; [|discriminate E|discriminate E]. cbn [bindo] in E. apply done_inj in E.
  destruct (elements_inv _ _ _ _ _ _ _ E4) as (scs' & Es & Ls & H). cbn [app] in Es. rewrite Es in E. subst scs'. clear Es.
  exists t, (fst rg), (snd rg), (filter (is_data ch_hash) ls). split; [now apply settings_inv|]. split; auto. split; [apply filter_selected|]. split; auto.
  intros e i f Ef. destruct (H e i f Ef) as (l & sc & El & Esc & Q). rewrite offset_spec in El.
  destruct (line_inv _ _ _ _ _ _ Q) as (ws & w0 & w1 & w2 & w3 & w4 & G). exists l, sc, ws, w0, w1, w2, w3, w4. split; auto. 
Qed.
