(** Conversion to XYZ and POSCAR (C93): POSCAR and the program. *)
From Coq Require Import Reals Lra ZArith List Ascii String Bool Arith Lia Permutation.
From Verif Require Import Base.Vec3 Model.Strings Model.Printf Model.SymLines Model.ElementMap Model.Geometry Model.NeighborList Model.Units Model.Errors Model.StructureFile Model.DataFiles Model.Convert
  Spec.StringSpec Spec.ElementSpec Spec.PrintfSpec Spec.StructureFileSpec Spec.PredictionSpec Spec.ConvertSpec
  Proofs.StringProofs Proofs.ElementMapProofs Proofs.PrintfProofs Proofs.StructureFileText Proofs.StructureFileRead Proofs.StructureFileExamples Proofs.DataFilesText Proofs.ConvertProofs.
From Coq Require Import List.
Import ListNotations.
Local Open Scope R_scope.

(** The symbols given are all those of the map. *)
Definition named (em : element_map) (n : nat) (symbols : list str) (order : list nat) : Prop :=
  Forall2 (fun s o => em_index em s = Some o /\ em_symbol em o = Some s /\ In s known_elements /\ (o < n)%nat) symbols order /\ List.length order = n.
Lemma omap_order em n symbols order : named em n symbols order -> omap (em_index em) symbols = Some order.
Proof. intros [F _]. induction F as [|s o l k (A & _) F IH]; auto. cbn [omap]. rewrite A. fold (omap (em_index em)). now rewrite IH. Qed.
Lemma join_tail f (l : list str) : f ++ List.concat (map (fun s => lit " " ++ s) l) = join (lit " ") (f :: l).
Proof.
  revert f. induction l as [|a l IH]; intros f; [cbn; now rewrite app_nil_r|]. cbn [map List.concat].
  change (join (lit " ") (f :: a :: l)) with (f ++ lit " " ++ join (lit " ") (a :: l)). rewrite <- IH, <- !app_assoc. reflexivity.
Qed.
Lemma map_seq_nth {A B} (l : list A) (f : nat -> B) (g : A -> B) a : (forall i x, nth_error (a :: l) (S i) = Some x -> f (S i) = g x) ->
  map f (seq 1 (List.length l)) = map g l.
Proof.
  intros H. revert f a H. induction l as [|b l IH]; intros f a H; auto. cbn [List.length seq map]. f_equal; [apply (H 0%nat b); reflexivity|].
  rewrite <- seq_shift, map_map. apply (IH (fun i => f (S i)) b). intros i x Hx. apply (H (S i) x). exact Hx.
Qed.
Lemma given_some ls : given (map Some ls) ls.
Proof. induction ls; constructor; auto. Qed.
Lemma counts_words w0 l : word w0 -> (forall w, In w l -> word w) -> is_words (join (lit " ") (w0 :: l)) (w0 :: l).
Proof.
  revert w0. induction l as [|a l IH]; intros w0 H0 Hl; [now apply one_word|].
  change (join (lit " ") (w0 :: a :: l)) with (w0 ++ lit " " ++ join (lit " ") (a :: l)). apply (words_glue _ [w0]); [now apply one_word|]. apply IH; [apply Hl; now left|intros; apply Hl; now right].
Qed.
Lemma join_no_lf l : (forall w, In w l -> ~ In ch_lf w) -> ~ In ch_lf (join (lit " ") l).
Proof.
  induction l as [|a [|b l] IH]; intros H; [intros []|apply H; now left|]. change (join (lit " ") (a :: b :: l)) with (a ++ lit " " ++ join (lit " ") (b :: l)).
  intros K. apply in_app_or in K as [K|K]; [apply (H a); [now left|exact K]|]. apply in_app_or in K as [K|K]; [destruct K as [K|[]]; discriminate|].
  apply IH in K; auto. intros w Hw. apply H. now right.
Qed.

Definition group (s : fstruct) (o : nat) : list fatom := filter (fun a => Nat.eqb (fa_element a) o) (fs_atoms s).
Lemma group_positions em n sy o s : consistent n s -> complete_map em n -> em_index em sy = Some o -> em_symbol em o = Some sy ->
  positions_of em s sy = map fa_r (group s o).
Proof.
  intros K C A B. unfold positions_of, group. f_equal. apply filter_ext_in. intros a Ha.
  destruct (C _ (consistent_elements n s a K Ha)) as (t & E & I & _). rewrite E. destruct (Nat.eqb_spec (fa_element a) o) as [Q|N].
  - rewrite Q, B in E. injection E as <-. apply str_eqb_refl.
  - destruct (str_eqb t sy) eqn:Q; auto. apply str_eqb_true in Q as ->. rewrite A in I. injection I as ->. congruence.
Qed.
Lemma poscar_written em n symbols order s : complete_map em n -> consistent n s -> printable s -> fs_periodic s = true -> plain_comment (fs_comment s) ->
  named em n symbols order -> symbols <> [] -> forall elements, Strings.split elements ch_space = symbols ->
  exists text lines, writeToFilePoscar em elements s = Some text /\ text_lines text lines /\
    poscar lines (fs_comment s) symbols (fs_box s) (map (positions_of em s) symbols).
Proof.
  intros C K (F & DB & DA) Pe (Pc1 & Pc2 & Pc3) N Hne elements Hs.
  assert (Eo := omap_order _ _ _ _ N). destruct N as [N Ln].
  unfold writeToFilePoscar. rewrite Hs, Eo. cbn [obind].
  destruct (DB Pe) as (D0 & D1 & D2). rewrite Pe.
  assert (Lp : List.length (fs_perElement s) = n) by apply K.
  assert (Pn : forall o, (o < n)%nat -> nth_error (fs_perElement s) o = Some (List.length (group s o))).
  { intros o Ho. destruct K as (_ & _ & K3 & K4 & _). rewrite (nth_error_nth' _ 0%nat) by lia. f_equal. apply K4. }
  assert (Gs : forall o, (List.length (group s o) <= List.length (fs_atoms s))%nat).
  { intros o. unfold group. clear. induction (fs_atoms s) as [|a l IH]; cbn; [lia|]. destruct (Nat.eqb (fa_element a) o); cbn; lia. }
  assert (Fg : forall o, fits (List.length (group s o))) by (intros o; unfold fits; specialize (Gs o); lia).
  destruct N as [|s0 o0 symbols order (A1 & A2 & A3 & A4) N]; [congruence|].
  set (texts := [fs_comment s ++ lit ", "; lit "ATOM=" ++ s0] ++ map (fun x => lit " " ++ x) symbols ++ [[ch_lf]; lit "1.0" ++ [ch_lf]] ++
    [triple (m0 (fs_box s)) ++ [ch_lf]; triple (m1 (fs_box s)) ++ [ch_lf]; triple (m2 (fs_box s)) ++ [ch_lf]] ++
    [print_d (List.length (group s o0))] ++ map (fun o => lit " " ++ print_d (List.length (group s o))) order ++ [[ch_lf]; lit "Cartesian" ++ [ch_lf]] ++
    List.concat (map (fun o => map (fun a => triple (fa_r a) ++ [ch_lf]) (group s o)) (o0 :: order))).
  match goal with |- context [outputs ?l] => assert (G : given l texts) end.
  { assert (Ks : forall x, In x known_elements -> c_str x = x) by (intros x Hx; apply c_str_plain; now apply known_no_lf).
    assert (Kl : forall x, In x known_elements -> (List.length x <= 2)%nat) by (intros x Hx; now apply known_plain).
    unfold texts. cbn [app].
    constructor; [rewrite c_str_plain by exact Pc2; apply strpr_short; rewrite app_length; cbn [lit list_ascii_of_string List.length]; lia|].
    constructor; [cbn [nth_error obind]; rewrite A2; cbn [obind]; rewrite Ks by exact A3; apply strpr_short; rewrite app_length; specialize (Kl s0 A3); cbn [lit list_ascii_of_string List.length]; lia|].
    apply given_app.
    { replace (List.length (o0 :: order) - 1)%nat with (List.length order) by (cbn; lia).
      rewrite (map_seq_nth order _ (fun o => obind (em_symbol em o) (fun x => strpr (lit " " ++ c_str x))) o0).
      2:{ intros i x Hx. rewrite Hx. reflexivity. }
      clear - N Ks Kl. induction N as [|x o l k (B1 & B2 & B3 & B4) N IH]; constructor; auto.
      rewrite B2. cbn [obind]. rewrite Ks by exact B3. apply strpr_short. rewrite app_length. specialize (Kl x B3). cbn [lit list_ascii_of_string List.length]. lia. }
    do 2 (constructor; [reflexivity|]).
    do 3 (constructor; [apply line_short; rewrite triple_length; lia|]).
    constructor; [cbn [nth_error obind]; rewrite Pn by exact A4; cbn [obind]; apply strpr_short; destruct (print_d_plain (List.length (group s o0))) as (_ & _ & P3); specialize (P3 (Fg o0)); lia|].
    apply given_app.
    { replace (List.length (fs_perElement s) - 1)%nat with (List.length order) by (rewrite Lp, <- Ln; cbn; lia).
      rewrite (map_seq_nth order _ (fun o => obind (nth_error (fs_perElement s) o) (fun x => strpr (lit " " ++ print_d x))) o0).
      2:{ intros i x Hx. rewrite Hx. reflexivity. }
      clear - N Pn Fg. induction N as [|x o l k (B1 & B2 & B3 & B4) N IH]; constructor; auto.
      rewrite Pn by exact B4. cbn [obind]. apply strpr_short. rewrite app_length. destruct (print_d_plain (List.length (group s o))) as (_ & _ & P3); specialize (P3 (Fg o)). cbn [lit list_ascii_of_string List.length]. lia. }
    do 2 (constructor; [reflexivity|]).
    assert (R : forall l, given (map writePoscarAtom l) (map (fun a => triple (fa_r a) ++ [ch_lf]) l)).
    { intros l. apply given_map. intros a _. unfold writePoscarAtom. apply line_short. rewrite triple_length. lia. }
    change (List.concat (map (fun o => map (fun a => triple (fa_r a) ++ [ch_lf]) (group s o)) (o0 :: order))) with
      (List.concat (map (fun o => map (fun a => triple (fa_r a) ++ [ch_lf]) (group s o)) ([o0] ++ order))).
    change (o0 :: order) with ([o0] ++ order).
    induction ([o0] ++ order) as [|o k IH]; cbn [map List.concat]; [constructor|]. apply given_app; [apply R|apply IH]. }
  rewrite (outputs_given _ _ G). clear G.
  set (bodies := map (fun o => map (fun a => triple (fa_r a)) (group s o)) (o0 :: order)).
  set (head := fs_comment s ++ lit ", ATOM=" ++ join (lit " ") (s0 :: symbols)).
  set (cnt := join (lit " ") (map (fun o => print_d (List.length (group s o))) (o0 :: order))).
  set (lines := head :: lit "1.0" :: triple (m0 (fs_box s)) :: triple (m1 (fs_box s)) :: triple (m2 (fs_box s)) :: cnt :: lit "Cartesian" :: List.concat bodies).
  exists (List.concat texts), lines. split; [reflexivity|]. 
  assert (Bl : forall l, In l (List.concat bodies) -> ~ In ch_lf l).
  { intros l Hl. unfold bodies in Hl. apply in_concat in Hl as (b & Hb & Hl). apply in_map_iff in Hb as (o & <- & _). apply in_map_iff in Hl as (a & <- & _). apply triple_no_lf. }
  assert (Ne : forall x, In x (s0 :: symbols) -> In x known_elements).
  { intros x [<-|Hx]; auto. clear - N Hx. induction N as [|y o l k (B1 & B2 & B3 & B4) N IH]; [destruct Hx|]. destruct Hx as [<-|Hx]; auto. }
  split; [split|].
  - assert (X : List.concat (map (fun l => l ++ [ch_lf]) (List.concat bodies)) = List.concat (List.concat (map (fun o => map (fun a => triple (fa_r a) ++ [ch_lf]) (group s o)) (o0 :: order)))).
    { f_equal. unfold bodies. rewrite concat_map, map_map. f_equal. apply map_ext. intros o. now rewrite map_map. }
    assert (Y : head = fs_comment s ++ lit ", " ++ lit "ATOM=" ++ s0 ++ List.concat (map (fun x => lit " " ++ x) symbols)).
    { unfold head. rewrite join_tail. reflexivity. }
    assert (Z0 : cnt = print_d (List.length (group s o0)) ++ List.concat (map (fun o => lit " " ++ print_d (List.length (group s o))) order)).
    { unfold cnt. cbn [map]. rewrite <- join_tail, map_map. reflexivity. }
    unfold lines. cbn [map List.concat]. rewrite X, Y, Z0. unfold texts. rewrite !concat_app. cbn [List.concat]. rewrite ?app_nil_r, <- ?app_assoc. reflexivity.
  - unfold lines. constructor; [|constructor; [vm_compute; intuition discriminate|]].
    + unfold head. intros H. apply in_app_or in H as [H|H]; [auto|]. apply in_app_or in H as [H|H]; [vm_compute in H; intuition discriminate|].
      apply join_no_lf in H; auto. intros w Hw. now apply known_no_lf, Ne.
    + do 3 (constructor; [apply triple_no_lf|]). constructor; [|constructor; [vm_compute; intuition discriminate|now apply Forall_forall]].
      apply join_no_lf. intros w Hw. apply in_map_iff in Hw as (o & <- & _). apply no_lf_print_d.
  - exists (triple (m0 (fs_box s))), (triple (m1 (fs_box s))), (triple (m2 (fs_box s))), cnt, (map (fun o => print_d (List.length (group s o))) (o0 :: order)), bodies.
    split; [reflexivity|]. do 3 (split; [now apply triple_line|]). split; [|split].
    + unfold cnt. cbn [map]. apply counts_words; [|intros w Hw; apply in_map_iff in Hw as (o & <- & _)]; destruct (print_d_plain (List.length (group s o0))); apply plain_word; apply print_d_plain.
    + assert (N' : Forall2 (fun s o => em_index em s = Some o /\ em_symbol em o = Some s /\ In s known_elements /\ (o < n)%nat) (s0 :: symbols) (o0 :: order)) by (constructor; auto).
      clear - N' K C Fg. induction N' as [|y o l k (B1 & B2 & B3 & B4) N IH]; cbn [map]; constructor; auto.
      rewrite (group_positions em n y o s K C B1 B2), map_length. now apply atoi_print.
    + assert (N' : Forall2 (fun s o => em_index em s = Some o /\ em_symbol em o = Some s /\ In s known_elements /\ (o < n)%nat) (s0 :: symbols) (o0 :: order)) by (constructor; auto).
      unfold bodies. clear - N' K C DA. induction N' as [|y o l k (B1 & B2 & B3 & B4) N IH]; cbn [map]; constructor; auto.
      rewrite (group_positions em n y o s K C B1 B2). assert (Q : forall a, In a (group s o) -> double_vec (fa_r a)) by (intros a Ha; apply DA; apply filter_In in Ha; tauto).
      clear - Q. induction (group s o) as [|a r IHr]; cbn [map]; constructor; [apply triple_line, Q; now left|]. apply IHr. intros; apply Q; now right.
Qed.

(** ** The program *)
Lemma join_args_join f l : join_args f l = join (lit " ") (f :: l).
Proof.
  rewrite <- join_tail. revert f. induction l as [|a l IH]; intros f; cbn [join_args map List.concat]; [now rewrite app_nil_r|]. rewrite IH, <- !app_assoc. reflexivity.
Qed.
Lemma chemical_word symbols s : chemical symbols -> In s symbols -> In s known_elements.
Proof. intros [_ H] Hs. destruct (H s Hs) as (z & _ & Hz). apply nth_error_In in Hz. exact Hz. Qed.
Lemma registered arg args : chemical (arg :: args) ->
  exists em order, registerElements em_init (join_args arg args) = Some (em, List.length (arg :: args)) /\ em_size em = List.length (arg :: args) /\
    complete_map em (List.length (arg :: args)) /\ named em (List.length (arg :: args)) (arg :: args) order /\
    (forall s, In s (arg :: args) <-> exists i, em_index em s = Some i) /\ Strings.split (join_args arg args) ch_space = arg :: args.
Proof.
  intros Ch. set (symbols := arg :: args) in *. assert (W : forall s, In s symbols -> word s) by (intros s Hs; apply known_word; eapply chemical_word; eauto).
  assert (J : is_words (join_args arg args) symbols) by (rewrite join_args_join; apply words_join; intros x Hx; apply (W x Hx)).
  destruct (register_bijection _ _ J (proj1 Ch) (proj2 Ch)) as (em & E & Sz & B & Wd & Ix & _).
  destruct (register_complete _ _ J (proj1 Ch) (proj2 Ch)) as (em' & E' & Cm). rewrite E in E'. injection E' as <-.
  assert (O : exists order, Forall2 (fun s o => em_index em s = Some o) symbols order).
  { assert (Q : forall s, In s symbols -> exists i, em_index em s = Some i) by (intros s; apply Wd). clear - Q. induction symbols as [|s l IH]; [exists []; constructor|].
    destruct (Q s (or_introl eq_refl)) as (i & Hi). destruct IH as (o & Ho); [intros; apply Q; now right|]. exists (i :: o). now constructor. }
  destruct O as (order & Ho). exists em, order. split; [exact E|]. split; [exact Sz|]. split; [exact Cm|]. split; [|split; [exact Wd|]].
  - split.
    + assert (Kn : forall s, In s symbols -> In s known_elements) by (intros; eapply chemical_word; eauto).
      clearbody symbols. clear - Ho B Ix Kn. 
      assert (Ix' : forall i s, em_symbol em i = Some s -> (i < List.length symbols)%nat) by (intros i s Hs; apply Ix; eauto). clear Ix. revert Ix'. generalize (List.length symbols) as m. intros m Ix'.
      induction Ho as [|s o l k H Ho IH]; constructor; [|apply IH; intros; apply Kn; now right].
      assert (H' := H). apply B in H'. split; auto. split; auto. split; [apply Kn; now left|]. eapply Ix'; eauto.
    + clear - Ho. clearbody symbols. induction Ho; cbn; auto.
  - rewrite join_args_join. apply (split_join ch_space symbols); [discriminate| |].
    + intros w Hw Hin. destruct (W w Hw) as [_ F]. rewrite Forall_forall in F. apply (F _ Hin). now left.
    + assert (X : In (last symbols []) symbols).
      { unfold symbols. clear. revert arg. induction args as [|a l IH]; intros arg; [now left|]. right. apply IH. }
      apply W in X. apply X.
Qed.
Theorem xyz_conversion arg args em n stream l : chemical (arg :: args) -> registerElements em_init (join (lit " ") (arg :: args)) = Some (em, n) ->
  read_all em n stream l -> Forall printable l -> forall fuel, (List.length l <= fuel)%nat ->
  exists text lines frames, convert fuel (lit "xyz") arg args stream = Some [(lit "input.xyz", text)] /\
    text_lines text lines /\ xyz lines frames /\ Forall2 (frame_of em) l frames.
Proof.
  intros Ch Hr Ra P fuel Hf. destruct (registered arg args Ch) as (em' & order & E & Sz & Cm & _). rewrite join_args_join, Hr in E. assert (E1 := f_equal (fun o => match o with Some (x, _) => x | None => em end) E). assert (E2 := f_equal (fun o => match o with Some (_, x) => x | None => n end) E). cbn beta iota in E1, E2. subst em'. rewrite <- E2 in *. clear E E2. rename em into em'. subst n. destruct (xyz_loop em' (em_size em') stream l Cm eq_refl Ra P fuel Hf) as (t & ls & fr & X & T & Y & Z0).
  exists t, ls, fr. split; auto. unfold convert. rewrite join_args_join, Hr. cbn [obind]. change (str_eqb (lit "xyz") (lit "xyz")) with true. cbn [orb negb]. rewrite X. reflexivity.
Qed.
Lemma poscar_loop em n symbols order elements stream l : complete_map em n -> em_size em = n -> named em n symbols order -> symbols <> [] ->
  Strings.split elements ch_space = symbols -> read_all em n stream l ->
  Forall printable l -> Forall (fun s => fs_periodic s = true /\ plain_comment (fs_comment s)) l ->
  forall fuel count, (List.length l <= fuel)%nat -> (Z.of_nat (count + List.length l) < 2 ^ 31)%Z ->
  exists files, convertPoscar fuel em elements count stream (newStructure n) = Some files /\
    (forall k f, nth_error files k = Some f -> exists d, fst f = lit "POSCAR_" ++ d /\ reads_nat d (count + k + 1)) /\
    Forall2 (fun s f => exists lines, text_lines (snd f) lines /\ poscar lines (fs_comment s) symbols (fs_box s) (map (positions_of em s) symbols)) l files.
Proof.
  intros C Hn N Hne Hs H. induction H as [|stream s rest l Hst Hr H IH]; intros P Q fuel count Hf Hc.
  - exists []. split; [destruct fuel; reflexivity|]. split; [intros [|k] f; discriminate|constructor].
  - destruct fuel as [|fuel]; [cbn in Hf; lia|]. inversion P as [|? ? P1 P2]; subst x l0. inversion Q as [|? ? [Q1 Q2] Q3]; subst x l0. destruct stream as [|l0 stream]; [congruence|].
    cbn [convertPoscar]. rewrite Hr. cbn [obind]. assert (K := read_consistent _ _ _ _ _ Hr). cbn [List.length] in *.
    assert (Fc : fits (count + 1)) by (unfold fits; lia).
    rewrite strpr_short by (rewrite app_length; destruct (print_d_plain (count + 1)) as (_ & _ & P3); specialize (P3 Fc); cbn [lit list_ascii_of_string List.length]; lia). cbn [obind].
    destruct (poscar_written em n symbols order s C K P1 Q1 Q2 N Hne elements Hs) as (t & ls & E & T & X). rewrite E. cbn [obind]. rewrite reset_fresh, Hn.
    destruct (IH P2 Q3 fuel (count + 1)%nat) as (fl & E2 & Nm & F2); [lia|lia|]. rewrite E2. cbn [obind]. eexists. split; [reflexivity|]. split.
    + intros [|k] f; cbn [nth_error]; intros Hk.
      * injection Hk as <-. exists (print_d (count + 1)). split; [reflexivity|]. replace (count + 0 + 1)%nat with (count + 1)%nat by lia. now apply atoi_print.
      * replace (count + S k + 1)%nat with (count + 1 + k + 1)%nat by lia. now apply Nm.
    + constructor; auto. exists ls. auto.
Qed.
(** Every atom is in exactly one group. *)
Lemma groups_all em n symbols order s : named em n symbols order -> NoDup symbols -> consistent n s -> complete_map em n -> (forall x, In x symbols <-> exists i, em_index em x = Some i) ->
  Permutation (List.concat (map (positions_of em s) symbols)) (map fa_r (fs_atoms s)).
Proof.
  intros [N _] Nd K C Wd.
  assert (A : forall a, In a (fs_atoms s) -> exists t, em_symbol em (fa_element a) = Some t /\ In t symbols).
  { intros a Ha. destruct (C _ (consistent_elements n s a K Ha)) as (t & E & I & _). exists t. split; auto. apply Wd. eauto. }
  unfold positions_of. clear - A Nd. induction (fs_atoms s) as [|a l IH].
  - cbn. clear. induction symbols; cbn; auto.
  - destruct (A a (or_introl eq_refl)) as (t & E & Ht). specialize (IH (fun b Hb => A b (or_intror Hb))). cbn [map]. rewrite <- IH. clear IH.
    cbn [filter]. rewrite E. clear - Ht Nd. induction symbols as [|x k IH]; [destruct Ht|]. cbn [map List.concat]. inversion Nd as [|? ? N1 N2]; subst.
    destruct (str_eqb t x) eqn:Q.
    + apply str_eqb_true in Q as ->. cbn [map app]. apply perm_skip. apply Permutation_app_head. 
      assert (Z0 : forall y, In y k -> str_eqb x y = false) by (intros y Hy; destruct (str_eqb x y) eqn:R; auto; apply str_eqb_true in R as ->; contradiction).
      clear - Z0. induction k as [|y k IH]; cbn [map List.concat]; auto. rewrite (Z0 y (or_introl eq_refl)). apply Permutation_app_head, IH. intros; apply Z0; now right.
    + destruct Ht as [->|Ht]; [rewrite str_eqb_refl in Q; discriminate|]. rewrite (IH N2 Ht). cbn [app].
      set (u := map fa_r (filter (fun a0 => match em_symbol em (fa_element a0) with Some t0 => str_eqb t0 x | None => false end) l)).
      symmetry. apply Permutation_middle.
Qed.
Theorem poscar_conversion arg args em n stream l : chemical (arg :: args) -> registerElements em_init (join (lit " ") (arg :: args)) = Some (em, n) ->
  read_all em n stream l -> Forall printable l -> Forall (fun s => fs_periodic s = true /\ plain_comment (fs_comment s)) l ->
  (Z.of_nat (List.length l) < 2 ^ 31)%Z -> forall fuel, (List.length l <= fuel)%nat ->
  exists files, convert fuel (lit "poscar") arg args stream = Some files /\
    (forall k f, nth_error files k = Some f -> exists d, fst f = lit "POSCAR_" ++ d /\ reads_nat d (k + 1)) /\
    Forall2 (fun s f => exists lines groups, text_lines (snd f) lines /\ poscar lines (fs_comment s) (arg :: args) (fs_box s) groups /\
      groups = map (positions_of em s) (arg :: args) /\ Permutation (List.concat groups) (map fa_r (fs_atoms s))) l files.
Proof.
  intros Ch Hr Ra P Q Hl fuel Hf. destruct (registered arg args Ch) as (em' & order & E & Sz & Cm & Nm & Wd & Sp). rewrite join_args_join, Hr in E. assert (E1 := f_equal (fun o => match o with Some (x, _) => x | None => em end) E). assert (E2 := f_equal (fun o => match o with Some (_, x) => x | None => n end) E). cbn beta iota in E1, E2. subst em'. rewrite <- E2 in *. clear E E2. rename em into em'.
  destruct (poscar_loop em' _ (arg :: args) order (join_args arg args) stream l Cm Sz Nm ltac:(discriminate) Sp Ra P Q fuel 0%nat Hf) as (fl & X & Y & Z0); [lia|].
  exists fl. split; [|split; [exact Y|]].
  - unfold convert. rewrite join_args_join, Hr. cbn [obind]. change (str_eqb (lit "poscar") (lit "xyz")) with false. change (str_eqb (lit "poscar") (lit "poscar")) with true. cbn [orb negb].
    rewrite <- join_args_join, Sz. exact X.
  - assert (Kl : Forall (consistent n) l) by (clear - Ra; induction Ra as [|? ? ? ? ? Hr]; constructor; auto; eapply read_consistent; eauto).
    clear - Z0 Kl Nm Wd Cm Ch. induction Z0 as [|s f l fl (ls & T & X) Z0 IH]; constructor.
    + inversion Kl; subst. exists ls. eexists. split; [exact T|]. split; [exact X|]. split; [reflexivity|]. eapply groups_all; eauto. apply Ch.
    + apply IH. now inversion Kl.
Qed.
