From Coq Require Import Reals Lra ZArith Ascii String Bool Arith Lia List Permutation.
From Verif Require Import Base.AssocMap Model.Strings Model.Printf Model.SymLines Model.ElementMap Model.DataFiles Model.LammpsInterface Model.LammpsSetup
  Spec.StringSpec Spec.ElementSpec Spec.LammpsSetupSpec Spec.LammpsSpec Spec.DataFilesSpec Proofs.StringProofs Proofs.ElementMapProofs Proofs.SymLineProofs Proofs.PrintfProofs Proofs.DataFilesText
  Proofs.LammpsSetupProofs Proofs.LammpsSetupCoeff Spec.LammpsSetupSpec.
Import ListNotations.

Lemma done_inj {A} (x y : A) : Done x = Done y -> x = y.
Proof. congruence. Qed.

(** ** Default mapping *)
Definition default_map (n : nat) : type_map := fold_left (fun s i => map_type (Z.of_nat (i + 1)) i s) (seq 0 n) ([], []).
Lemma default_get n t : mget Z.eqb t (fst (default_map n)) = if (Z.leb 1 t && Z.leb t (Z.of_nat n))%bool then Some (Z.to_nat t - 1) else None.
Proof.
  unfold default_map. induction n as [|n IH].
  - cbn [seq fold_left fst mget]. destruct (Z.leb_spec 1 t), (Z.leb_spec t (Z.of_nat 0)); auto; lia.
  - rewrite seq_S, fold_left_app. cbn [fold_left Nat.add]. unfold map_type at 1. cbn [fst].
    destruct (Z.eq_dec t (Z.of_nat (n + 1))) as [-> | D].
    + rewrite mget_mset_same by exact Z.eqb_eq.
      destruct (Z.leb_spec 1 (Z.of_nat (n + 1))), (Z.leb_spec (Z.of_nat (n + 1)) (Z.of_nat (S n))); try lia. cbn [andb]. f_equal. lia.
    + rewrite mget_mset_other; [|exact Z.eqb_eq|exact D]. rewrite IH.
      destruct (Z.leb_spec 1 t), (Z.leb_spec t (Z.of_nat n)), (Z.leb_spec t (Z.of_nat (S n))); auto; lia.
Qed.

Theorem default_theorem m ws cf ce rc n : elements_of m ws -> good_units m cf ->
  match initialize m [] cf ce rc n with
  | Done itf => covers m cf rc /\ n = length ws /\ same_potential m cf ce itf /\
                (forall t, 1 <= t <= n -> exists s, In s ws /\ treats m itf t (Some s)) /\
                (forall t u s s' a b, 1 <= t <= n -> 1 <= u <= n -> treats m itf t (Some s) -> treats m itf u (Some s') ->
                   element_Z s a -> element_Z s' b -> (t < u <-> a < b))
  | Thrown => ~ covers m cf rc \/ n <> length ws
  | Undefined => False
  end.
Proof.
  intros E G. destruct (elements_spec m ws E) as (Sz & B & C & D & O & Z).
  destruct (covers_dec m cf rc) as [V|V]; [|rewrite initialize_short by auto; auto].
  destruct (Nat.eq_dec (length ws) n) as [<- | N].
  2:{ rewrite initialize_bad; auto. unfold mapping, defaultMapping. rewrite Sz. destruct (Nat.eqb_spec (length ws) n); [contradiction|auto]. }
  assert (M : mapping m [] (length ws) = Done (default_map (length ws))).
  { unfold mapping, defaultMapping. rewrite Sz, Nat.eqb_refl. reflexivity. }
  assert (VT : valid_types (md_em m) (default_map (length ws))).
  { intros t e. rewrite default_get. destruct (Z.leb_spec 1 t), (Z.leb_spec t (Z.of_nat (length ws))); cbn [andb]; try discriminate.
    intros H'. injection H' as <-. destruct (proj1 (D (Z.to_nat t - 1))) as (s & S); [lia|]. destruct (Z _ _ S) as (z & Hz). eauto. }
  destruct (initialize_ok m [] cf ce rc (length ws) _ G V M VT) as (itf & -> & P & U).
  assert (T : forall t, 1 <= t <= length ws -> if_ignore itf t = false /\ if_element itf t = t - 1).
  { intros t H. destruct (U t H) as [U1 U2]. unfold ignores in U1. rewrite default_get in U1, U2.
    destruct (Z.leb_spec 1 (Z.of_nat t)), (Z.leb_spec (Z.of_nat t) (Z.of_nat (length ws))); try lia. cbn [andb] in U1, U2. split; auto. rewrite U2. lia. }
  split; auto. split; auto. split; auto. split.
  - intros t H. destruct (T t H) as [T1 T2]. destruct (proj1 (D (t - 1))) as (s & S); [lia|]. exists s. split.
    + apply C. exists (t - 1). now apply B.
    + cbn [treats]. now rewrite T2.
  - intros t u s s' a b H1 H2 [_ T1] [_ T2] A1 A2. destruct (T t H1) as [_ T1']. destruct (T u H2) as [_ T2']. rewrite T1' in T1. rewrite T2' in T2.
    pose proof (O (t - 1) (u - 1) s s' a b T1 T2 A1 A2). lia.
Qed.

(** ** Use by the other functions *)
Lemma foldo_inv {A B} (P : B -> Prop) (f : A -> B -> outcome B) l : (forall x s s', P s -> f x s = Done s' -> P s') ->
  forall s s', P s -> foldo f l s = Done s' -> P s'.
Proof.
  intros F. induction l as [|x l IH]; intros s s' H E; cbn [foldo] in E; [now injection E as <-|].
  destruct (f x s) as [s1| |] eqn:E1; cbn [bindo] in E; try discriminate. eapply IH; [|exact E]. eauto.
Qed.
Lemma mapping_valid m ws emap n tm : elements_of m ws -> mapping m emap n = Done tm -> valid_types (md_em m) tm.
Proof.
  intros E M. destruct (elements_spec m ws E) as (Sz & B & C & D & O & Z). unfold mapping in M. destruct emap as [|c emap].
  - unfold defaultMapping in M. rewrite Sz in M. destruct (Nat.eqb_spec (length ws) n) as [<- | N]; cbn [negb] in M; [|discriminate].
    apply done_inj in M. subst tm. fold (default_map (length ws)).
    intros t e. rewrite default_get. destruct (Z.leb_spec 1 t), (Z.leb_spec t (Z.of_nat (length ws))); cbn [andb]; try discriminate.
    intros H'. injection H' as <-. destruct (proj1 (D (Z.to_nat t - 1))) as (s & S); [lia|]. destruct (Z _ _ S) as (z & Hz). eauto.
  - unfold readMapping in M. destruct (Nat.ltb _ _); [discriminate|]. revert M. apply foldo_inv; [|intros t e H; discriminate].
    intros x s s' V H. unfold addEntry in H. cbv zeta in H. destruct (negb _); [discriminate|].
    destruct (at_ _ 0) as [w| |]; cbn [bindo] in H; try discriminate. destruct (stoi w) as [t| |]; cbn [bindo] in H; try discriminate.
    destruct (Z.ltb _ t); [discriminate|]. unfold element_at in H. destruct (at_ _ 1) as [w2| |]; cbn [bindo] in H; try discriminate.
    destruct (em_index (md_em m) w2) as [e|] eqn:I; cbn [throwing bindo] in H; [|discriminate]. apply done_inj in H. subst s'.
    intros t' e'. unfold map_type. cbn [fst]. destruct (Z.eq_dec t' t) as [-> | Q].
    + rewrite mget_mset_same by exact Z.eqb_eq. intros H. injection H as <-. apply B in I. destruct (Z _ _ I) as (z & Hz). eauto.
    + rewrite mget_mset_other; [apply V | exact Z.eqb_eq | exact Q].
Qed.
Lemma initialize_inv m ws emap cf ce rc n itf : elements_of m ws -> good_units m cf -> initialize m emap cf ce rc n = Done itf ->
  covers m cf rc /\ same_potential m cf ce itf /\ exists tm, valid_types (md_em m) tm /\ uses tm n itf.
Proof.
  intros E G H. destruct (covers_dec m cf rc) as [V|V]; [|rewrite initialize_short in H by auto; discriminate].
  destruct (mapping m emap n) as [tm| |] eqn:M.
  - pose proof (mapping_valid m ws emap n tm E M) as VT. destruct (initialize_ok m emap cf ce rc n tm G V M VT) as (itf' & H' & P & U).
    assert (itf' = itf) as -> by congruence. eauto.
  - rewrite initialize_bad in H by auto. discriminate.
  - exfalso. unfold initialize in H. cbv zeta in H. fold (mapping m emap n) in H. rewrite M in H. cbn [bindo] in H. destruct Rlt_dec; discriminate.
Qed.
Theorem configured_theorem m ws emap cf ce rc n itf types nlocal nall :
  elements_of m ws -> good_units m cf -> ce <> 0%R -> (md_normalize m = true -> md_convEnergy m <> 0%R) -> length (md_offsets m) = length ws ->
  nlocal <= nall -> (forall i, i < nall -> 1 <= types i <= n) -> init_style m emap cf ce rc n = Done itf ->
  configured itf types nlocal nall (length ws) /\ (md_cutoff m <= rc * length_unit itf)%R.
Proof.
  intros E G Hc Hn Ho L T H. rewrite init_style_same in H. destruct (initialize_inv m ws emap cf ce rc n itf E G H) as (V & (P1 & P2 & P3 & P4 & P5 & P6 & P7 & P8) & tm & VT & U).
  destruct (elements_spec m ws E) as (Sz & B & C & D & O & Z). destruct G as [G1 G2]. split.
  - unfold configured. rewrite P1, P2, P3, P4, P5, P6, P7, Sz. repeat split; auto.
    intros i I A. unfold active in A. unfold element_of. destruct (U (types i) (T i I)) as [U1 U2]. rewrite U1 in A. unfold ignores in A. rewrite U2.
    destruct (mget Z.eqb (Z.of_nat (types i)) (fst tm)) as [e|] eqn:Q; [|discriminate].
    destruct (VT _ _ Q) as (s & z & S & _). apply D. eauto.
  - unfold length_unit. rewrite P3, P4, P6. exact V.
Qed.

(** ** Malformed text *)
Lemma addEntry_defined em n s m : addEntry em n s m <> Undefined.
Proof.
  unfold addEntry. cbv zeta. destruct (negb _); [discriminate|]. unfold at_. destruct (nth_error _ 0) as [w|]; cbn [throwing bindo]; [|discriminate].
  assert (stoi w <> Undefined) as S.
  { unfold stoi. destruct (scan_sign (skip_space w)) as [neg l]. destruct (scan_digits l 0) as [[v k] r]. destruct (Nat.eqb k 0); [discriminate|]. destruct (in_int _); discriminate. }
  destruct (stoi w) as [t| |]; cbn [bindo]; try discriminate; [|congruence]. destruct (Z.ltb _ t); [discriminate|].
  unfold element_at, at_. destruct (nth_error _ 1) as [w2|]; cbn [throwing bindo]; [|discriminate]. destruct (em_index em w2); cbn [throwing bindo]; discriminate.
Qed.
Lemma addEntry_nocolon em n s m : ~ In ch_colon s -> addEntry em n s m = Thrown.
Proof.
  intros H. unfold addEntry. assert (L : length (split s ch_colon) <> 2).
  { destruct s as [|c s]; [discriminate|]. change (c :: s) with (join [ch_colon] [c :: s]). rewrite split_join; [discriminate|discriminate| |discriminate].
    intros w [<- | []]. exact H. }
  cbv zeta. destruct (Nat.eqb_spec (length (split s ch_colon)) 2); [contradiction|reflexivity].
Qed.
Theorem malformed_theorem m text pieces s cf ce rc n :
  filter (fun c => negb (Ascii.eqb c " " || Ascii.eqb c (ascii_of_nat 9))) text = join [","%char] pieces ->
  (forall p, In p pieces -> ~ In ","%char p) -> last pieces [] <> [] -> In s pieces -> ~ In ":"%char s ->
  initialize m text cf ce rc n = Thrown.
Proof.
  intros T K L I H. fold nonblank in T. apply initialize_bad. unfold mapping.
  assert (PN : pieces <> []) by (intros ->; destruct I).
  destruct text as [|c text].
  - exfalso. cbn in T. destruct pieces as [|p [|p2 ps]]; [congruence| |]; cbn [join last] in *.
    + congruence.
    + destruct p; discriminate.
  - unfold readMapping. rewrite without_blanks_filter, T. change ","%char with ch_comma. rewrite split_join; auto.
    destruct (Nat.ltb _ _); auto. clear - I H. generalize (([], []) : type_map). induction pieces as [|p ps IH]; intros tm; [destruct I|].
    cbn [foldo]. destruct I as [-> | I].
    + now rewrite addEntry_nocolon.
    + pose proof (addEntry_defined (md_em m) n p tm). destruct (addEntry (md_em m) n p tm); cbn [bindo]; auto. congruence.
Qed.

(** ** Examples *)
Definition ho_map : element_map := match registerElements em_init (lit "H O") with Some (em, _) => em | None => em_init end.
Definition ho_mode : mode := mkMode ho_map [0; 0]%R 6 true 2 3 (1/2).
Lemma ho_elements : elements_of ho_mode [lit "H"; lit "O"].
Proof.
  exists (lit "H O"). split; [apply is_words_iff; reflexivity|]. split.
  - repeat constructor; cbn; intuition discriminate.
  - split; [|vm_compute; reflexivity].
    intros s [<- | [<- | []]]; [exists 1 | exists 8]; split; try lia; reflexivity.
Qed.
Lemma ho_units cf : (0 < cf)%R -> good_units ho_mode cf.
Proof. intros H. split; auto. intros _. cbn. lra. Qed.
Lemma ho_covers : covers ho_mode (1/2) 6.
Proof. unfold covers, ho_mode. cbn. lra. Qed.
Lemma name_ok_H : name_ok (lit "H").
Proof. repeat split; cbn; intuition discriminate. Qed.
Lemma name_ok_O : name_ok (lit "O").
Proof. repeat split; cbn; intuition discriminate. Qed.
Lemma name_ok_NULL : name_ok (lit "NULL").
Proof. repeat split; cbn; intuition discriminate. Qed.

Lemma mapping_example : exists itf, initialize ho_mode (lit " 3:O, 1 :	H") (1/2) 7 6 4 = Done itf /\
  mapping_text [(3, lit "O"); (1, lit "H")] (lit " 3:O, 1 :	H") /\
  (if_ignore itf 1 = false /\ if_element itf 1 = 0) /\ if_ignore itf 2 = true /\ (if_ignore itf 3 = false /\ if_element itf 3 = 1) /\ if_ignore itf 4 = true.
Proof.
  assert (M : mapping ho_mode (lit " 3:O, 1 :	H") 4 = Done ([(3%Z, 1); (1%Z, 0)], [(1, 3%Z); (0, 1%Z)])) by (vm_compute; reflexivity).
  destruct (initialize_ok ho_mode (lit " 3:O, 1 :	H") (1/2) 7 6 4 _ (ho_units (1/2) ltac:(lra)) ho_covers M (mapping_valid _ _ _ _ _ ho_elements M)) as (itf & I & P & U).
  exists itf. split; auto. split; [vm_compute; reflexivity|].
  repeat split; try (apply (U 1); lia); try (apply (U 2); lia); try (apply (U 3); lia); apply (U 4); lia.
Qed.
(** Three types, two of them of the same element. *)
Lemma shared_example cf ce rc : mapping_text [(1, lit "H"); (2, lit "H"); (3, lit "O")] (lit "1:H,2:H,3:O") /\
  initialize ho_mode (lit "1:H,2:H,3:O") cf ce rc 3 = Thrown.
Proof. split; [vm_compute; reflexivity|]. apply initialize_bad. vm_compute. reflexivity. Qed.
Lemma shared_refuted : exists m ws names emap set cf rc, elements_of m ws /\ good_units m cf /\ covers m cf rc /\
  (forall s, In s names -> In s ws) /\ coeff (length names) (lit "*" :: lit "*" :: names) = Done (emap, set) /\
  forall ce, init_style m emap cf ce rc (length names) = Thrown.
Proof.
  exists ho_mode, [lit "H"; lit "O"], [lit "H"; lit "H"; lit "O"], (lit "1:H,2:H,3:O"), [(1, 1); (1, 2); (1, 3); (2, 2); (2, 3); (3, 3)], (1/2)%R, 6%R.
  split; [exact ho_elements|]. split; [apply ho_units; lra|]. split; [exact ho_covers|]. split; [intros s [<- | [<- | [<- | []]]]; cbn; auto|].
  split; [vm_compute; reflexivity|]. intros ce. rewrite init_style_same. apply (shared_example (1/2) ce 6).
Qed.
(** Types 0 and a type mentioned twice are accepted; type 1 stays without
    element. *)
Lemma zero_type_refuted : exists m ws text es itf, elements_of m ws /\ mapping_text es text /\ In (0, lit "H") es /\ assigned es 1 = None /\
  initialize m text 1 1 6 2 = Done itf /\ if_ignore itf 1 = true.
Proof.
  assert (M : mapping ho_mode (lit "0:H,2:O") 2 = Done ([(0%Z, 0); (2%Z, 1)], [(0, 0%Z); (1, 2%Z)])) by (vm_compute; reflexivity).
  destruct (initialize_ok ho_mode (lit "0:H,2:O") 1 1 6 2 _ (ho_units 1 ltac:(lra)) ltac:(unfold covers, ho_mode; cbn; lra) M (mapping_valid _ _ _ _ _ ho_elements M)) as (itf & I & P & U).
  exists ho_mode, [lit "H"; lit "O"], (lit "0:H,2:O"), [(0, lit "H"); (2, lit "O")], itf.
  split; [exact ho_elements|]. split; [vm_compute; reflexivity|]. split; [now left|]. split; [reflexivity|]. split; auto. apply (U 1). lia.
Qed.
Lemma twice_refuted : exists m ws text es itf, elements_of m ws /\ mapping_text es text /\ In (1, lit "H") es /\ In (1, lit "O") es /\
  initialize m text 1 1 6 2 = Done itf /\ if_ignore itf 2 = true /\ treats m itf 1 (Some (lit "O")).
Proof.
  assert (M : mapping ho_mode (lit "1:H,1:O") 2 = Done ([(1%Z, 1)], [(0, 1%Z); (1, 1%Z)])) by (vm_compute; reflexivity).
  destruct (initialize_ok ho_mode (lit "1:H,1:O") 1 1 6 2 _ (ho_units 1 ltac:(lra)) ltac:(unfold covers, ho_mode; cbn; lra) M (mapping_valid _ _ _ _ _ ho_elements M)) as (itf & I & P & U).
  exists ho_mode, [lit "H"; lit "O"], (lit "1:H,1:O"), [(1, lit "H"); (1, lit "O")], itf.
  split; [exact ho_elements|]. split; [vm_compute; reflexivity|]. split; [now left|]. split; [right; now left|]. split; auto. split; [apply (U 2); lia|].
  destruct (U 1 ltac:(lia)) as [U1 U2]. split; [exact U1|]. rewrite U2. reflexivity.
Qed.
(** A mapping of blanks: the potential is accepted and all atoms are ignored. *)
Lemma blank_refuted : exists m ws itf, elements_of m ws /\ initialize m (lit " ") 1 1 6 2 = Done itf /\ forall t, 1 <= t <= 2 -> if_ignore itf t = true.
Proof.
  assert (M : mapping ho_mode (lit " ") 2 = Done ([], [])) by (vm_compute; reflexivity).
  destruct (initialize_ok ho_mode (lit " ") 1 1 6 2 _ (ho_units 1 ltac:(lra)) ltac:(unfold covers, ho_mode; cbn; lra) M (mapping_valid _ _ _ _ _ ho_elements M)) as (itf & I & P & U).
  exists ho_mode, [lit "H"; lit "O"], itf. split; [exact ho_elements|]. split; auto. intros t T. apply (U t T).
Qed.
Lemma last_null_refuted : exists m ws names, elements_of m ws /\ names <> [] /\ length (used_names names) <= length ws /\ (forall s, In s (used_names names) -> In s ws) /\
  coeff (length names) (lit "*" :: lit "*" :: names) = Undefined.
Proof.
  exists ho_mode, [lit "H"; lit "O"], [lit "H"; lit "O"; lit "NULL"]. split; [exact ho_elements|]. split; [discriminate|]. split; [cbn; lia|].
  split; [intros s; cbn; tauto|]. vm_compute. reflexivity.
Qed.
Lemma coeff_example : elements_of ho_mode [lit "H"; lit "O"] /\ good_units ho_mode (1/2) /\ covers ho_mode (1/2) 6 /\
  (forall s, In s [lit "O"; lit "NULL"; lit "H"] -> name_ok s) /\
  exists itf, coeff 3 (lit "*" :: lit "*" :: [lit "O"; lit "NULL"; lit "H"]) = Done (lit "1:O,3:H", [(1, 1); (1, 3); (3, 3)]) /\
    init_style ho_mode (lit "1:O,3:H") (1/2) 7 6 3 = Done itf /\
    (if_ignore itf 1 = false /\ if_element itf 1 = 1) /\ if_ignore itf 2 = true /\ (if_ignore itf 3 = false /\ if_element itf 3 = 0) /\
    configured itf (fun i => S (i mod 3)) 4 9 2.
Proof.
  split; [exact ho_elements|]. split; [apply ho_units; lra|]. split; [exact ho_covers|].
  split; [intros s [<- | [<- | [<- | []]]]; auto using name_ok_H, name_ok_O, name_ok_NULL|].
  assert (M : mapping ho_mode (lit "1:O,3:H") 3 = Done ([(1%Z, 1); (3%Z, 0)], [(1, 1%Z); (0, 3%Z)])) by (vm_compute; reflexivity).
  destruct (initialize_ok ho_mode (lit "1:O,3:H") (1/2) 7 6 3 _ (ho_units (1/2) ltac:(lra)) ho_covers M (mapping_valid _ _ _ _ _ ho_elements M)) as (itf & I & P & U).
  exists itf. split; [vm_compute; reflexivity|]. rewrite init_style_same. split; auto.
  split; [split; apply (U 1); lia|]. split; [apply (U 2); lia|]. split; [split; apply (U 3); lia|].
  apply (configured_theorem ho_mode [lit "H"; lit "O"] (lit "1:O,3:H") (1/2) 7 6 3 itf); auto; try (cbn; lra); try lia.
  - exact ho_elements.
  - apply ho_units; lra.
  - intros i _. pose proof (Nat.mod_upper_bound i 3). lia.
  - now rewrite init_style_same.
Qed.
