(** Structure files (C62): what is not preserved, and examples. *)
From Coq Require Import Reals Lra ZArith List Ascii String Bool Arith Lia.
From Coquelicot Require Rcomplements.
From Verif Require Import Base.Vec3 Model.Strings Model.Printf Model.ElementMap Model.Geometry Model.NeighborList Model.Units Model.Errors Model.StructureFile
  Spec.StringSpec Spec.ElementSpec Spec.GeometrySpec Spec.PrintfSpec Spec.StructureFileSpec
  Proofs.StringProofs Proofs.ElementMapProofs Proofs.GeometryProofs Proofs.NeighborProofs Proofs.PrintfProofs Proofs.NormalizationProofs Proofs.StructureFileText Proofs.StructureFileProofs Proofs.StructureFileRound.
From Coq Require Import List.
Import ListNotations.
Local Open Scope R_scope.

Lemma register_complete line ws : is_words line ws -> NoDup ws -> (forall s, In s ws -> exists z, element_Z s z) ->
  exists em, registerElements em_init line = Some (em, List.length ws) /\ complete_map em (List.length ws).
Proof.
  intros Hw Hn Hk. destruct (register_bijection line ws Hw Hn Hk) as (m & E & _ & B & W & I & _). exists m. split; auto.
  intros i Hi. apply I in Hi as (s & Hs). exists s. split; auto. assert (Hx : em_index m s = Some i) by now apply B. split; auto.
  assert (Hin : In s ws) by (apply W; now exists i). destruct (Hk s Hin) as (z & Hz). unfold element_Z in Hz. destruct Hz as [_ Hz].
  apply nth_error_In in Hz. exact Hz.
Qed.

(** ** Not preserved *)
Lemma label_lost em n ref s rest text s' r : complete_map em n -> stored n ref s -> proper_cell ref s ->
  writeToFile em ref s = Some text -> readFromFile em (Strings.split (text ++ rest) ch_lf) (newStructure n) = Some (s', r) -> fs_sample s' = ST_UNKNOWN.
Proof.
  intros Hm Hs Hp W E. destruct (read_file em n ref s rest Hm Hs Hp) as (per & l' & E' & _). rewrite (written em n ref s Hm Hs) in W. injection W as <-.
  rewrite E' in E. injection E as <- _. unfold finish, read_raw, with_cell. destruct (fs_periodic s); reflexivity.
Qed.
Lemma charged_unreadable em n ref s rest : complete_map em n -> stored n ref s -> fs_periodic s = true -> 10 * powerRZ 2 (-52) < Rabs (total_charge_of ref s) ->
  exists text, writeToFile em ref s = Some text /\ readFromFile em (Strings.split (text ++ rest) ch_lf) (newStructure n) = None.
Proof.
  intros Hm Hs Ep Hq. exists (text_of (file_lines em ref s)). split; [now apply (written em n)|].
  destruct (read_loop_end em n ref s Hm Hs) as (per & E & _). rewrite Ep in E. cbn [andb] in E.
  replace (gtR (Rabs (total_charge_of ref s)) (10 * dbl_eps)) with true in E by (unfold gtR; destruct (Rlt_dec (10 * dbl_eps) (Rabs (total_charge_of ref s))); auto; exfalso; auto).
  unfold text_of. rewrite split_lines by now apply (lines_plain em n).
  rewrite file_lines_inner in *. cbn [app]. unfold readFromFile. change (words_of (lit "begin")) with [lit "begin"].
  change (str_eqb (lit "begin") (lit "begin")) with true. cbn iota.
  rewrite <- app_assoc. cbn [app]. rewrite collect_until by now apply (inner_not_end em n ref s).
  unfold readFromLines. change (words_of (lit "begin")) with [lit "begin"].
  change (str_eqb (lit "begin") (lit "begin")) with true. cbn iota. now rewrite E.
Qed.
Lemma cut_text (a b c e m : str) : (a ++ [ch_lf]) ++ ((b ++ c ++ ch_lf :: e) ++ [ch_lf]) ++ m = ((a ++ [ch_lf]) ++ ((b ++ c) ++ [ch_lf]) ++ (e ++ [ch_lf]) ++ []) ++ m.
Proof. rewrite app_nil_r, <- !app_assoc. reflexivity. Qed.
Lemma newline_cuts em n ref s c rest : complete_map em n -> (forall a, In a (fs_atoms s) -> (fa_element a < n)%nat) ->
  fs_comment s = c ++ [ch_lf] ++ lit "end" -> plain_comment c -> (List.length c <= 1010)%nat ->
  exists text s' r, writeToFile em ref s = Some text /\ readFromFile em (Strings.split (text ++ rest) ch_lf) (newStructure n) = Some (s', r) /\ fs_atoms s' = [] /\ fs_comment s' = c.
Proof.
  intros Hm Ha Ec (C1 & C2 & C3) C4. exists (text_of (file_lines em ref s)).
  assert (T : exists more, text_of (file_lines em ref s) = List.concat (map (fun l => l ++ [ch_lf]) [lit "begin"; lit "comment " ++ c; lit "end"]) ++ more).
  { eexists. unfold text_of, file_lines. rewrite Ec. cbn [app map List.concat]. apply cut_text. }
  destruct T as (more & ET). do 2 eexists. split; [|split].
  - apply (written_any em n); auto; rewrite Ec.
    + rewrite !in_app_iff. intros [H|[[H|[]]|H]]; auto; [discriminate|cbn in H; intuition discriminate].
    + rewrite !app_length. change (List.length [ch_lf]) with 1%nat. change (List.length (lit "end")) with 3%nat. lia.
  - rewrite ET, <- app_assoc, split_lines.
    + unfold readFromFile. cbn [app]. change (words_of (lit "begin")) with [lit "begin"]. change (str_eqb (lit "begin") (lit "begin")) with true. cbn iota.
      change ((lit "comment " ++ c) :: lit "end" :: Strings.split (more ++ rest) ch_lf) with ([lit "comment " ++ c] ++ lit "end" :: Strings.split (more ++ rest) ch_lf).
      rewrite (collect_until [lit "comment " ++ c]).
      2:{ intros l [<-|[]]. destruct (comment_words c) as (ws & Ew). exists (lit "comment"), ws. split; [exact Ew|reflexivity]. }
      unfold readFromLines. change (words_of (lit "begin")) with [lit "begin"]. change (str_eqb (lit "begin") (lit "begin")) with true. cbn iota.
      cbn [app readLoop]. change (words_of (lit "begin")) with [lit "begin"]. change (str_eqb (lit "begin") (lit "begin")) with true. cbn iota. cbn [readBegin obind].
      destruct (comment_words c) as (ws & Ew). cbn [readLoop]. rewrite Ew.
      change (str_eqb (lit "comment") (lit "begin")) with false. change (str_eqb (lit "comment") (lit "comment")) with true. cbn iota.
      assert (Er : readComment (lit "comment " ++ c) = Some c) by reflexivity. rewrite Er. cbn [obind].
      change (words_of (lit "end")) with [lit "end"]. cbn iota.
      change (str_eqb (lit "end") (lit "begin")) with false. change (str_eqb (lit "end") (lit "comment")) with false.
      change (str_eqb (lit "end") (lit "lattice")) with false. change (str_eqb (lit "end") (lit "atom")) with false. change (str_eqb (lit "end") (lit "energy")) with false.
      change (str_eqb (lit "end") (lit "charge")) with false. change (str_eqb (lit "end") (lit "end")) with true. cbn iota. reflexivity.
    + intros l [<-|[<-|[<-|[]]]]; [cbn; intuition discriminate| |cbn; intuition discriminate]. intros H. apply in_app_or in H as [H|H]; auto. cbn in H; intuition discriminate.
  - split; reflexivity.
Qed.
Lemma long_comment_fails em ref s : ~ In ch_nul (fs_comment s) -> (1015 <= List.length (fs_comment s))%nat -> writeToFile em ref s = None.
Proof.
  intros Hn Hl. unfold writeToFile. rewrite c_str_plain by auto. change (strpr (lit "begin" ++ [ch_lf])) with (Some (lit "begin" ++ [ch_lf])).
  assert (E : line (lit "comment " ++ fs_comment s) = None).
  { unfold line, strpr. rewrite !app_length. change (List.length (lit "comment ")) with 8%nat. change (List.length [ch_lf]) with 1%nat.
    destruct (Nat.ltb_spec (8 + List.length (fs_comment s) + 1) 1024); auto. lia. }
  now rewrite E.
Qed.
Lemma flag_lost em n ref s rest text s' r : complete_map em n -> stored n ref s -> proper_cell ref s -> fs_periodic s = true ->
  vy (m0 (fs_box s)) <= 0 -> vz (m0 (fs_box s)) <= 0 -> vx (m1 (fs_box s)) <= 0 -> vz (m1 (fs_box s)) <= 0 -> vx (m2 (fs_box s)) <= 0 -> vy (m2 (fs_box s)) <= 0 ->
  writeToFile em ref s = Some text -> readFromFile em (Strings.split (text ++ rest) ch_lf) (newStructure n) = Some (s', r) -> fs_triclinic s' = false.
Proof.
  intros Hm Hs Hp Ep B1 B2 B3 B4 B5 B6 W E. destruct (read_file em n ref s rest Hm Hs Hp) as (per & l' & E' & _). rewrite (written em n ref s Hm Hs) in W. injection W as <-.
  rewrite E' in E. injection E as <- _. unfold finish, read_raw, with_cell. rewrite Ep. cbn [set_fatoms set_present set_refs set_cell fs_triclinic set_comment newStructure].
  rewrite orb_false_r. destruct (off_diagonal (fs_box s)) eqn:Eo; auto. apply off_diagonal_spec in Eo.
  assert (0 < dbl_min) by (apply powerRZ_lt; lra). intuition lra.
Qed.

(** ** Examples *)
Lemma double_half z : (Z.abs z < 2 ^ 53)%Z -> double (IZR z / 2).
Proof. intros H. exists z, (-1)%Z. split; auto. split; [lia|]. unfold powerRZ. simpl. field. Qed.
Lemma double_int z : (Z.abs z < 2 ^ 53)%Z -> double (IZR z).
Proof. intros H. exists z, 0%Z. split; auto. split; [lia|]. cbn. lra. Qed.
Definition H2O : element_map := match registerElements em_init (lit "O H") with Some (m, _) => m | None => em_init end.
Lemma H2O_complete : complete_map H2O 2.
Proof.
  intros i Hi. destruct i as [|[|i]]; [exists (lit "H")|exists (lit "O")|lia]; (split; [vm_compute; reflexivity|split; [vm_compute; reflexivity|]]).
  - now left. - unfold known_elements. do 7 right. now left.
Qed.
Definition slanted (k : R) : mat := mkMat (mkVec 4 0 0) (mkVec k 4 0) (mkVec 0 0 4).
Definition hydroxide (sam : sample) (tri : bool) (k x q : R) : fstruct :=
  mkFS true tri 7 2 2 2 0 (-3/2) 0 q 64 sam (lit "hydroxide ion") (slanted k) (calculateInverseBox (slanted k)) [1%nat; 1%nat]
    [mkFA 0 7 0 1 (mkVec 1 1 1) 0 (-1/2) vzero (mkVec (1/2) 0 0) [0%nat; 0%nat];
     mkFA 1 7 1 0 (mkVec x 1 2) 0 (1/2) vzero (mkVec (-1/2) 0 0) [0%nat; 0%nat]].
Lemma hydroxide_stored sam tri k x q : (Z.abs k < 2 ^ 53)%Z -> (Z.abs x < 2 ^ 53)%Z -> (Z.abs q < 2 ^ 53)%Z ->
  stored 2 true (hydroxide sam tri (IZR k) (IZR x) (IZR q)).
Proof.
  intros Hk Hx Hq. assert (D : forall z, (-10 <= z <= 10)%Z -> double (IZR z) /\ double (IZR z / 2)).
  { intros z Hz. split; [apply double_int|apply double_half]; lia. }
  split; [|split; [|split; [|split]]].
  - split; [cbn; intuition discriminate|]. split; [cbn; intuition discriminate|]. cbn; lia.
  - intros _. cbn. unfold double_vec. cbn. repeat split; try (apply D; lia). now apply double_int.
  - cbn. apply D; lia.
  - now apply double_int.
  - intros a [<-|[<-|[]]]; cbn; unfold double_vec; cbn; repeat split; try lia; try (apply D; lia). now apply double_int.
Qed.
Lemma hydroxide_cell sam tri k x q : Rabs k <= 4 -> Rabs x <= 100 -> Rabs q <= 10 * powerRZ 2 (-52) -> proper_cell true (hydroxide sam tri k x q).
Proof.
  intros Hk Hx Hq _. cbn [hydroxide fs_box fs_atoms]. split; [|split; auto].
  - unfold det, slanted, dot, cross. cbn. lra.
  - apply Rcomplements.Rabs_le_between in Hk. apply Rcomplements.Rabs_le_between in Hx.
    assert (G : forall y z, matvec (calculateInverseBox (slanted k)) (mkVec y 1 z) = mkVec ((y - k / 4) / 4) (1 / 4) (z / 4)).
    { intros y z. replace (mkVec y 1 z) with (GeometrySpec.combine (slanted k) (mkVec ((y - k / 4) / 4) (1 / 4) (z / 4))).
      - apply inv_left. unfold det, slanted, dot, cross. cbn. lra.
      - unfold slanted, GeometrySpec.combine, vadd, smul. cbn. f_equal; lra. }
    intros a [<-|[<-|[]]]; cbn [fa_r]; rewrite G; unfold int_range; cbn; repeat split; apply Rabs_def1; lra.
Qed.
Lemma hydroxide_case : complete_map H2O 2 /\ stored 2 true (hydroxide ST_UNKNOWN true 1 5 0) /\ proper_cell true (hydroxide ST_UNKNOWN true 1 5 0).
Proof.
  split; [exact H2O_complete|]. split; [apply (hydroxide_stored ST_UNKNOWN true 1 5 0); reflexivity|].
  apply hydroxide_cell; try (apply Rabs_le; lra). rewrite Rabs_R0. assert (0 < powerRZ 2 (-52)) by (apply powerRZ_lt; lra). lra.
Qed.
Lemma dbl_min_small : powerRZ 2 (-1022) < 1.
Proof.
  unfold powerRZ. rewrite <- Rinv_1. apply Rinv_1_lt_contravar; [lra|]. apply Rlt_pow_R1; [lra|]. apply Pos2Nat.is_pos.
Qed.
(** A structure as read, with positions inside the cell. *)
Definition read_ion : fstruct :=
  mkFS true true 0 2 2 2 0 (-3/2) 0 0 64 ST_UNKNOWN (lit "hydroxide ion") (slanted 1) (calculateInverseBox (slanted 1)) [1%nat; 1%nat]
    [mkFA 0 0 0 1 (mkVec 1 1 1) 0 (-1/2) vzero (mkVec (1/2) 0 0) [0%nat; 0%nat];
     mkFA 1 0 1 0 (mkVec 2 1 2) 0 (1/2) vzero (mkVec (-1/2) 0 0) [0%nat; 0%nat]].
Lemma read_ion_case : stored 2 true read_ion /\ proper_cell true read_ion /\ wrapped read_ion /\ as_read 2 read_ion.
Proof.
  split; [|split; [|split]].
  - destruct (hydroxide_stored ST_UNKNOWN true 1 2 0 eq_refl eq_refl eq_refl) as (A & B & C & D & E). split; [exact A|]. split; [exact B|]. split; [exact C|]. split; [exact D|].
    intros a [<-|[<-|[]]]; [apply (E _ (or_introl eq_refl))|apply (E _ (or_intror (or_introl eq_refl)))].
  - intros _. destruct (hydroxide_cell ST_UNKNOWN true 1 2 0) as (A & B & C); try (apply Rabs_le; lra); auto.
    { rewrite Rabs_R0. assert (0 < powerRZ 2 (-52)) by (apply powerRZ_lt; lra). lra. }
    split; [exact A|]. split; [exact B|]. intros a [<-|[<-|[]]]; [apply (C _ (or_introl eq_refl))|apply (C _ (or_intror (or_introl eq_refl)))].
  - intros a [<-|[<-|[]]]; [exists (mkVec (3/16) (1/4) (1/4))|exists (mkVec (7/16) (1/4) (1/2))];
      (split; [repeat split; cbn; lra|unfold slanted, GeometrySpec.combine, vadd, smul; cbn; f_equal; lra]).
  - split; [reflexivity|]. split; [reflexivity|]. split; [reflexivity|]. split; [reflexivity|]. split; [reflexivity|]. split; [reflexivity|]. split; [reflexivity|].
    split; [unfold derived_cell; cbn [read_ion fs_periodic]; split; [|split; [reflexivity|split; [|reflexivity]]]|split; [reflexivity|split]].
    + unfold det, slanted, dot, cross. cbn. rewrite Rabs_right; lra.
    + intros _. right. right. left. cbn [read_ion fs_box slanted m1 vx]. exact dbl_min_small.
    + intros e. destruct e as [|[|e]]; try reflexivity. cbn. destruct e; reflexivity.
    + intros i a H. destruct i as [|[|i]]; cbn in H; try (injection H as <-; cbn; auto 10). destruct i; discriminate.
Qed.
Lemma refuted_case : complete_map H2O 2 /\
  stored 2 true (hydroxide ST_TRAINING true (-1) 5 0) /\ proper_cell true (hydroxide ST_TRAINING true (-1) 5 0) /\
  fs_sample (hydroxide ST_TRAINING true (-1) 5 0) = ST_TRAINING /\ fs_triclinic (hydroxide ST_TRAINING true (-1) 5 0) = true /\
  stored 2 true (hydroxide ST_TRAINING true 1 5 1) /\ 10 * powerRZ 2 (-52) < Rabs (total_charge_of true (hydroxide ST_TRAINING true 1 5 1)).
Proof.
  split; [exact H2O_complete|]. split; [apply (hydroxide_stored ST_TRAINING true (-1) 5 0); reflexivity|]. split.
  { apply hydroxide_cell; try (apply Rabs_le; lra). rewrite Rabs_R0. assert (0 < powerRZ 2 (-52)) by (apply powerRZ_lt; lra). lra. }
  split; [reflexivity|]. split; [reflexivity|]. split; [apply (hydroxide_stored ST_TRAINING true 1 5 1); reflexivity|].
  cbn [total_charge_of hydroxide fs_chargeRef]. rewrite Rabs_R1. unfold powerRZ.
  assert (16 < 2 ^ Pos.to_nat 52). { replace 16 with (2 ^ 4) by ring. apply Rlt_pow; [lra|]. lia. }
  assert (/ 2 ^ Pos.to_nat 52 < / 16) by (apply Rinv_lt_contravar; [|auto]; apply Rmult_lt_0_compat; lra). lra.
Qed.
