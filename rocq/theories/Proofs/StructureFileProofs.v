(** Structure files (C62): reading what was written. *)
From Coq Require Import Reals Lra ZArith List Ascii String Bool Arith Lia.
From Verif Require Import Base.Vec3 Model.Strings Model.Printf Model.ElementMap Model.Geometry Model.NeighborList Model.Units Model.Errors Model.StructureFile
  Spec.StringSpec Spec.GeometrySpec Spec.PrintfSpec Spec.StructureFileSpec
  Proofs.StringProofs Proofs.GeometryProofs Proofs.NeighborProofs Proofs.PrintfProofs Proofs.NormalizationProofs Proofs.StructureFileText Proofs.LammpsProofs Proofs.SetupProofs.
From Coq Require Import List.
Import ListNotations.
Local Open Scope R_scope.

Definition pr : R -> str := print_E 16.
Definition row_line (v : vec) : str := lit "lattice" ++ numbers (coords v).
Definition atom_line (ref : bool) (sym : str) (a : fatom) : str :=
  lit "atom" ++ numbers (coords (fa_r a)) ++ lit " " ++ fmt2s (c_str sym) ++ numbers (charge_of ref a :: 0 :: coords (force_of ref a)).
Definition value_line (k : string) (v : R) : str := lit k ++ numbers [v].

Lemma lit_plain k : (forallb (fun c => negb (ch_eqb c ch_space) && negb (ch_eqb c ch_tab) && negb (ch_eqb c ch_lf) && negb (ch_eqb c ch_nul))%bool (lit k) = true) -> plain (lit k).
Proof.
  rewrite forallb_forall. intros H. apply Forall_forall. intros c Hc. apply H in Hc. rewrite !andb_true_iff, !negb_true_iff in Hc.
  destruct Hc as [[[A B] C] D]. apply ch_eqb_false in A, B, C, D. unfold blank. tauto.
Qed.
Lemma line_words k l : plain (lit k) -> lit k <> [] -> words_of (lit k ++ numbers l) = lit k :: map pr l /\ ~ In ch_lf (lit k ++ numbers l).
Proof.
  intros P N. destruct (numbers_fields l) as (ts & -> & F & _). now apply fields_of.
Qed.
Lemma row_words v : words_of (row_line v) = lit "lattice" :: [pr (vx v); pr (vy v); pr (vz v)] /\ ~ In ch_lf (row_line v).
Proof. apply (line_words "lattice" (coords v)); [now apply lit_plain|discriminate]. Qed.
Lemma value_words k v : plain (lit k) -> lit k <> [] -> words_of (value_line k v) = [lit k; pr v] /\ ~ In ch_lf (value_line k v).
Proof. intros. now apply (line_words k [v]). Qed.
Lemma atom_words ref sym a : In sym known_elements ->
  words_of (atom_line ref sym a) = lit "atom" :: [pr (vx (fa_r a)); pr (vy (fa_r a)); pr (vz (fa_r a)); sym; pr (charge_of ref a); pr 0;
    pr (vx (force_of ref a)); pr (vy (force_of ref a)); pr (vz (force_of ref a))] /\ ~ In ch_lf (atom_line ref sym a).
Proof.
  intros Hs. destruct (numbers_fields (coords (fa_r a))) as (t1 & E1 & F1 & _).
  destruct (numbers_fields (charge_of ref a :: 0 :: coords (force_of ref a))) as (t2 & E2 & F2 & _).
  destruct (symbol_field sym Hs) as [F3 _]. unfold atom_line. rewrite E1, E2.
  replace (lit "atom" ++ List.concat t1 ++ lit " " ++ fmt2s (c_str sym) ++ List.concat t2)
    with (lit "atom" ++ List.concat (t1 ++ [lit " " ++ fmt2s (c_str sym)] ++ t2)).
  - apply (fields_of (lit "atom") _ (map pr (coords (fa_r a)) ++ [sym] ++ map pr (charge_of ref a :: 0 :: coords (force_of ref a)))); [now apply lit_plain|discriminate|].
    apply Forall2_app; auto. constructor; auto.
  - rewrite !concat_app. cbn [List.concat]. rewrite app_nil_r, <- !app_assoc. reflexivity.
Qed.
Lemma comment_words c : exists ws, words_of (lit "comment " ++ c) = lit "comment" :: ws.
Proof.
  destruct (words_exist_unique (lit " " ++ c)) as (ws & H & _). exists ws. unfold words_of. apply split_reduce_tokens.
  change (lit "comment " ++ c) with ([] ++ lit "comment" ++ lit " " ++ c). apply words_cons; auto; try discriminate.
  - assert (P : plain (lit "comment")) by now apply lit_plain. eapply Forall_impl; [|exact P]. intros x Hx. apply Hx.
  - now left.
Qed.

(** ** The lines written *)
Definition text_of (ls : list str) : str := List.concat (map (fun l => l ++ [ch_lf]) ls).
Definition symbol_of (em : element_map) (a : fatom) : str := match em_symbol em (fa_element a) with Some s => s | None => [] end.
Definition file_lines (em : element_map) (ref : bool) (s : fstruct) : list str :=
  [lit "begin"; lit "comment " ++ fs_comment s] ++
  (if fs_periodic s then [row_line (m0 (fs_box s)); row_line (m1 (fs_box s)); row_line (m2 (fs_box s))] else []) ++
  map (fun a => atom_line ref (symbol_of em a) a) (fs_atoms s) ++
  [value_line "energy" (energy_of ref s); value_line "charge" (total_charge_of ref s); lit "end"].
Lemma symbol_known em n a : complete_map em n -> (fa_element a < n)%nat ->
  em_symbol em (fa_element a) = Some (symbol_of em a) /\ em_index em (symbol_of em a) = Some (fa_element a) /\ In (symbol_of em a) known_elements.
Proof. intros H Ha. unfold symbol_of. destruct (H _ Ha) as (s & -> & B & C). auto. Qed.
Lemma numbers_length l : List.length (numbers l) = (25 * List.length l)%nat.
Proof. destruct (numbers_fields l) as (_ & _ & _ & L). exact L. Qed.
Lemma row_written v : writeRow v = Some (row_line v ++ [ch_lf]).
Proof.
  unfold writeRow, row_line. apply line_short. rewrite app_length, numbers_length. change (List.length (lit "lattice")) with 7%nat. change (List.length (coords v)) with 3%nat. lia.
Qed.
Lemma atom_written em n ref a : complete_map em n -> (fa_element a < n)%nat -> writeAtom em ref a = Some (atom_line ref (symbol_of em a) a ++ [ch_lf]).
Proof.
  intros Hm Ha. destruct (symbol_known em n a Hm Ha) as (E & _ & K). unfold writeAtom. rewrite E.
  unfold atom_line, charge_of, force_of. apply line_short. destruct (symbol_field _ K) as [_ L]. rewrite app_length in L.
  rewrite !app_length, !numbers_length. cbn [List.length coords] in *. change (List.length (lit "atom")) with 4%nat. lia.
Qed.
Lemma value_written k v : (List.length (lit k) <= 100)%nat -> line (lit k ++ numbers [v]) = Some (value_line k v ++ [ch_lf]).
Proof. intros H. unfold value_line. apply line_short. rewrite app_length, numbers_length. cbn [List.length]. lia. Qed.
Lemma omap_map {A B} (f : A -> option B) (g : A -> B) l : (forall a, In a l -> f a = Some (g a)) -> omap f l = Some (map g l).
Proof. induction l as [|a l IH]; intros H; auto. cbn. rewrite (H a) by now left. rewrite IH; auto. intros; apply H; now right. Qed.

Lemma written_any em n ref s : complete_map em n -> ~ In ch_nul (fs_comment s) -> (List.length (fs_comment s) <= 1014)%nat ->
  (forall a, In a (fs_atoms s) -> (fa_element a < n)%nat) -> writeToFile em ref s = Some (text_of (file_lines em ref s)).
Proof.
  intros Hm C2 C3 Ha. unfold writeToFile.
  change (strpr (lit "begin" ++ [ch_lf])) with (Some (lit "begin" ++ [ch_lf])).
  rewrite c_str_plain by auto.
  rewrite line_short by (rewrite app_length; change (List.length (lit "comment ")) with 8%nat; lia).
  assert (E : (if fs_periodic s then omap writeRow [m0 (fs_box s); m1 (fs_box s); m2 (fs_box s)] else Some []) =
    Some (map (fun l => l ++ [ch_lf]) (if fs_periodic s then [row_line (m0 (fs_box s)); row_line (m1 (fs_box s)); row_line (m2 (fs_box s))] else []))).
  { destruct (fs_periodic s); auto. cbn [omap map]. now rewrite !row_written. }
  rewrite E. clear E.
  rewrite (omap_map (writeAtom em ref) (fun a => atom_line ref (symbol_of em a) a ++ [ch_lf])).
  2:{ intros a Hin. apply (atom_written em n); auto. }
  rewrite (value_written "energy"), (value_written "charge") by (cbn; lia).
  change (line (lit "end")) with (Some (lit "end" ++ [ch_lf])). f_equal. unfold text_of, file_lines.
  rewrite !map_app, !concat_app, map_map. cbn [map List.concat]. rewrite !app_nil_r, <- !app_assoc. unfold energy_of, total_charge_of. reflexivity.
Qed.
Lemma written em n ref s : complete_map em n -> stored n ref s -> writeToFile em ref s = Some (text_of (file_lines em ref s)).
Proof. intros Hm ((C1 & C2 & C3) & _ & _ & _ & Ha). apply (written_any em n); auto. intros a H. now apply Ha. Qed.
Lemma lines_plain em n ref s : complete_map em n -> stored n ref s -> forall l, In l (file_lines em ref s) -> ~ In ch_lf l.
Proof.
  intros Hm (Hc & _ & _ & _ & Ha) l. unfold file_lines. rewrite !in_app_iff. intros [H|[H|[H|H]]].
  - destruct H as [<-|[<-|[]]]; [cbn; intuition discriminate|]. rewrite in_app_iff. intros [H|H]; [cbn in H; intuition discriminate|]. exact (proj1 Hc H).
  - destruct (fs_periodic s); [|destruct H]. destruct H as [<-|[<-|[<-|[]]]]; apply row_words.
  - apply in_map_iff in H as (a & <- & H). apply atom_words. apply (symbol_known em n); auto. apply (Ha a H).
  - destruct H as [<-|[<-|[<-|[]]]]; try (apply value_words; [now apply lit_plain|discriminate]). cbn; intuition discriminate.
Qed.

(** ** Reading *)
Lemma vector_read ws i a b c : nth_error ws i = Some (pr a) -> nth_error ws (i + 1) = Some (pr b) -> nth_error ws (i + 2) = Some (pr c) ->
  double a -> double b -> double c -> vector_at ws i = Some (mkVec a b c).
Proof.
  intros A B C Da Db Dc. unfold vector_at, number_at. rewrite A, B, C. unfold pr. now rewrite !read_back_exact.
Qed.
Definition read_atom (ref : bool) (n k idx : nat) (a : fatom) : fatom :=
  mkFA k idx (Z.of_nat k) (fa_element a) (fa_r a) 0 (charge_of ref a) vzero (force_of ref a) (repeat 0%nat n).
Definition good_atom (n : nat) (ref : bool) (a : fatom) : Prop :=
  (fa_element a < n)%nat /\ double_vec (fa_r a) /\ double (charge_of ref a) /\ double_vec (force_of ref a).
Lemma vec_eta v : mkVec (vx v) (vy v) (vz v) = v. Proof. now destruct v. Qed.
Lemma read_one em n ref a ib s rest : complete_map em n -> good_atom n ref a -> List.length (fs_perElement s) = n ->
  exists per, readLoop em (atom_line ref (symbol_of em a) a :: rest) ib s =
    readLoop em rest ib (set_fatoms s (S (fs_numAtoms s)) per (fs_atoms s ++ [read_atom ref (fs_numElements s) (fs_numAtoms s) (fs_index s) a])) /\
    List.length per = n /\ forall e, nth e per 0%nat = (nth e (fs_perElement s) 0 + if Nat.eqb (fa_element a) e then 1 else 0)%nat.
Proof.
  intros Hm (Ha & (A1 & A2 & A3) & Aq & (B1 & B2 & B3)) L. destruct (symbol_known em n a Hm Ha) as (_ & Ei & K).
  destruct (atom_words ref (symbol_of em a) a K) as [W _].
  destruct (incr_ok (fs_perElement s) (fa_element a)) as (per & Ep & Lp & Fp); [lia|].
  exists per. split; [|split; [lia|]].
  - cbn [readLoop]. rewrite W. change (str_eqb (lit "atom") (lit "begin")) with false. change (str_eqb (lit "atom") (lit "comment")) with false.
    change (str_eqb (lit "atom") (lit "lattice")) with false. change (str_eqb (lit "atom") (lit "atom")) with true. cbn iota. unfold readAtom.
    rewrite (vector_read _ 1 (vx (fa_r a)) (vy (fa_r a)) (vz (fa_r a))) by (auto; reflexivity).
    rewrite (vector_read _ 7 (vx (force_of ref a)) (vy (force_of ref a)) (vz (force_of ref a))) by (auto; reflexivity).
    unfold number_at. cbn [nth_error]. rewrite Ei, Ep. unfold pr. rewrite read_back_exact by auto. rewrite !vec_eta. reflexivity.
  - intros e. rewrite Fp. rewrite (Nat.eqb_sym (fa_element a) e). destruct (Nat.eqb e (fa_element a)); lia.
Qed.
Lemma read_all em n ref ib rest : complete_map em n -> forall l s, (forall a, In a l -> good_atom n ref a) -> List.length (fs_perElement s) = n ->
  exists per, readLoop em (map (fun a => atom_line ref (symbol_of em a) a) l ++ rest) ib s =
    readLoop em rest ib (set_fatoms s (fs_numAtoms s + List.length l) per (fs_atoms s ++ mapi (fun i a => read_atom ref (fs_numElements s) (fs_numAtoms s + i) (fs_index s) a) l)) /\
    List.length per = n /\ forall e, nth e per 0%nat = (nth e (fs_perElement s) 0 + List.length (filter (fun a => Nat.eqb (fa_element a) e) l))%nat.
Proof.
  intros Hm. induction l as [|a l IH]; intros s Hl L.
  - exists (fs_perElement s). cbn [map app List.length filter]. rewrite Nat.add_0_r. change (mapi _ []) with (@nil fatom). rewrite app_nil_r. split; [|split; auto].
    f_equal. now destruct s. intros e. lia.
  - destruct (read_one em n ref a ib s (map (fun a => atom_line ref (symbol_of em a) a) l ++ rest) Hm (Hl a (or_introl eq_refl)) L) as (per & E & Lp & Fp).
    cbn [map app]. rewrite E. destruct (IH (set_fatoms s (S (fs_numAtoms s)) per (fs_atoms s ++ [read_atom ref (fs_numElements s) (fs_numAtoms s) (fs_index s) a]))) as (per' & E' & Lp' & Fp').
    { intros; apply Hl; now right. } { exact Lp. }
    exists per'. rewrite E'. split; [|split; auto].
    + f_equal. unfold set_fatoms. cbn [fs_periodic fs_triclinic fs_index fs_numAtoms fs_numElements fs_present fs_energy fs_energyRef fs_charge fs_chargeRef fs_volume fs_sample fs_comment fs_box fs_invbox fs_perElement fs_atoms].
      f_equal; [cbn [List.length]; lia|]. rewrite <- app_assoc. f_equal. cbn [app].
      apply SetupProofs.list_nth_ext. intros j. rewrite (nth_error_mapi _ (a :: l)). destruct j as [|j]; cbn [nth_error option_map].
      * now rewrite Nat.add_0_r.
      * rewrite nth_error_mapi. destruct (nth_error l j); cbn [option_map]; auto. now rewrite Nat.add_succ_r.
    + intros e. rewrite Fp'. cbn [fs_perElement set_fatoms]. rewrite Fp. cbn [filter]. destruct (Nat.eqb (fa_element a) e); cbn [List.length]; lia.
Qed.

(** The state after the cell. *)
Definition with_cell (s s0 : fstruct) : fstruct :=
  if fs_periodic s then set_cell s0 true (off_diagonal (fs_box s) || fs_triclinic s0)%bool (calculateVolume (fs_box s)) (fs_box s) (calculateInverseBox (fs_box s)) else s0.
Lemma read_row em v rest ib s : double_vec v -> (ib <= 2)%nat -> exists s', readLoop em (row_line v :: rest) ib s = readLoop em rest (S ib) s' /\
  s' = let box := set_row (fs_box s) ib v in
       if Nat.eqb (S ib) 3 then set_cell s true (off_diagonal box || fs_triclinic s)%bool (calculateVolume box) box (calculateInverseBox box)
       else set_cell s (fs_periodic s) (fs_triclinic s) (fs_volume s) box (fs_invbox s).
Proof.
  intros (D1 & D2 & D3) Hi. eexists. split; [|reflexivity]. cbn [readLoop]. destruct (row_words v) as [-> _].
  change (str_eqb (lit "lattice") (lit "begin")) with false. change (str_eqb (lit "lattice") (lit "comment")) with false.
  change (str_eqb (lit "lattice") (lit "lattice")) with true. cbn iota. unfold readLattice.
  destruct (Nat.ltb_spec 2 ib); [lia|]. rewrite (vector_read _ 1 (vx v) (vy v) (vz v)) by (auto; reflexivity). rewrite vec_eta.
  destruct (Nat.eqb (S ib) 3); reflexivity.
Qed.
Definition cell_lines (s : fstruct) : list str := if fs_periodic s then [row_line (m0 (fs_box s)); row_line (m1 (fs_box s)); row_line (m2 (fs_box s))] else [].
Lemma read_cell em n ref s s0 rest : stored n ref s -> readLoop em (cell_lines s ++ rest) 0 s0 = readLoop em rest (if fs_periodic s then 3 else 0)%nat (with_cell s s0).
Proof.
  intros (_ & Hb & _). unfold cell_lines, with_cell. destruct (fs_periodic s); auto. destruct (Hb eq_refl) as (B0 & B1 & B2). cbn [app].
  destruct (read_row em (m0 (fs_box s)) (row_line (m1 (fs_box s)) :: row_line (m2 (fs_box s)) :: rest) 0 s0 B0 ltac:(lia)) as (s1 & -> & E1).
  destruct (read_row em (m1 (fs_box s)) (row_line (m2 (fs_box s)) :: rest) 1 s1 B1 ltac:(lia)) as (s2 & -> & E2).
  destruct (read_row em (m2 (fs_box s)) rest 2 s2 B2 ltac:(lia)) as (s3 & -> & E3). f_equal. subst s3 s2 s1. cbv zeta.
  destruct (fs_box s) as [r0 r1 r2]. destruct s0. reflexivity.
Qed.
Lemma gtR_false a b : a <= b -> gtR a b = false.
Proof. intros H. unfold gtR. destruct (Rlt_dec b a); auto. lra. Qed.

(** The structure before positions are remapped. *)
Definition read_raw (n : nat) (ref : bool) (s : fstruct) (per : list nat) : fstruct :=
  let c := with_cell s (set_comment (newStructure n) (fs_comment s)) in
  set_refs (set_fatoms c (List.length (fs_atoms s)) per (mapi (fun i a => read_atom ref n i 0 a) (fs_atoms s))) (energy_of ref s) (total_charge_of ref s).
Lemma read_loop_end em n ref s : complete_map em n -> stored n ref s ->
  exists per, readLoop em (file_lines em ref s) 0 (newStructure n) = (if (fs_periodic s && gtR (Rabs (total_charge_of ref s)) (10 * dbl_eps))%bool then None else Some (read_raw n ref s per)) /\ List.length per = n /\
    forall e, nth e per 0%nat = List.length (filter (fun a => Nat.eqb (fa_element a) e) (fs_atoms s)).
Proof.
  intros Hm Hs. destruct Hs as (Hc & Hb & De & Dq & Ha). unfold file_lines. cbn [app].
  cbn [readLoop]. change (words_of (lit "begin")) with [lit "begin"]. change (str_eqb (lit "begin") (lit "begin")) with true. cbn iota. cbn [readBegin obind].
  destruct (comment_words (fs_comment s)) as (ws & Ew). cbn [readLoop]. rewrite Ew.
  change (str_eqb (lit "comment") (lit "begin")) with false. change (str_eqb (lit "comment") (lit "comment")) with true. cbn iota.
  assert (Er : readComment (lit "comment " ++ fs_comment s) = Some (fs_comment s)) by reflexivity.
  rewrite Er. cbn [obind]. clear ws Ew Er.
  change (if fs_periodic s then [row_line (m0 (fs_box s)); row_line (m1 (fs_box s)); row_line (m2 (fs_box s))] else []) with (cell_lines s).
  assert (Hst : stored n ref s) by (split; auto).
  rewrite (read_cell em n ref s) by exact Hst.
  set (c := with_cell s (set_comment (newStructure n) (fs_comment s))).
  assert (Lc : fs_perElement c = repeat 0%nat n /\ fs_numAtoms c = 0%nat /\ fs_atoms c = [] /\ fs_numElements c = n /\ fs_index c = 0%nat /\ fs_periodic c = fs_periodic s).
  { unfold c, with_cell. destruct (fs_periodic s) eqn:E; cbn; auto 10. }
  destruct Lc as (L1 & L2 & L3 & L4 & L5 & L6).
  set (ib := if fs_periodic s then 3%nat else 0%nat).
  destruct (read_all em n ref ib [value_line "energy" (energy_of ref s); value_line "charge" (total_charge_of ref s); lit "end"] Hm (fs_atoms s) c) as (per & E & Lp & Fp).
  { intros a Hin. exact (Ha a Hin). } { now rewrite L1, repeat_length. }
  exists per. rewrite E. clear E. split; [|split; auto].
  - rewrite L2, L3, L4, L5. cbn [app Nat.add]. set (t := set_fatoms c _ _ _).
    cbn [readLoop].
    destruct (value_words "energy" (energy_of ref s)) as [-> _]; [now apply lit_plain|discriminate|].
    change (str_eqb (lit "energy") (lit "begin")) with false. change (str_eqb (lit "energy") (lit "comment")) with false.
    change (str_eqb (lit "energy") (lit "lattice")) with false. change (str_eqb (lit "energy") (lit "atom")) with false. change (str_eqb (lit "energy") (lit "energy")) with true. cbn iota.
    unfold number_at at 1. cbn [nth_error]. unfold pr. rewrite read_back_exact by auto. cbn [obind readLoop].
    destruct (value_words "charge" (total_charge_of ref s)) as [-> _]; [now apply lit_plain|discriminate|].
    change (str_eqb (lit "charge") (lit "begin")) with false. change (str_eqb (lit "charge") (lit "comment")) with false.
    change (str_eqb (lit "charge") (lit "lattice")) with false. change (str_eqb (lit "charge") (lit "atom")) with false. change (str_eqb (lit "charge") (lit "energy")) with false.
    change (str_eqb (lit "charge") (lit "charge")) with true. cbn iota. unfold number_at at 1. cbn [nth_error]. unfold pr. rewrite read_back_exact by auto. cbn [obind].
    change (words_of (lit "end")) with [lit "end"]. cbn iota.
    change (str_eqb (lit "end") (lit "begin")) with false. change (str_eqb (lit "end") (lit "comment")) with false.
    change (str_eqb (lit "end") (lit "lattice")) with false. change (str_eqb (lit "end") (lit "atom")) with false. change (str_eqb (lit "end") (lit "energy")) with false.
    change (str_eqb (lit "end") (lit "charge")) with false. change (str_eqb (lit "end") (lit "end")) with true. cbn iota.
    unfold readEnd. assert (Ei : (Nat.eqb ib 0 || Nat.eqb ib 3)%bool = true) by (unfold ib; destruct (fs_periodic s); reflexivity). rewrite Ei.
    assert (Ec : fs_periodic t = fs_periodic s) by (cbn [t set_fatoms fs_periodic]; exact L6).
    cbn [set_refs fs_periodic fs_chargeRef]. rewrite Ec. reflexivity.
  - intros e. rewrite Fp, L1, nth_repeat. reflexivity.
Qed.

Lemma read_loop em n ref s : complete_map em n -> stored n ref s -> proper_cell ref s ->
  exists per, readLoop em (file_lines em ref s) 0 (newStructure n) = Some (read_raw n ref s per) /\ List.length per = n /\
    forall e, nth e per 0%nat = List.length (filter (fun a => Nat.eqb (fa_element a) e) (fs_atoms s)).
Proof.
  intros Hm Hs Hp. destruct (read_loop_end em n ref s Hm Hs) as (per & E & L & F). exists per. split; auto. rewrite E.
  destruct (fs_periodic s) eqn:Ep; auto. cbn [andb]. rewrite gtR_false; auto. now apply Hp.
Qed.
