(** Conversion to XYZ and POSCAR (C93). *)
From Coq Require Import Reals Lra ZArith List Ascii String Bool Arith Lia Permutation.
From Verif Require Import Base.Vec3 Model.Strings Model.Printf Model.SymLines Model.ElementMap Model.Geometry Model.NeighborList Model.Units Model.Errors Model.StructureFile Model.DataFiles Model.Convert
  Spec.StringSpec Spec.ElementSpec Spec.PrintfSpec Spec.StructureFileSpec Spec.PredictionSpec Spec.ConvertSpec
  Proofs.StringProofs Proofs.ElementMapProofs Proofs.PrintfProofs Proofs.StructureFileText Proofs.StructureFileRead Proofs.StructureFileExamples Proofs.DataFilesText.
From Coq Require Import List.
Import ListNotations.
Local Open Scope R_scope.

(** ** Words *)
Lemma blanks_front b s ws : Forall blank b -> is_words s ws -> is_words (b ++ s) ws.
Proof. intros H. induction H; auto. intros. cbn [app]. now apply is_words_blank, IHForall. Qed.
Lemma words_glue s ws t us : is_words s ws -> is_words t us -> is_words (s ++ lit " " ++ t) (ws ++ us).
Proof.
  intros H Ht. induction H as [s H|b w rest ws Hb Hw Hn Hr H IH].
  - cbn [app]. apply blanks_front; auto. apply blanks_front; auto. constructor; [now left|constructor].
  - rewrite <- !app_assoc. cbn [app]. apply words_cons; auto. destruct rest; [now left|exact Hr].
Qed.
Lemma one_word w : word w -> is_words w [w].
Proof. intros [A B]. assert (X := fields_words w [] (conj A B)). cbn in X. rewrite app_nil_r in X. apply X. intros p []. Qed.
Lemma plain_word w : plain w -> w <> [] -> word w.
Proof. intros P N. split; auto. eapply Forall_impl; [|exact P]. intros c Hc. apply Hc. Qed.
Lemma fmt24_words v : is_words (fmt24 v) [print_E 16 v].
Proof.
  destruct (pad_left (print_E 16 v) 24) as (b & A & E & _). destruct (print_plain v) as [P N]. unfold fmt24. rewrite E.
  apply blanks_front; [eapply Forall_impl; [|exact A]; intros c ->; now left|]. now apply one_word, plain_word.
Qed.
Lemma triple_words v : is_words (triple v) [print_E 16 (vx v); print_E 16 (vy v); print_E 16 (vz v)].
Proof.
  unfold triple. apply (words_glue _ [_] _ [_; _]); [apply fmt24_words|]. apply (words_glue _ [_] _ [_]); apply fmt24_words.
Qed.
Lemma reads_print v : double_vec v -> reads_vec [print_E 16 (vx v); print_E 16 (vy v); print_E 16 (vz v)] v.
Proof. intros (A & B & C). unfold reads_vec. cbn [map]. now rewrite !read_back_exact. Qed.
Lemma triple_line v : double_vec v -> vec_line (triple v) v.
Proof. intros D. eexists. split; [apply triple_words|]. now apply reads_print. Qed.
Lemma fmt24_no_lf v : ~ In ch_lf (fmt24 v).
Proof.
  destruct (pad_left (print_E 16 v) 24) as (b & A & E & _). destruct (print_plain v) as [P _]. unfold fmt24. rewrite E. intros H. apply in_app_or in H as [H|H].
  - rewrite Forall_forall in A. apply A in H. discriminate.
  - unfold plain in P. rewrite Forall_forall in P. now apply P in H.
Qed.
Lemma triple_no_lf v : ~ In ch_lf (triple v).
Proof.
  unfold triple. intros H. repeat (apply in_app_or in H; destruct H as [H|H]; [first [now apply fmt24_no_lf in H|destruct H as [H|[]]; discriminate]|]). now apply fmt24_no_lf in H.
Qed.
Lemma triple_length v : List.length (triple v) = 74%nat.
Proof. unfold triple. rewrite !app_length, !column_width. reflexivity. Qed.

(** ** Outputs *)
Definition given (l : list (option str)) (ls : list str) : Prop := Forall2 (fun o t => o = Some t) l ls.
Lemma outputs_given l ls : given l ls -> outputs l = Some (List.concat ls).
Proof. intros H. induction H as [|o t l ls -> H IH]; auto. cbn [outputs obind List.concat]. now rewrite IH. Qed.
Lemma given_app l ls m ms : given l ls -> given m ms -> given (l ++ m) (ls ++ ms).
Proof. apply Forall2_app. Qed.
Lemma given_map {A} (f : A -> option str) g l : (forall x, In x l -> f x = Some (g x)) -> given (map f l) (map g l).
Proof. intros H. induction l; cbn [map]; constructor; [apply H; now left|]. apply IHl. intros; apply H; now right. Qed.
Lemma strpr_short t : (List.length t < 1024)%nat -> strpr t = Some t.
Proof. intros H. unfold strpr. destruct (Nat.ltb_spec (List.length t) 1024); auto. lia. Qed.
Lemma text_of_lines ls : Forall (fun l => ~ In ch_lf l) ls -> text_lines (List.concat (map (fun l => l ++ [ch_lf]) ls)) ls.
Proof. intros H. split; auto. Qed.
Lemma text_lines_app t ls u ms : text_lines t ls -> text_lines u ms -> text_lines (t ++ u) (ls ++ ms).
Proof. intros [-> A] [-> B]. split; [now rewrite map_app, concat_app|]. apply Forall_app. auto. Qed.

(** ** XYZ *)
Definition xyz_line (sym : str) (v : vec) : str := pad sym 2 ch_space true ++ lit " " ++ triple v.
Lemma pad_right_known s : In s known_elements -> exists b, Forall (fun c => c = ch_space) b /\ pad s 2 ch_space true = s ++ b /\ (List.length (s ++ b) <= 2)%nat.
Proof.
  intros H. destruct (known_plain s H) as (_ & _ & L). unfold pad. destruct (Nat.leb_spec 2 (List.length s)).
  - exists []. rewrite app_nil_r. auto.
  - exists (repeat ch_space (2 - List.length s)). split; [apply Forall_forall; intros c Hc; now apply repeat_spec in Hc|]. split; auto. rewrite app_length, repeat_length. lia.
Qed.
Lemma known_word s : In s known_elements -> word s.
Proof. intros H. destruct (known_plain s H) as (A & B & _). now apply plain_word. Qed.
Lemma known_no_lf s : In s known_elements -> ~ In ch_lf s /\ ~ In ch_nul s.
Proof. intros H. destruct (known_plain s H) as (A & _ & _). unfold plain in A. rewrite Forall_forall in A. split; intros K; apply A in K; intuition. Qed.
Lemma xyz_line_ok s v : In s known_elements -> double_vec v -> site_line (xyz_line s v) (s, v) /\ ~ In ch_lf (xyz_line s v) /\ (List.length (xyz_line s v) < 1023)%nat.
Proof.
  intros H D. destruct (pad_right_known s H) as (b & A & E & L). unfold xyz_line. rewrite E. split; [|split].
  - eexists. split; [|apply reads_print; exact D]. cbn [fst]. apply (words_glue _ [s]); [|apply triple_words].
    change (s ++ b) with ([] ++ s ++ b). destruct (known_word s H) as [W1 W2]. apply words_cons; auto.
    + destruct b as [|c b]; [exact Logic.I|]. inversion A; subst. now left.
    + apply words_nil. eapply Forall_impl; [|exact A]. intros c ->. now left.
  - destruct (known_no_lf s H) as [N _]. intros K. rewrite <- app_assoc in K. apply in_app_or in K as [K|K]; [auto|]. apply in_app_or in K as [K|K].
    + rewrite Forall_forall in A. apply A in K. discriminate.
    + apply in_app_or in K as [K|K]; [destruct K as [K|[]]; discriminate|]. now apply triple_no_lf in K.
  - rewrite !app_length in *. rewrite triple_length. cbn. lia.
Qed.
Definition box_text (b : mat) : str := triple (m0 b) ++ lit " " ++ triple (m1 b) ++ lit " " ++ triple (m2 b).
Lemma box_line_ok b : double_vec (m0 b) -> double_vec (m1 b) -> double_vec (m2 b) ->
  lattice_line (lit "Lattice=""" ++ box_text b ++ lit """") (Some b) /\ ~ In ch_lf (lit "Lattice=""" ++ box_text b ++ lit """").
Proof.
  intros D0 D1 D2. split.
  - do 4 eexists. split; [reflexivity|]. split; [|split; [apply reads_print; exact D0|split; [apply reads_print; exact D1|apply reads_print; exact D2]]].
    unfold box_text. apply words_glue; [apply triple_words|]. apply words_glue; apply triple_words.
  - unfold box_text. intros H. apply in_app_or in H as [H|H]; [vm_compute in H; intuition discriminate|].
    apply in_app_or in H as [H|H]; [|destruct H as [H|[]]; discriminate].
    apply in_app_or in H as [H|H]; [now apply triple_no_lf in H|]. apply in_app_or in H as [H|H]; [destruct H as [H|[]]; discriminate|].
    apply in_app_or in H as [H|H]; [now apply triple_no_lf in H|]. apply in_app_or in H as [H|H]; [destruct H as [H|[]]; discriminate|]. now apply triple_no_lf in H.
Qed.
Definition sym_of (em : element_map) (a : fatom) : str := match em_symbol em (fa_element a) with Some s => s | None => [] end.
Definition the_frame (em : element_map) (s : fstruct) : frame :=
  mkFrame (if fs_periodic s then Some (fs_box s) else None) (map (fun a => (sym_of em a, fa_r a)) (fs_atoms s)).
Lemma consistent_elements n s a : consistent n s -> In a (fs_atoms s) -> (fa_element a < n)%nat.
Proof. intros (_ & _ & _ & _ & K & _) Ha. apply In_nth_error in Ha as (i & Hi). apply (K i a Hi). Qed.
Lemma frame_ok em n s : complete_map em n -> consistent n s -> frame_of em s (the_frame em s).
Proof.
  intros C K. split; [reflexivity|]. cbn [the_frame fr_sites].
  assert (G : forall a, In a (fs_atoms s) -> (fa_element a < n)%nat) by (intros a; now apply consistent_elements).
  clear K. induction (fs_atoms s) as [|a l IH]; cbn [map]; constructor.
  - split; [|reflexivity]. cbn [fst]. unfold sym_of. destruct (C _ (G a (or_introl eq_refl))) as (t & -> & _). reflexivity.
  - apply IH. intros; apply G; now right.
Qed.
Lemma xyz_written em n s : complete_map em n -> consistent n s -> printable s ->
  exists text n0 l0 sites, writeToFileXyz em s = Some text /\ text_lines text (n0 :: l0 :: sites) /\
    reads_nat n0 (List.length (fr_sites (the_frame em s))) /\ lattice_line l0 (fr_lattice (the_frame em s)) /\ Forall2 site_line sites (fr_sites (the_frame em s)).
Proof.
  intros C K (F & DB & DA). assert (NA : fs_numAtoms s = List.length (fs_atoms s)) by apply K.
  destruct (print_d_plain (fs_numAtoms s)) as (P1 & P2 & P3). assert (Ff : fits (fs_numAtoms s)) by (unfold fits; rewrite NA; exact F). specialize (P3 Ff).
  set (l0 := if fs_periodic s then lit "Lattice=""" ++ box_text (fs_box s) ++ lit """" else []).
  assert (A : forall a, In a (fs_atoms s) -> exists sy, em_symbol em (fa_element a) = Some sy /\ sym_of em a = sy /\ In sy known_elements).
  { intros a Ha. destruct (C _ (consistent_elements n s a K Ha)) as (t & E & _ & Ht). exists t. unfold sym_of. rewrite E. auto. }
  exists (List.concat (map (fun l => l ++ [ch_lf]) (print_d (fs_numAtoms s) :: l0 :: map (fun a => xyz_line (sym_of em a) (fa_r a)) (fs_atoms s)))).
  eexists _, _, _. split; [|split; [apply text_of_lines|split; [|split]]].
  - unfold writeToFileXyz.
    assert (G : given (map (writeXyzAtom em) (fs_atoms s)) (map (fun a => xyz_line (sym_of em a) (fa_r a) ++ [ch_lf]) (fs_atoms s))).
    { apply given_map. intros a Ha. destruct (A a Ha) as (sy & E1 & E2 & Hs). unfold writeXyzAtom. rewrite E1. cbn [obind]. destruct (known_no_lf sy Hs) as [_ NN]. rewrite c_str_plain by exact NN.
      rewrite E2. fold (xyz_line sy (fa_r a)). apply line_short. apply (xyz_line_ok sy (fa_r a) Hs (DA a Ha)). }
    assert (L1 : line (print_d (fs_numAtoms s)) = Some (print_d (fs_numAtoms s) ++ [ch_lf])) by (apply line_short; lia).
    rewrite L1. destruct (fs_periodic s).
    + rewrite (outputs_given _ ((print_d (fs_numAtoms s) ++ [ch_lf]) :: [lit "Lattice=" ++ [ch_quote]; triple (m0 (fs_box s)) ++ lit " "; triple (m1 (fs_box s)) ++ lit " "; (triple (m2 (fs_box s)) ++ [ch_quote]) ++ [ch_lf]] ++ map (fun a => xyz_line (sym_of em a) (fa_r a) ++ [ch_lf]) (fs_atoms s))).
      * f_equal. cbn [map List.concat app]. rewrite map_map. unfold l0, box_text. f_equal. rewrite <- !app_assoc. reflexivity.
      * constructor; [reflexivity|]. apply given_app; [|exact G]. constructor; [reflexivity|]. constructor; [apply strpr_short; rewrite app_length, triple_length; cbn; lia|].
        constructor; [apply strpr_short; rewrite app_length, triple_length; cbn; lia|]. constructor; [apply line_short; rewrite app_length, triple_length; cbn; lia|constructor].
    + rewrite (outputs_given _ ((print_d (fs_numAtoms s) ++ [ch_lf]) :: [[ch_lf]] ++ map (fun a => xyz_line (sym_of em a) (fa_r a) ++ [ch_lf]) (fs_atoms s))).
      * f_equal. cbn [map List.concat app]. rewrite map_map. reflexivity.
      * constructor; [reflexivity|]. apply given_app; [|exact G]. constructor; [reflexivity|constructor].
  - constructor; [apply no_lf_print_d|]. constructor.
    + unfold l0. destruct (fs_periodic s); [destruct (DB eq_refl) as (D0 & D1 & D2); apply (box_line_ok _ D0 D1 D2)|intros []].
    + apply Forall_forall. intros x Hx. apply in_map_iff in Hx as (a & <- & Ha). destruct (A a Ha) as (sy & _ & -> & Hs). apply (xyz_line_ok sy (fa_r a) Hs (DA a Ha)).
  - unfold reads_nat. cbn [the_frame fr_sites]. rewrite map_length, <- NA. now apply atoi_print.
  - cbn [the_frame fr_lattice]. unfold l0. destruct (fs_periodic s); [destruct (DB eq_refl) as (D0 & D1 & D2); apply (box_line_ok _ D0 D1 D2)|reflexivity].
  - cbn [the_frame fr_sites]. clear - A DA. induction (fs_atoms s) as [|a l IH]; cbn [map]; constructor.
    + destruct (A a (or_introl eq_refl)) as (sy & _ & -> & Hs). apply (xyz_line_ok sy (fa_r a) Hs). apply DA. now left.
    + apply IH; intros; [apply DA|apply A]; now right.
Qed.
Lemma reset_fresh n s : reset n s = newStructure n.
Proof. reflexivity. Qed.
Lemma xyz_loop em n stream l : complete_map em n -> em_size em = n -> read_all em n stream l -> Forall printable l ->
  forall fuel, (List.length l <= fuel)%nat -> exists text lines frames, convertXyz fuel em stream (newStructure n) = Some text /\
    text_lines text lines /\ xyz lines frames /\ Forall2 (frame_of em) l frames.
Proof.
  intros C Hn H. induction H as [|stream s rest l Hne Hr H IH]; intros P fuel Hf.
  - exists [], [], []. split; [destruct fuel; reflexivity|]. split; [split; [reflexivity|constructor]|]. split; constructor.
  - destruct fuel as [|fuel]; [cbn in Hf; lia|]. inversion P as [|? ? P1 P2]; subst. destruct stream as [|l0 stream]; [congruence|].
    cbn [convertXyz]. rewrite Hr. cbn [obind]. assert (K := read_consistent _ _ _ _ _ Hr).
    destruct (xyz_written em _ s C K P1) as (t & a & b & sites & E & T & R1 & R2 & R3). rewrite E. cbn [obind]. rewrite reset_fresh.
    destruct (IH P2 fuel) as (u & ls & frs & E2 & T2 & X & Fr); [cbn in Hf; lia|]. rewrite E2. cbn [obind].
    exists (t ++ u), ((a :: b :: sites) ++ ls), (the_frame em s :: frs). split; [reflexivity|]. split; [now apply text_lines_app|]. split; [|constructor; auto; now apply (frame_ok em (em_size em))].
    cbn [app]. now apply xyz_frame.
Qed.
