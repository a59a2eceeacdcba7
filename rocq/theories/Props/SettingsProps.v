(** Properties C09-C11: settings file. *)
From Coq Require Import String List Ascii Arith Bool Sorted.
From Verif Require Import Base.AssocMap Model.Strings Model.Settings Spec.StringSpec Spec.SettingsSpec
  Proofs.StringProofs Proofs.SettingsProofs.
Import ListNotations.

(** ** C09 *)
(** Loading a file: the stored entries are exactly the (first token, rest)
    pairs of the lines with a non-comment token, with their line numbers, one
    per line, in file order. *)
Theorem C09_load_contents : forall text s n,
  Forall regular_line (readFile text) ->
  loadFile settings_init text = (s, n) ->
  s_lines s = readFile text /\
  (forall k v i, In (k, (v, i)) (s_contents s) <->
     exists line, nth_error (readFile text) i = Some line /\ line_entry line k v) /\
  StronglySorted (fun e f => snd (snd e) < snd (snd f)) (s_contents s) /\
  n = snd (sanityCheck (s_contents s)).
Proof. exact load_contents. Qed.
Print Assumptions C09_load_contents.

(** Lines differing only in their comments are parsed alike (tabs allowed). *)
Theorem C09_comments_irrelevant : forall line1 line2 c i,
  code_part line1 c -> code_part line2 c -> ~ In ch_cr line1 -> ~ In ch_cr line2 ->
  parse_line line1 i = parse_line line2 i.
Proof. exact comment_irrelevant. Qed.
Print Assumptions C09_comments_irrelevant.

(** getValue: value of the first occurrence of the requested spelling, or of
    another spelling of the same keyword if the requested one is absent; an
    exception exactly if no spelling occurs. *)
Theorem C09_get_value : forall s kw g, spellings kw g ->
  match getValue s kw with
  | Some v => exists a i c1 c2, In a g /\ s_contents s = c1 ++ (a, (v, i)) :: c2 /\
       ~ In a (map fst c1) /\
       (occurs kw (s_contents s) -> a = kw) /\
       (a <> kw -> exists g1 g2, g = g1 ++ a :: g2 /\
                   forall b, In b g1 -> ~ occurs b (s_contents s))
  | None => forall a, In a g -> ~ occurs a (s_contents s)
  end.
Proof. exact value_lookup. Qed.
Print Assumptions C09_get_value.

(** getValues: all values of one spelling, in file order, with line numbers. *)
Theorem C09_get_values : forall s kw g l, spellings kw g -> getValues s kw = Some l ->
  exists a, In a g /\ occurs a (s_contents s) /\ (occurs kw (s_contents s) -> a = kw) /\
    l = map snd (filter (fun e => str_eqb a (fst e)) (s_contents s)) /\
    (forall v i, In (v, i) l <-> In (a, (v, i)) (s_contents s)).
Proof. exact values_lookup. Qed.
Print Assumptions C09_get_values.

Theorem C09_keyword_exists : forall s kw g, spellings kw g ->
  (keywordExists s kw false = Some true <-> exists a, In a g /\ occurs a (s_contents s)) /\
  (keywordExists s kw true = Some true <-> occurs kw (s_contents s)) /\
  (forall b, exists r, keywordExists s kw b = Some r).
Proof. exact exists_spec. Qed.
Print Assumptions C09_keyword_exists.

Theorem C09_unknown_keyword_rejected : forall s kw b, (forall g, ~ spellings kw g) ->
  keywordExists s kw b = None /\ getValue s kw = None /\ getValues s kw = None.
Proof. exact lookup_unknown. Qed.
Print Assumptions C09_unknown_keyword_rejected.

(** Outside [regular_line] the claim fails: a line with only tabs contributes
    an entry with an empty keyword, ... *)
Theorem C09_tab_line_refuted : exists line, Forall blank line /\
  exists e, parse_line line 0 = Some e /\ fst e = [].
Proof. exact tab_line. Qed.
Print Assumptions C09_tab_line_refuted.

(** ... and a Windows line end becomes part of the value. *)
Theorem C09_carriage_return_refuted : exists line e, line = lit "elements H" ++ [ch_cr] /\
  parse_line line 0 = Some e /\ fst (snd e) <> lit "H".
Proof. exact windows_line. Qed.
Print Assumptions C09_carriage_return_refuted.

(** Loading twice into one object accumulates entries: the second load of a
    clean file reports critical problems. *)
Theorem C09_reload_refuted : exists text s, loadFile settings_init text = (s, 0) /\
  snd (loadFile s text) <> 0.
Proof. exact reload_accumulates. Qed.
Print Assumptions C09_reload_refuted.

Example C09_nonvacuous :
  Forall regular_line (readFile (lit "# comment" ++ [ch_lf] ++ lit "elements  O H # two" ++ [ch_lf] ++ lit "   ")) /\
  spellings (lit "symfunction") [lit "symfunction_short"; lit "symfunction"].
Proof.
  split; [|reflexivity].
  repeat (constructor; [split; [vm_compute; intuition discriminate|]|]); try constructor;
    intros c Hc Hw; pose proof (code_part_unique _ _ _ (cut_code _) Hc) as E; vm_compute in E; subst c;
    vm_compute; intuition discriminate.
Qed.

(** ** C10 *)
(** The number of critical problems returned by loading is zero exactly when no
    non-repeatable known keyword occurs twice and no two spellings of one
    keyword are mixed. *)
Theorem C10_critical_iff : forall c, snd (sanityCheck c) = 0 <->
  (forall k g, spellings k g -> ~ repeatable k -> ~ repeated k c) /\
  (forall k g a b, spellings k g -> In a g -> In b g -> a <> b -> ~ (occurs a c /\ occurs b c)).
Proof. exact sanity_critical. Qed.
Print Assumptions C10_critical_iff.

(** No problem at all exactly when, in addition, every keyword is known. *)
Theorem C10_problem_iff : forall c, fst (sanityCheck c) = 0 <->
  snd (sanityCheck c) = 0 /\ (forall k, occurs k c -> exists g, spellings k g).
Proof. exact sanity_problems_occurs. Qed.
Print Assumptions C10_problem_iff.

(** Every unknown entry is counted. *)
Theorem C10_unknown_counted : forall c bad,
  NoDup bad -> (forall e, In e bad -> In e c /\ forall g, ~ spellings (fst e) g) ->
  List.length bad <= fst (sanityCheck c).
Proof. exact unknown_counted. Qed.
Print Assumptions C10_unknown_counted.

Example C10_nonvacuous :
  snd (sanityCheck [(lit "elements", (lit "H", 0)); (lit "symfunction", (lit "x", 1)); (lit "symfunction", (lit "y", 2))]) = 0 /\
  snd (sanityCheck [(lit "elements", (lit "H", 0)); (lit "elements", (lit "O", 1))]) = 1 /\
  snd (sanityCheck [(lit "nnp_type", (lit "2", 0)); (lit "nnp_gen", (lit "2", 1))]) = 4 /\
  fst (sanityCheck [(lit "foo", (lit "2", 0))]) = 1.
Proof. vm_compute. auto. Qed.

(** ** C11 *)
(** Writing the pruned file and loading it again: same number of lines, the
    requested lines are commented out, all others are identical, and the
    settings are the original ones without the entries of the pruned lines. *)
Theorem C11_prune_reload : forall text prune s n s' n',
  loadFile settings_init text = (s, n) ->
  loadFile settings_init (writePrunedSettingsFile s prune) = (s', n') ->
  List.length (s_lines s') = List.length (s_lines s) /\
  (forall i line, nth_error (s_lines s) i = Some line ->
     nth_error (s_lines s') i = Some (if existsb (Nat.eqb i) prune then lit "# " ++ line else line)) /\
  s_contents s' = filter (fun e => negb (existsb (Nat.eqb (snd (snd e))) prune)) (s_contents s).
Proof. exact prune_reload. Qed.
Print Assumptions C11_prune_reload.

(** The text itself: prefix for pruned lines only, every line terminated. *)
Theorem C11_prune_text : forall s prune,
  writePrunedSettingsFile s prune =
  List.concat (map (fun il => (if existsb (Nat.eqb (fst il)) prune then lit "# " else []) ++ snd il ++ [ch_lf])
                   (combine (seq 0 (List.length (s_lines s))) (s_lines s))).
Proof. exact prune_text. Qed.
Print Assumptions C11_prune_text.

(** Writing without replacements and loading again gives the same settings. *)
Theorem C11_write_reload : forall text s n,
  loadFile settings_init text = (s, n) ->
  loadFile settings_init (writeSettingsFile s []) = (s, n).
Proof. exact write_reload. Qed.
Print Assumptions C11_write_reload.

Example C11_nonvacuous : exists s n, loadFile settings_init (lit "elements H O" ++ [ch_lf] ++ lit "epochs 3") = (s, n)
  /\ s_contents s = [(lit "elements", (lit "H O", 0)); (lit "epochs", (lit "3", 1))].
Proof. eexists; eexists; split; vm_compute; reflexivity. Qed.
