(** Normalization constants from training to later runs (C92): files which are rejected, examples. *)
From Coq Require Import Reals Lra ZArith List Ascii String Bool Arith Lia.
From Verif Require Import Base.AssocMap Model.Strings Model.Settings Model.Printf Model.SymLines Model.Normalization Model.NormalizationSetup
  Spec.StringSpec Spec.SettingsSpec Spec.PrintfSpec Spec.NormalizationSpec Spec.NormalizationSetupSpec
  Proofs.StringProofs Proofs.SettingsProofs Proofs.PrintfProofs Proofs.NormalizationFile Proofs.StructureFileText Proofs.NormalizationSetupProofs Proofs.NormalizationSetupMain.
From Coq Require Import List.
Import ListNotations.
Local Open Scope R_scope.

Lemma load_done text s : loadSettingsFile text = Done s -> s = mkSettings (readFile text) (parse_loop (readFile text) 0).
Proof.
  unfold loadSettingsFile. destruct (loadFile settings_init text) as [s1 n] eqn:E. apply load_inv in E as [-> ->].
  match goal with |- context [Nat.ltb ?a ?b] => destruct (Nat.ltb a b) end; [discriminate|]. intros H. now injection H as <-.
Qed.
(** Keywords in lines the program does not recognise: the header is added and the keyword is there twice. *)
Theorem unrecognised text s m e l k v : Forall regular_line (readFile text) -> loadSettingsFile text = Done s ->
  (forall line k', In line (readFile text) -> In k' [kME; kCE; kCL] -> ~ sets_keyword k' line) ->
  In k [kME; kCE; kCL] -> gives text k v -> loadSettingsFile (newInput m e l s) = Thrown.
Proof.
  intros Hreg Hload Hn Hk (line & Hl & Hv). apply load_done in Hload as ->. set (L := readFile text) in *.
  assert (R : forall x, In x L -> replacement (norm_line kME m) (norm_line kCE e) (norm_line kCL l) x = None).
  { intros x Hx. apply rep_none. intros k' Hk'. now apply Hn. }
  assert (W : writeNormalized (norm_line kME m) (norm_line kCE e) (norm_line kCL l) L =
              [hashes; lit "# DATA SET NORMALIZATION"; hashes; norm_line kME m; norm_line kCE e; norm_line kCL l; hashes; []] ++ L).
  { unfold writeNormalized.
    assert (F : forallb (fun x => match replacement (norm_line kME m) (norm_line kCE e) (norm_line kCL l) x with Some _ => false | None => true end) L = true).
    { apply forallb_forall. intros x Hx. now rewrite R. }
    rewrite F. f_equal. rewrite <- (map_id L) at 2. apply map_ext_in. intros x Hx. now rewrite R. }
  assert (RN : readFile (newInput m e l (mkSettings L (parse_loop L 0))) = [hashes; lit "# DATA SET NORMALIZATION"; hashes; norm_line kME m; norm_line kCE e; norm_line kCL l; hashes; []] ++ L).
  { rewrite newInput_lines. cbn [s_lines]. rewrite W. apply SettingsProofs.split_lines. apply Forall_app. split; [|apply read_no_lf].
    repeat constructor; try (apply ent_line; cbn; auto); try (unfold hashes; intros H; apply repeat_spec in H; discriminate);
      cbn; intros H; repeat (destruct H as [H|H]; [discriminate|]); exact H. }
  unfold loadSettingsFile. destruct (loadFile settings_init (newInput m e l (mkSettings L (parse_loop L 0)))) as [s1 n] eqn:E. apply load_inv in E as [-> ->]. rewrite RN. cbn [s_contents].
  match goal with |- context [parse_loop ?x 0] => set (L' := x) end.
  destruct (Nat.ltb_spec 0 (snd (sanityCheck (parse_loop L' 0)))) as [X|X]; [reflexivity|exfalso].
  assert (Z0 : snd (sanityCheck (parse_loop L' 0)) = 0%nat) by lia. apply sanity_iff in Z0 as [A _].
  assert (T : (2 <= tally k (map fst (parse_loop L' 0)))%nat).
  { rewrite <- keys_kv, kv_loop. unfold L'. rewrite flat_map_app. cbn [flat_map].
    rewrite (proj1 (ent_line kME m ltac:(cbn; auto))), (proj1 (ent_line kCE e ltac:(cbn; auto))), (proj1 (ent_line kCL l ltac:(cbn; auto))).
    change (ent hashes) with (@None (str * str)). change (ent (lit "# DATA SET NORMALIZATION")) with (@None (str * str)). change (ent []) with (@None (str * str)). cbn [opt app].
    change (2 <= tally k (map fst ([(kME, print_E 16 m); (kCE, print_E 16 e); (kCL, print_E 16 l)] ++ flat_map (fun x => opt (ent x)) L)))%nat. rewrite map_app, tally_app.
    assert (T1 : (1 <= tally k (map fst [(kME, print_E 16 m); (kCE, print_E 16 e); (kCL, print_E 16 l)]))%nat) by (destruct Hk as [<-|[<-|[<-|[]]]]; cbn; lia).
    assert (T2 : (1 <= tally k (map fst (flat_map (fun x => opt (ent x)) L)))%nat).
    { assert (I : In k (map fst (flat_map (fun x => opt (ent x)) L))).
      { apply in_map_iff. exists (k, v). split; [reflexivity|]. apply in_flat_map. exists line. split; [exact Hl|].
        rewrite (proj2 (ent_entry line k v (proj1 (Forall_forall _ _) Hreg line Hl)) Hv). now left. }
      revert I. clear. induction (map fst (flat_map (fun x => opt (ent x)) L)) as [|y c IH]; [intros []|]. intros [->|I]; cbn [tally]; [rewrite str_eqb_refl; lia|]. specialize (IH I). lia. }
    cbn [map fst] in *. lia. }
  destruct (key_props k Hk) as (_ & _ & _ & Sp). specialize (A k [k] Sp).
  assert (NR : ~ In k repeat_exceptions) by (destruct Hk as [<-|[<-|[<-|[]]]]; vm_compute; intuition discriminate). specialize (A NR). lia.
Qed.
(** Only some of the keywords: the new file is accepted but its use is an error. *)
Lemma incomplete : exists text s, Forall regular_line (readFile text) /\ loadSettingsFile text = Done s /\ well_placed text /\
  forall m e l, exists s', loadSettingsFile (newInput m e l s) = Done s' /\ setupNormalization s' norm_init = Thrown.
Proof.
  exists (lit "mean_energy 3"). eexists. split; [|split; [vm_compute; reflexivity|split]].
  - repeat (constructor; [split; [vm_compute; intuition discriminate|]|]); try constructor;
      intros c Hc Hw; pose proof (code_part_unique _ _ _ (cut_code _) Hc) as E; vm_compute in E; subst c; vm_compute; intuition discriminate.
  - intros line k v Hl Hk He. destruct Hl as [<-|[]]. destruct (sets_ent kME (lit "mean_energy 3")) as (w & Hw); [cbn; auto|right; exists (lit "3"); reflexivity|].
    assert (X : ent (lit "mean_energy 3") = Some (k, v)).
    { apply ent_entry; [|exact He]. split; [vm_compute; intuition discriminate|]. intros c Hc Hw'. pose proof (code_part_unique _ _ _ (cut_code _) Hc) as E. vm_compute in E. subst c. vm_compute; intuition discriminate. }
    rewrite X in Hw. injection Hw as -> _. right. exists (lit "3"). reflexivity.
  - intros m e l. set (s := mkSettings _ _).
    assert (RN : readFile (newInput m e l s) = [norm_line kME m]).
    { rewrite newInput_lines. cbn [s s_lines]. 
      match goal with |- context [writeNormalized ?a ?b ?c ?d] => change (writeNormalized a b c d) with [a] end.
      apply SettingsProofs.split_lines. constructor; [apply ent_line; cbn; auto|constructor]. }
    assert (K : kv (parse_loop [norm_line kME m] 0) = [(kME, print_E 16 m)]).
    { rewrite kv_loop. cbn [flat_map]. rewrite (proj1 (ent_line kME m ltac:(cbn; auto))). reflexivity. }
    exists (mkSettings [norm_line kME m] (parse_loop [norm_line kME m] 0)). split.
    + unfold loadSettingsFile. destruct (loadFile settings_init (newInput m e l s)) as [s1 n] eqn:E. apply load_inv in E as [-> ->]. rewrite RN. cbn [s_contents].
      assert (Z0 : snd (sanityCheck (parse_loop [norm_line kME m] 0)) = 0%nat).
      { apply sanity_iff. rewrite <- keys_kv, K. cbn [map fst]. split.
        - intros k g _ _. cbn [tally]. destruct (str_eqb k kME); lia.
        - intros k g a b _ _ _ Hab [[<-|[]] [<-|[]]]. congruence. }
      rewrite Z0. reflexivity.
    + unfold setupNormalization. fold kME kCE kCL kCQ. rewrite !unique_exists by (apply four; cbn; tauto). cbn [s_contents].
      assert (Y : forall k, c_has k (parse_loop [norm_line kME m] 0) = true <-> k = kME).
      { intros k. rewrite has_keys, <- keys_kv, K. cbn. intuition. }
      assert (Y1 : c_has kME (parse_loop [norm_line kME m] 0) = true) by now apply Y.
      assert (Y2 : c_has kCE (parse_loop [norm_line kME m] 0) = false) by (destruct (c_has kCE (parse_loop [norm_line kME m] 0)) eqn:Q; [apply Y in Q; discriminate|reflexivity]).
      rewrite Y1, Y2. cbn [throwing bindo andb negb]. reflexivity.
Qed.

(** ** Examples *)
Ltac regular_tac := repeat (constructor; [split; [vm_compute; intuition discriminate|]|]); try constructor;
  intros c Hc Hw; pose proof (code_part_unique _ _ _ (cut_code _) Hc) as E; vm_compute in E; subst c; vm_compute; intuition discriminate.
Definition plain_text : str := lit "elements H # one element" ++ [ch_lf] ++ lit "epochs 10".
Definition old_text : str := lit "conv_length 2 # old" ++ [ch_lf] ++ lit "elements H" ++ [ch_lf] ++ lit "mean_energy 3" ++ [ch_lf] ++ lit "conv_charge 2" ++ [ch_lf] ++ lit "conv_energy  1".
Definition indented_text : str := lit "  mean_energy 3" ++ [ch_lf] ++ lit "  conv_energy 1" ++ [ch_lf] ++ lit "  conv_length 2".
Lemma gives_ent text k v : Forall regular_line (readFile text) -> (gives text k v <-> In (k, v) (kv (parse_loop (readFile text) 0))).
Proof.
  intros H. rewrite in_kv_loop. split; intros (x & Hx & Hy); exists x; (split; [exact Hx|]); apply (ent_entry x k v (proj1 (Forall_forall _ _) H x Hx)); exact Hy.
Qed.
Lemma plain_ok : Forall regular_line (readFile plain_text) /\ (exists s, loadSettingsFile plain_text = Done s) /\ well_placed plain_text /\
  (forall k v, In k [kME; kCE; kCL] -> ~ gives plain_text k v).
Proof.
  assert (R : Forall regular_line (readFile plain_text)) by regular_tac.
  assert (N : forall k v, In k [kME; kCE; kCL] -> ~ gives plain_text k v).
  { intros k v Hk H. apply gives_ent in H; [|exact R]. vm_compute in H. destruct Hk as [<-|[<-|[<-|[]]]]; intuition discriminate. }
  split; [exact R|]. split; [eexists; vm_compute; reflexivity|]. split; [|exact N].
  intros line k v Hl Hk He. exfalso. apply (N k v Hk). exists line. auto.
Qed.
Lemma old_ok : Forall regular_line (readFile old_text) /\ (exists s, loadSettingsFile old_text = Done s) /\ well_placed old_text /\
  (forall k, In k [kME; kCE; kCL] -> exists v, gives old_text k v) /\ gives old_text kCQ (lit "2").
Proof.
  assert (R : Forall regular_line (readFile old_text)) by regular_tac.
  split; [exact R|]. split; [eexists; vm_compute; reflexivity|]. split; [|split].
  - intros line k v Hl Hk He. apply (ent_entry line k v (proj1 (Forall_forall _ _) R line Hl)) in He.
    repeat (destruct Hl as [<-|Hl]; [vm_compute in He; injection He as <- <-; destruct Hk as [Hk|[Hk|[Hk|[]]]]; try discriminate Hk; right; eexists; vm_compute; reflexivity|]). destruct Hl.
  - intros k [<-|[<-|[<-|[]]]]; [exists (lit "3")|exists (lit "1")|exists (lit "2")]; apply gives_ent; try exact R; vm_compute; tauto.
  - apply gives_ent; [exact R|]. vm_compute. tauto.
Qed.
Lemma indented_ok : Forall regular_line (readFile indented_text) /\ (exists s, loadSettingsFile indented_text = Done s) /\
  (forall line k, In line (readFile indented_text) -> In k [kME; kCE; kCL] -> ~ sets_keyword k line) /\
  (forall k, In k [kME; kCE; kCL] -> exists v, gives indented_text k v).
Proof.
  assert (R : Forall regular_line (readFile indented_text)) by regular_tac.
  split; [exact R|]. split; [eexists; vm_compute; reflexivity|]. split.
  - intros line k Hl Hk [H|[r H]]; repeat (destruct Hl as [<-|Hl]; [destruct Hk as [<-|[<-|[<-|[]]]]; discriminate H|]); destruct Hl.
  - intros k [<-|[<-|[<-|[]]]]; [exists (lit "3")|exists (lit "1")|exists (lit "2")]; apply gives_ent; try exact R; vm_compute; tauto.
Qed.
Theorem indented_rejected : exists text s v, Forall regular_line (readFile text) /\ loadSettingsFile text = Done s /\ gives text kME v /\
  (exists n, setupNormalization s norm_init = Done n /\ nm_use n = true) /\ forall m e l, loadSettingsFile (newInput m e l s) = Thrown.
Proof.
  destruct indented_ok as (R & (s & Hs) & N & G). exists indented_text, s, (lit "3"). split; [exact R|]. split; [exact Hs|].
  assert (G1 : gives indented_text kME (lit "3")) by (apply gives_ent; [exact R|]; vm_compute; tauto).
  split; [exact G1|]. split.
  - assert (X := setup_spec s norm_init). assert (Es := load_done _ _ Hs).
    assert (O : forall k, In k [kME; kCE; kCL] -> occurs k (s_contents s)).
    { intros k Hk. destruct (G k Hk) as (v & Hv). apply gives_ent in Hv; [|exact R]. apply c_has_occurs. apply has_keys. rewrite Es. cbn [s_contents]. rewrite <- keys_kv. apply in_map_iff. exists (k, v). auto. }
    destruct (setupNormalization s norm_init) as [n| |].
    + exists n. split; [reflexivity|]. destruct X as [X|(X & _)]; [apply X|]. exfalso. apply (X kME); [cbn; auto|]. apply O. cbn; auto.
    + exfalso. destruct X as (_ & k & Hk & Hn). apply Hn. now apply O.
    + destruct X.
  - intros m e l. eapply unrecognised; eauto. cbn; auto.
Qed.
