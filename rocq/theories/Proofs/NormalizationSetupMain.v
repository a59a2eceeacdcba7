(** Normalization constants from training to later runs (C92): round trip. *)
From Coq Require Import Reals Lra ZArith List Ascii String Bool Arith Lia.
From Verif Require Import Base.AssocMap Model.Strings Model.Settings Model.Printf Model.SymLines Model.Normalization Model.NormalizationSetup
  Spec.StringSpec Spec.SettingsSpec Spec.PrintfSpec Spec.NormalizationSpec Spec.NormalizationSetupSpec
  Proofs.StringProofs Proofs.SettingsProofs Proofs.PrintfProofs Proofs.NormalizationFile Proofs.StructureFileText Proofs.NormalizationSetupProofs.
From Coq Require Import List.
Import ListNotations.
Local Open Scope R_scope.

Definition three : list str := [kME; kCE; kCL].
(** A line which sets the keyword in the sense of the program has an entry. *)
Lemma sets_ent k l : In k three -> sets_keyword k l -> exists v, ent l = Some (k, v).
Proof.
  intros Hk Hs. destruct (key_props k Hk) as (N & P & E & _).
  assert (W : forall r, starts_blank r -> is_words (k ++ r) (k :: words r)).
  { intros r Hr. change (k ++ r) with ([] ++ k ++ r). refine (words_cons [] k r (words r) (Forall_nil _) E _ Hr _); [eapply Forall_impl; [|exact P]; intros c Hc; apply Hc|now apply is_words_iff]. }
  assert (C : forall r, l = k ++ r -> starts_blank (cut_at ch_bang (cut_at ch_hash r)) -> exists v, ent l = Some (k, v)).
  { intros r -> Hb. unfold ent. rewrite parse_line_code.
    - rewrite cut_app by apply N. rewrite cut_app by apply N. erewrite parse_code_words by (apply W; exact Hb). cbn [option_map fst snd]. eauto.
    - intros X. destruct Hk as [<-|[<-|[<-|[]]]]; discriminate X. }
  destruct Hs as [->|[rest ->]].
  - apply (C []); [now rewrite app_nil_r|exact Logic.I].
  - apply (C (ch_space :: rest)); [reflexivity|]. cbn. now left.
Qed.
Lemma ent_entry l k v : regular_line l -> (ent l = Some (k, v) <-> line_entry l k v).
Proof.
  intros Hr. assert (X := parse_line_spec l 0 (k, (v, 0%nat)) Hr). rewrite ent_index in X. split; intros H.
  - rewrite H in X. cbn [option_map fst snd] in X. destruct (proj1 X eq_refl) as (k' & v' & E & L). now injection E as -> ->.
  - assert (Y := proj2 X (ex_intro _ k (ex_intro _ v (conj eq_refl H)))). destruct (ent l) as [[a b]|]; [|discriminate]. cbn in Y. now injection Y as -> ->.
Qed.
Lemma in_kv_loop ls k v : In (k, v) (kv (parse_loop ls 0)) <-> exists l, In l ls /\ ent l = Some (k, v).
Proof.
  rewrite kv_loop, in_flat_map. split; intros (l & Hl & H); exists l; (split; [exact Hl|]).
  - destruct (ent l) as [p|]; [|destruct H]. destruct H as [->|[]]. reflexivity.
  - rewrite H. now left.
Qed.

Section Round.
Variables (text : str) (s : settings) (m e l : R).
Hypothesis Hreg : Forall regular_line (readFile text).
Hypothesis Hload : loadSettingsFile text = Done s.
Hypothesis Hplaced : well_placed text.
Hypothesis Hall : (forall k, In k three -> exists v, gives text k v) \/ (forall k v, In k three -> ~ gives text k v).
Hypotheses (Dm : double m) (De : double e) (Dl : double l).

Let L := readFile text.
Lemma s_eq : s = mkSettings L (parse_loop L 0) /\ snd (sanityCheck (s_contents s)) = 0%nat.
Proof.
  unfold loadSettingsFile in Hload. destruct (loadFile settings_init text) as [s1 n] eqn:E. apply load_inv in E as [-> ->].
  destruct (Nat.ltb_spec 0 (snd (sanityCheck (s_contents (mkSettings (readFile text) (parse_loop (readFile text) 0)))))) as [X|X]; [discriminate|].
  injection Hload as <-. split; [reflexivity|]. cbn [s_contents] in *. lia.
Qed.
Let n1 := norm_line kME m.
Let n2 := norm_line kCE e.
Let n3 := norm_line kCL l.
Let new (x : str) : str := match replacement n1 n2 n3 x with Some r => r | None => x end.
Let f (p : str * str) : str * str :=
  (fst p, if str_eqb (fst p) kME then print_E 16 m else if str_eqb (fst p) kCE then print_E 16 e else if str_eqb (fst p) kCL then print_E 16 l else snd p).

Lemma in_three_dec k : In k three \/ ~ In k three.
Proof. destruct (in_dec (list_eq_dec ascii_dec) k three); auto. Qed.
Lemma f_other k v : ~ In k three -> f (k, v) = (k, v).
Proof.
  intros H. unfold f. cbn [fst snd]. destruct (str_eqb k kME) eqn:A; [apply str_eqb_true in A; subst; exfalso; apply H; cbn; auto|].
  destruct (str_eqb k kCE) eqn:B; [apply str_eqb_true in B; subst; exfalso; apply H; cbn; auto|].
  destruct (str_eqb k kCL) eqn:C; [apply str_eqb_true in C; subst; exfalso; apply H; cbn; auto|]. reflexivity.
Qed.
Lemma replaced_cases x : (exists k, In k three /\ sets_keyword k x /\ ent (new x) = Some (f (k, [])) /\ new x = norm_line k (if str_eqb k kME then m else if str_eqb k kCE then e else l) /\ replacement n1 n2 n3 x <> None) \/
  ((forall k, In k three -> ~ sets_keyword k x) /\ new x = x /\ replacement n1 n2 n3 x = None).
Proof.
  unfold new.
  assert (D : forall k, In k three -> sets_keyword k x \/ ~ sets_keyword k x).
  { intros k Hk. assert (X := firstWord_keyword k x (proj1 (keyword_ok k Hk)) (proj2 (keyword_ok k Hk))). rewrite <- X.
    destruct (firstWord x) as [w|]; [|right; discriminate]. destruct (list_eq_dec ascii_dec w k) as [->|Hn]; [now left|right; congruence]. }
  assert (I1 : In kME three) by (cbn; auto). assert (I2 : In kCE three) by (cbn; auto). assert (I3 : In kCL three) by (cbn; auto).
  destruct (D kME I1) as [S1|S1]; [left; exists kME; rewrite (rep_me n1 n2 n3 x S1)|
  destruct (D kCE I2) as [S2|S2]; [left; exists kCE; rewrite (rep_ce n1 n2 n3 x S2)|
  destruct (D kCL I3) as [S3|S3]; [left; exists kCL; rewrite (rep_cl n1 n2 n3 x S3)|right]]].
  - repeat (split; [first [assumption|apply (ent_line kME m I1)|reflexivity]|]). discriminate.
  - repeat (split; [first [assumption|apply (ent_line kCE e I2)|reflexivity]|]). discriminate.
  - repeat (split; [first [assumption|apply (ent_line kCL l I3)|reflexivity]|]). discriminate.
  - assert (N : forall k, In k [kME; kCE; kCL] -> ~ sets_keyword k x) by (intros k [<-|[<-|[<-|[]]]]; assumption).
    split; [exact N|]. now rewrite (rep_none n1 n2 n3 x N).
Qed.
Lemma ent_new x : In x L -> ent (new x) = option_map f (ent x).
Proof.
  intros Hx. assert (R : regular_line x) by exact (proj1 (Forall_forall _ _) Hreg x Hx).
  destruct (replaced_cases x) as [(k & Hk & Hs & -> & _)|(Hn & -> & _)].
  - destruct (sets_ent k x Hk Hs) as (v & ->). cbn [option_map]. f_equal. unfold f. cbn [fst snd]. f_equal.
    destruct Hk as [<-|[<-|[<-|[]]]]; reflexivity.
  - destruct (ent x) as [[k v]|] eqn:E; [|reflexivity]. cbn [option_map]. rewrite f_other; [reflexivity|].
    intros Hk. apply (Hn k Hk). apply (Hplaced x k v Hx Hk). now apply ent_entry.
Qed.
Definition header : list (str * str) := [(kME, print_E 16 m); (kCE, print_E 16 e); (kCL, print_E 16 l)].
Let L' := writeNormalized n1 n2 n3 L.
Lemma given_kv k : In k three -> ((exists v, gives text k v) <-> In k (map fst (kv (parse_loop L 0)))).
Proof.
  intros Hk. rewrite in_map_iff. split.
  - intros (v & x & Hx & Hl). exists (k, v). split; [reflexivity|]. apply in_kv_loop. exists x. split; [exact Hx|]. apply ent_entry; auto. exact (proj1 (Forall_forall _ _) Hreg x Hx).
  - intros ([k' v] & <- & H). apply in_kv_loop in H as (x & Hx & H). exists v, x. split; [exact Hx|]. apply ent_entry; auto. exact (proj1 (Forall_forall _ _) Hreg x Hx).
Qed.
Lemma kv_new : kv (parse_loop L' 0) = (if in_dec (list_eq_dec ascii_dec) kME (map fst (kv (parse_loop L 0))) then [] else header) ++ map f (kv (parse_loop L 0)).
Proof.
  assert (B : flat_map (fun x => opt (ent x)) (map new L) = map f (kv (parse_loop L 0))).
  { rewrite kv_loop. assert (X : forall x, In x L -> ent (new x) = option_map f (ent x)) by exact ent_new. clear - X. induction L as [|x K IH]; [reflexivity|].
    cbn [map flat_map]. rewrite map_app, <- IH by (intros; apply X; now right). rewrite X by now left. destruct (ent x); reflexivity. }
  rewrite kv_loop. unfold L', writeNormalized. fold new. destruct (in_dec (list_eq_dec ascii_dec) kME (map fst (kv (parse_loop L 0)))) as [Hin|Hin].
  - assert (F : forallb (fun x => match replacement n1 n2 n3 x with Some _ => false | None => true end) L = false).
    { apply (given_kv kME) in Hin; [|cbn; auto]. destruct Hin as (v & x & Hx & Hl).
      assert (Hs := Hplaced x kME v Hx (or_introl eq_refl) Hl). destruct (forallb _ L) eqn:F; [|reflexivity]. rewrite forallb_forall in F.
      specialize (F x Hx). cbn beta in F. rewrite (rep_me n1 n2 n3 x Hs) in F. discriminate. }
    rewrite F. exact B.
  - assert (F : forallb (fun x => match replacement n1 n2 n3 x with Some _ => false | None => true end) L = true).
    { apply forallb_forall. intros x Hx. destruct (replaced_cases x) as [(k & Hk & Hs & _)|(_ & _ & ->)]; [|reflexivity]. exfalso.
      destruct Hall as [A|A].
      - apply Hin. apply (given_kv kME); [cbn; auto|]. apply A. cbn; auto.
      - destruct (sets_ent k x Hk Hs) as (v & Hv). apply (A k v Hk). exists x. split; [exact Hx|]. apply ent_entry; auto. exact (proj1 (Forall_forall _ _) Hreg x Hx). }
    rewrite F. rewrite flat_map_app. f_equal; [|exact B]. unfold n1, n2, n3. cbn [flat_map app].
    rewrite (proj1 (ent_line kME m ltac:(cbn; auto))), (proj1 (ent_line kCE e ltac:(cbn; auto))), (proj1 (ent_line kCL l ltac:(cbn; auto))). reflexivity.
Qed.
Lemma no_lf : Forall (fun x => ~ In ch_lf x) L'.
Proof.
  assert (B : Forall (fun x => ~ In ch_lf x) (map new L)).
  { apply Forall_forall. intros y Hy. apply in_map_iff in Hy as (x & <- & Hx). destruct (replaced_cases x) as [(k & Hk & _ & _ & -> & _)|(_ & -> & _)].
    - now apply ent_line.
    - exact (proj1 (Forall_forall _ _) (read_no_lf text) x Hx). }
  unfold L', writeNormalized. fold new. destruct (forallb _ L); [|exact B]. apply Forall_app. split; [|exact B].
  repeat constructor; try (apply ent_line; cbn; auto); try (unfold hashes; intros H; apply repeat_spec in H; discriminate);
    cbn; intros H; repeat (destruct H as [H|H]; [discriminate|]); exact H.
Qed.
Lemma read_new : readFile (newInput m e l s) = L'.
Proof. rewrite newInput_lines. destruct s_eq as [-> _]. cbn [s_lines]. apply SettingsProofs.split_lines. exact no_lf. Qed.

Lemma keys_f c : map fst (map f c) = map fst c.
Proof. rewrite map_map. reflexivity. Qed.
Lemma tally_app k a b : tally k (a ++ b) = (tally k a + tally k b)%nat.
Proof. induction a; cbn; auto. rewrite IHa. lia. Qed.
Lemma single_spelling : forallb (fun p => forallb (fun k => implb (mem k (snd p)) (Nat.eqb (List.length (snd p)) 1)) three) knownKeywords = true.
Proof. vm_compute. reflexivity. Qed.
Lemma sane_new : snd (sanityCheck (parse_loop L' 0)) = 0%nat.
Proof.
  destruct s_eq as [Es S0]. rewrite Es in S0. cbn [s_contents] in S0. apply sanity_iff in S0 as [A B]. apply sanity_iff.
  rewrite <- keys_kv in A, B. rewrite <- keys_kv, kv_new, map_app, keys_f.
  destruct (in_dec (list_eq_dec ascii_dec) kME (map fst (kv (parse_loop L 0)))) as [Hin|Hin]; [cbn [map app]; auto|].
  assert (Nk : forall k, In k three -> ~ In k (map fst (kv (parse_loop L 0)))).
  { intros k Hk Hi. apply (given_kv k Hk) in Hi as (v & Hv). destruct Hall as [X|X]; [|exact (X k v Hk Hv)]. apply Hin. apply (given_kv kME); [cbn; auto|]. apply X. cbn; auto. }
  split.
  - intros k g Hs Hr. rewrite tally_app. destruct (in_three_dec k) as [Hk|Hk].
    + rewrite (tally_none k _ (Nk k Hk)). destruct Hk as [<-|[<-|[<-|[]]]]; cbn; lia.
    + rewrite (tally_none k (map fst header)); [exact (A k g Hs Hr)|]. exact Hk.
  - intros k g a b Hs Ha Hb Hab [Xa Xb]. assert (T := single_spelling). rewrite forallb_forall in T. specialize (T (k, g) (proj1 (spellings_in k g) Hs)). cbn [snd] in T.
    rewrite forallb_forall in T.
    assert (One : forall c, In c g -> In c three -> False).
    { intros c Hc H3. specialize (T c H3). cbn beta in T. rewrite (proj2 (mem_true c g) Hc) in T. cbn [implb] in T. apply Nat.eqb_eq in T.
      destruct g as [|x [|y g]]; try discriminate. destruct Ha as [<-|[]], Hb as [<-|[]]. congruence. }
    apply in_app_iff in Xa as [Xa|Xa]; [apply (One a Ha); exact Xa|]. apply in_app_iff in Xb as [Xb|Xb]; [apply (One b Hb); exact Xb|]. exact (B k g a b Hs Ha Hb Hab (conj Xa Xb)).
Qed.

Let s' := mkSettings L' (parse_loop L' 0).
Lemma load_new : loadSettingsFile (newInput m e l s) = Done s'.
Proof.
  unfold loadSettingsFile. destruct (loadFile settings_init (newInput m e l s)) as [s1 n] eqn:E. apply load_inv in E as [-> ->]. rewrite read_new. cbn [s_contents].
  rewrite sane_new. reflexivity.
Qed.
Lemma mget_f k c v : mget str_eqb k (map f c) = Some v <-> exists w, mget str_eqb k c = Some w /\ v = snd (f (k, w)).
Proof.
  induction c as [|[k' w'] c IH]; cbn [map mget]; [split; [discriminate|intros (w & X & _); discriminate]|].
  unfold f at 1. cbn [fst snd]. destruct (str_eqb k k') eqn:E; [|exact IH]. apply str_eqb_true in E. subst k'. split.
  - intros H. injection H as <-. exists w'. split; reflexivity.
  - intros (w & H & ->). injection H as ->. reflexivity.
Qed.
Lemma has_some k (c : list (str * str)) : In k (map fst c) -> exists w, mget str_eqb k c = Some w.
Proof.
  induction c as [|[k' w'] c IH]; [intros []|]. intros H. cbn [mget]. destruct (str_eqb k k') eqn:E; [eauto|]. apply IH. destruct H as [H|H]; [|exact H].
  cbn in H. subst. rewrite str_eqb_refl in E. discriminate.
Qed.
Lemma value_new k : In k three -> option_map fst (c_find k (s_contents s')) = Some (snd (f (k, []))).
Proof.
  intros Hk. rewrite find_kv. cbn [s' s_contents]. rewrite kv_new. destruct (in_dec (list_eq_dec ascii_dec) kME (map fst (kv (parse_loop L 0)))) as [Hin|Hin].
  - cbn [app]. assert (Hk' : In k (map fst (kv (parse_loop L 0)))).
    { apply given_kv; auto. apply (given_kv kME) in Hin as (v & Hv); [|cbn; auto]. destruct Hall as [X|X]; [auto|]. exfalso. apply (X kME v); cbn; auto. }
    destruct (has_some _ _ Hk') as (w & Hw). apply mget_f. exists w. split; auto. destruct Hk as [<-|[<-|[<-|[]]]]; reflexivity.
  - destruct Hk as [<-|[<-|[<-|[]]]]; reflexivity.
Qed.
Lemma others_new : other_settings s' = other_settings s.
Proof.
  destruct s_eq as [Es _].
  assert (G : forall c, map (fun x : str * (str * nat) => (fst x, fst (snd x))) (filter (fun x => negb (mem (fst x) [kME; kCE; kCL])) c) = filter (fun p => negb (mem (fst p) [kME; kCE; kCL])) (kv c)).
  { induction c as [|[k [v i]] c IH]; [reflexivity|]. cbn [kv map filter fst snd]. destruct (negb _); cbn [map fst snd]; [f_equal|]; exact IH. }
  unfold other_settings. rewrite !G, Es. cbn [s' s_contents]. rewrite kv_new, filter_app.
  assert (H0 : filter (fun p : str * str => negb (mem (fst p) [kME; kCE; kCL])) (if in_dec (list_eq_dec ascii_dec) kME (map fst (kv (parse_loop L 0))) then [] else header) = []).
  { destruct (in_dec (list_eq_dec ascii_dec) kME (map fst (kv (parse_loop L 0)))); reflexivity. }
  rewrite H0. cbn [app]. clear H0. induction (kv (parse_loop L 0)) as [|[k v] c IH]; [reflexivity|]. cbn [map filter]. change (fst (f (k, v))) with k. cbn [fst].
  destruct (mem k [kME; kCE; kCL]) eqn:M; cbn [negb]; [exact IH|]. rewrite IH. f_equal. apply f_other. intros X. apply mem_true in X. unfold three in X. congruence.
Qed.
Lemma find_other k : ~ In k three -> option_map fst (c_find k (s_contents s')) = option_map fst (c_find k (s_contents s)).
Proof.
  intros Hk. destruct s_eq as [-> _]. rewrite !find_kv. cbn [s' s_contents]. rewrite kv_new.
  assert (X : mget str_eqb k (map f (kv (parse_loop L 0))) = mget str_eqb k (kv (parse_loop L 0))).
  { induction (kv (parse_loop L 0)) as [|[k' w] c IH]; [reflexivity|]. cbn [map mget]. change (f (k', w)) with (fst (f (k', w)), snd (f (k', w))). change (fst (f (k', w))) with k'.
    cbn [mget]. destruct (str_eqb k k') eqn:E; [|exact IH]. apply str_eqb_true in E. subst k'. now rewrite f_other. }
  destruct (in_dec (list_eq_dec ascii_dec) kME (map fst (kv (parse_loop L 0)))); [exact X|]. unfold header. cbn [app mget].
  destruct (str_eqb k kME) eqn:A; [apply str_eqb_true in A; subst; exfalso; apply Hk; cbn; auto|].
  destruct (str_eqb k kCE) eqn:B; [apply str_eqb_true in B; subst; exfalso; apply Hk; cbn; auto|].
  destruct (str_eqb k kCL) eqn:C; [apply str_eqb_true in C; subst; exfalso; apply Hk; cbn; auto|]. exact X.
Qed.

Theorem round_trip : exists s'' n, loadSettingsFile (newInput m e l s) = Done s'' /\ setupNormalization s'' norm_init = Done n /\
  nm_use n = true /\ nm_mean n = m /\ nm_cE n = e /\ nm_cL n = l /\ charge_factor s 1 (nm_cQ n) /\ other_settings s'' = other_settings s.
Proof.
  assert (V1 := value_new kME ltac:(cbn; auto)). assert (V2 := value_new kCE ltac:(cbn; auto)). assert (V3 := value_new kCL ltac:(cbn; auto)).
  assert (V4 := find_other kCQ ltac:(cbn; intros [H|[H|[H|[]]]]; discriminate)).
  change (snd (f (kME, []))) with (print_E 16 m) in V1. change (snd (f (kCE, []))) with (print_E 16 e) in V2. change (snd (f (kCL, []))) with (print_E 16 l) in V3.
  assert (H1 : forall k w, option_map fst (c_find k (s_contents s')) = Some w -> c_has k (s_contents s') = true).
  { intros k w. unfold c_has. destruct (c_find k (s_contents s')); [reflexivity|discriminate]. }
  exists s'. unfold setupNormalization. fold kME kCE kCL kCQ.
  rewrite !unique_exists by (apply four; cbn; tauto). rewrite !unique_value by (apply four; cbn; tauto). cbn [throwing bindo].
  rewrite (H1 _ _ V1), (H1 _ _ V2), (H1 _ _ V3), V1, V2, V3. cbn [andb throwing bindo]. unfold c_has. rewrite V4.
  destruct (c_find kCQ (s_contents s')) as [[w i]|] eqn:E4; cbn [option_map] in V4.
  - destruct (c_find kCQ (s_contents s)) as [[w' i']|] eqn:E5; [|discriminate]. cbn [option_map fst] in *. injection V4 as ->. cbn [throwing bindo].
    eexists. split; [exact load_new|]. split; [reflexivity|]. cbn [nm_use nm_mean nm_cE nm_cL nm_cQ]. split; [reflexivity|].
    split; [now apply read_back_exact|]. split; [now apply read_back_exact|]. split; [now apply read_back_exact|]. split; [|exact others_new].
    left. exists w'. split; [eapply c_find_first; eauto|reflexivity].
  - destruct (c_find kCQ (s_contents s)) as [[w' i']|] eqn:E5; [discriminate|].
    eexists. split; [exact load_new|]. split; [reflexivity|]. cbn [nm_use nm_mean nm_cE nm_cL nm_cQ norm_init]. split; [reflexivity|].
    split; [now apply read_back_exact|]. split; [now apply read_back_exact|]. split; [now apply read_back_exact|]. split; [|exact others_new].
    right. split; [|reflexivity]. apply c_has_none. unfold c_has. now rewrite E5.
Qed.
End Round.
