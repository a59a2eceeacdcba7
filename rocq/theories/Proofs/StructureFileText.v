(** Structure files: the text. *)
From Coq Require Import Reals Lra ZArith List Ascii String Bool Arith Lia.
From Verif Require Import Base.Vec3 Model.Strings Model.Printf Model.ElementMap Model.StructureFile
  Spec.StringSpec Spec.PrintfSpec Spec.StructureFileSpec Proofs.StringProofs Proofs.PrintfProofs.
From Coq Require Import List.
Import ListNotations.
Local Open Scope R_scope.

(** ** Words *)
Definition word (w : str) : Prop := w <> [] /\ Forall (fun c => ~ blank c) w.
Lemma fields_words w0 (l : list (str * str)) : word w0 -> (forall p, In p l -> Forall blank (fst p) /\ fst p <> [] /\ word (snd p)) ->
  is_words (w0 ++ List.concat (map (fun p => fst p ++ snd p) l)) (w0 :: map snd l).
Proof.
  revert w0. induction l as [|[b w] l IH]; intros w0 [H0 H1] Hl.
  - cbn [map List.concat]. rewrite app_nil_r. change w0 with ([] ++ w0) at 1. rewrite <- (app_nil_r w0) at 1.
    apply words_cons; auto; try constructor. constructor.
  - cbn [map List.concat fst snd]. destruct (Hl (b, w) (or_introl eq_refl)) as (A & B & Hw). cbn [fst snd] in *.
    assert (G := IH w Hw (fun p Hp => Hl p (or_intror Hp))).
    change (w0 ++ (b ++ w) ++ List.concat (map (fun p => fst p ++ snd p) l)) with ([] ++ w0 ++ (b ++ w) ++ List.concat (map (fun p => fst p ++ snd p) l)).
    apply words_cons; auto.
    + rewrite <- app_assoc. destruct b; [congruence|]. inversion A; subst. auto.
    + rewrite <- app_assoc. clear - A G. induction A; cbn; auto. now apply is_words_blank.
Qed.

Lemma digit_plain d : (0 <= d < 10)%Z -> ~ blank (digit d) /\ digit d <> ch_lf /\ digit d <> ch_nul.
Proof.
  intros Hd. assert (N := nat_of_digit d Hd). unfold blank. repeat split; [intros [E|E]|intros E|intros E]; rewrite E in N; cbn in N; lia.
Qed.
Definition plain (s : str) : Prop := Forall (fun c => ~ blank c /\ c <> ch_lf /\ c <> ch_nul) s.
Lemma plain_decimals k z : plain (decimals k z).
Proof. apply Forall_forall. intros c Hc. destruct (decimals_digits k z c Hc) as (d & Hd & ->). now apply digit_plain. Qed.
Ltac plain_lit := cbn; repeat constructor; try (intros [E|E]; discriminate E); discriminate.
Lemma plain_app a b : plain a -> plain b -> plain (a ++ b). Proof. intros; apply Forall_app; split; auto. Qed.
Lemma print_plain v : plain (print_E 16 v) /\ print_E 16 v <> [].
Proof.
  unfold print_E. destruct (sci 16 v) as [m e]. split.
  - apply plain_app; [destruct (Rlt_dec v 0); plain_lit|]. apply plain_app; [apply plain_decimals|]. apply plain_app; [plain_lit|].
    apply plain_app; [apply plain_decimals|]. apply plain_app; [plain_lit|].
    unfold exponent_text. apply plain_app; [|apply plain_decimals]. destruct (Z.ltb e 0); plain_lit.
  - intros E. apply (f_equal (@List.length _)) in E. rewrite !app_length, !decimals_length in E. cbn in E. lia.
Qed.
Lemma print_length v : (List.length (print_E 16 v) <= 24)%nat.
Proof.
  unfold print_E. destruct (sci 16 v) as [m e]. rewrite !app_length, !decimals_length. unfold exponent_text. rewrite app_length, decimals_length.
  destruct (Rlt_dec v 0); destruct (Z.ltb e 0); destruct (Z.ltb (Z.abs e) 100); cbn; lia.
Qed.
Lemma pad_left s n : exists b, Forall (fun c => c = ch_space) b /\ pad s n ch_space false = b ++ s /\ List.length (pad s n ch_space false) = Nat.max n (List.length s).
Proof.
  unfold pad. destruct (Nat.leb_spec n (List.length s)).
  - exists []. split; auto. split; auto. lia.
  - eexists. split; [|split; [reflexivity|]].
    + apply Forall_forall. intros c Hc. now apply repeat_spec in Hc.
    + rewrite app_length, repeat_length. lia.
Qed.
(** A field: at least one blank and a word. *)
Definition field (t : str) (w : str) : Prop := exists b, b <> [] /\ Forall (fun c => c = ch_space) b /\ t = b ++ w /\ plain w /\ w <> [].
Lemma number_field v : field (lit " " ++ fmt24 v) (print_E 16 v) /\ List.length (lit " " ++ fmt24 v) = 25%nat.
Proof.
  destruct (pad_left (print_E 16 v) 24) as (b & A & B & L). destruct (print_plain v). split.
  - exists (lit " " ++ b). split; [discriminate|]. split; [constructor; auto|]. split; [unfold fmt24; rewrite B; now rewrite app_assoc|auto].
  - rewrite app_length. unfold fmt24. rewrite L. assert (P := print_length v). change (List.length (lit " ")) with 1%nat. lia.
Qed.
Lemma fields_of w0 ts ws : plain w0 -> w0 <> [] -> Forall2 field ts ws ->
  words_of (w0 ++ List.concat ts) = w0 :: ws /\ ~ In ch_lf (w0 ++ List.concat ts).
Proof.
  intros H0 H1 F. split.
  - assert (exists l, ts = map (fun p => fst p ++ snd p) l /\ ws = map snd l /\ forall p, In p l -> Forall blank (fst p) /\ fst p <> [] /\ word (snd p)) as (l & -> & -> & Hl).
    { clear H0 H1. induction F as [|t w ts ws (b & Nb & Sb & -> & Pw & Nw) F (l & -> & -> & Hl)].
      - exists []. split; auto. split; auto. intros p [].
      - exists ((b, w) :: l). split; auto. split; auto. intros p [<-|Hp]; auto. cbn [fst snd]. split; [|split; auto].
        + eapply Forall_impl; [|exact Sb]. intros c ->. now left.
        + split; auto. eapply Forall_impl; [|exact Pw]. intros c Hc. apply Hc. }
    unfold words_of. apply split_reduce_tokens. apply fields_words; auto. split; auto. eapply Forall_impl; [|exact H0]. intros c Hc. apply Hc.
  - rewrite in_app_iff. intros [Hin|Hin].
    + unfold plain in H0. rewrite Forall_forall in H0. now apply H0 in Hin.
    + clear H0 H1. induction F as [|t w ts ws (b & Nb & Sb & -> & Pw & Nw) F IH]; cbn in Hin; auto. rewrite !in_app_iff in Hin.
      destruct Hin as [[Hin|Hin]|Hin]; auto.
      * rewrite Forall_forall in Sb. apply Sb in Hin. discriminate.
      * unfold plain in Pw. rewrite Forall_forall in Pw. now apply Pw in Hin.
Qed.
Lemma numbers_fields l : exists ts, numbers l = List.concat ts /\ Forall2 field ts (map (print_E 16) l) /\ List.length (numbers l) = (25 * List.length l)%nat.
Proof.
  exists (map (fun v => lit " " ++ fmt24 v) l). split; auto. unfold numbers. induction l as [|v l (F & L)].
  - split; [constructor|reflexivity].
  - cbn [map List.concat]. destruct (number_field v) as [A B]. split; [constructor; auto|]. rewrite app_length, B, L. cbn. lia.
Qed.

(** Known symbols. *)
Lemma known_plain s : In s known_elements -> plain s /\ s <> [] /\ (List.length s <= 2)%nat.
Proof.
  assert (G : forallb (fun s => (forallb (fun c => negb (ch_eqb c ch_space) && negb (ch_eqb c ch_tab) && negb (ch_eqb c ch_lf) && negb (ch_eqb c ch_nul)) s &&
    negb (Nat.eqb (List.length s) 0) && Nat.leb (List.length s) 2)%bool) known_elements = true) by (vm_compute; reflexivity).
  rewrite forallb_forall in G. intros Hs. apply G in Hs. apply andb_true_iff in Hs as [Hs L2]. apply andb_true_iff in Hs as [Hs L1].
  apply Nat.leb_le in L2. apply negb_true_iff, Nat.eqb_neq in L1. split; [|split; auto].
  - apply Forall_forall. rewrite forallb_forall in Hs. intros c Hc. apply Hs in Hc. rewrite !andb_true_iff, !negb_true_iff in Hc.
    destruct Hc as [[[A B] C] D]. apply ch_eqb_false in A, B, C, D. unfold blank. tauto.
  - intros ->. now apply L1.
Qed.
Lemma c_str_plain s : ~ In ch_nul s -> c_str s = s.
Proof.
  induction s as [|c s IH]; intros H; auto. cbn [c_str]. destruct (ch_eqb c ch_nul) eqn:E.
  - apply ch_eqb_true in E. exfalso. apply H. now left.
  - f_equal. apply IH. intros Hin. apply H. now right.
Qed.
Lemma symbol_field s : In s known_elements -> field (lit " " ++ fmt2s (c_str s)) s /\ (List.length (lit " " ++ fmt2s (c_str s)) = 3)%nat.
Proof.
  intros Hs. destruct (known_plain s Hs) as (A & B & L). rewrite c_str_plain.
  2:{ intros Hin. unfold plain in A. rewrite Forall_forall in A. now apply A in Hin. }
  destruct (pad_left s 2) as (b & C & D & E). split.
  - exists (lit " " ++ b). split; [discriminate|]. split; [constructor; auto|]. split; [unfold fmt2s; rewrite D; now rewrite app_assoc|auto].
  - rewrite app_length. unfold fmt2s. rewrite E. change (List.length (lit " ")) with 1%nat. lia.
Qed.

(** ** Lines *)
Lemma split_line l rest : ~ In ch_lf l -> Strings.split (l ++ [ch_lf] ++ rest) ch_lf = l :: Strings.split rest ch_lf.
Proof.
  intros H. unfold Strings.split. rewrite split_go_nodelim by auto. cbn [app split_go]. rewrite app_nil_r.
  replace (ch_eqb ch_lf ch_lf) with true by (symmetry; now apply ch_eqb_true). now rewrite rev_involutive.
Qed.
Lemma split_lines ls rest : (forall l, In l ls -> ~ In ch_lf l) ->
  Strings.split (List.concat (map (fun l => l ++ [ch_lf]) ls) ++ rest) ch_lf = ls ++ Strings.split rest ch_lf.
Proof.
  induction ls as [|l ls IH]; intros H; auto. cbn [map List.concat app]. rewrite <- !app_assoc, split_line by (apply H; now left).
  f_equal. apply IH. intros; apply H; now right.
Qed.
Lemma line_short l : (List.length l < 1023)%nat -> line l = Some (l ++ [ch_lf]).
Proof. intros H. unfold line, strpr. rewrite app_length. cbn [List.length]. destruct (Nat.ltb_spec (List.length l + 1) 1024); auto. lia. Qed.
Lemma column_width v : List.length (fmt24 v) = 24%nat.
Proof. destruct (number_field v) as [_ L]. rewrite app_length in L. cbn [lit List.length] in L. change (List.length (lit " ")) with 1%nat in L. lia. Qed.
