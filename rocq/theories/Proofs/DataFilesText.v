(** Data files: integers as text, headers, lines. *)
From Coq Require Import Reals Lra ZArith Ascii String Bool Arith Lia.
From Coq Require Import List.
From Verif Require Import Base.AssocMap Model.Strings Model.Printf Model.Settings Model.Scaling Model.SymLines Model.StructureFile
  Model.NeuralNetwork Model.DataFiles Spec.StringSpec Spec.ScalingSpec Spec.PrintfSpec Spec.DataFilesSpec
  Proofs.StringProofs Proofs.PrintfProofs Proofs.StructureFileText Proofs.SymLineProofs Proofs.NetworkSetupProofs.
Import ListNotations.
Local Open Scope R_scope.

(** ** Integers *)
Lemma digit_count_spec fuel : forall z, (0 <= z < 2 ^ Z.of_nat (S fuel))%Z ->
  (z < 10 ^ Z.of_nat (digit_count fuel z))%Z /\ (0 < digit_count fuel z <= S fuel)%nat /\ (10 <= z -> 10 ^ Z.of_nat (digit_count fuel z - 1) <= z)%Z.
Proof.
  induction fuel as [|k IH]; intros z Hz.
  - cbn [digit_count]. change (2 ^ Z.of_nat 1)%Z with 2%Z in Hz. change (10 ^ Z.of_nat 1)%Z with 10%Z. repeat split; lia.
  - cbn [digit_count]. destruct (Z.ltb_spec z 10) as [H|H].
    + change (10 ^ Z.of_nat 1)%Z with 10%Z. repeat split; lia.
    + rewrite (Nat2Z.inj_succ (S k)), Z.pow_succ_r in Hz by lia.
      assert (D : (0 <= z / 10)%Z) by (apply Z.div_pos; lia).
      assert (D' : (z / 10 < 2 ^ Z.of_nat (S k))%Z) by (apply Z.div_lt_upper_bound; lia).
      destruct (IH (z / 10)%Z (conj D D')) as (A & B & C).
      assert (E := Z.div_mod z 10 ltac:(lia)). assert (M := Z.mod_pos_bound z 10 ltac:(lia)).
      split; [|split].
      * rewrite Nat2Z.inj_succ, Z.pow_succ_r by lia. lia.
      * lia.
      * intros _. replace (S (digit_count k (z / 10)) - 1)%nat with (digit_count k (z / 10)) by lia.
        destruct (Z.lt_ge_cases (z / 10) 10) as [L|L].
        -- destruct k as [|k]; cbn [digit_count]; [change (10 ^ Z.of_nat 1)%Z with 10%Z; lia|].
           destruct (Z.ltb_spec (z / 10) 10); [change (10 ^ Z.of_nat 1)%Z with 10%Z; lia|lia].
        -- replace (Z.of_nat (digit_count k (z / 10))) with (Z.succ (Z.of_nat (digit_count k (z / 10) - 1))) by lia.
           rewrite Z.pow_succ_r by lia. specialize (C L). lia.
Qed.
Definition fits (n : nat) : Prop := (Z.of_nat n < 2 ^ 31)%Z.
Lemma digits_of n : exists k, print_d n = decimals k (Z.of_nat n) /\ (Z.of_nat n < 10 ^ Z.of_nat k)%Z /\ (0 < k)%nat /\ (fits n -> (k <= 10)%nat).
Proof.
  unfold print_d. set (f := Z.to_nat (Z.log2 (Z.of_nat n))). exists (digit_count f (Z.of_nat n)).
  assert (R : (0 <= Z.of_nat n < 2 ^ Z.of_nat (S f))%Z).
  { split; [lia|]. unfold f. rewrite Nat2Z.inj_succ, Z2Nat.id by apply Z.log2_nonneg.
    destruct n as [|m]; [cbn; lia|]. apply Z.log2_spec. lia. }
  destruct (digit_count_spec f (Z.of_nat n) R) as (A & B & C). split; auto. split; auto. split; [lia|].
  intros F. unfold fits in F. destruct (Z.lt_ge_cases (Z.of_nat n) 10) as [L|L].
  - destruct f as [|f']; cbn [digit_count]; [lia|]. destruct (Z.ltb_spec (Z.of_nat n) 10); lia.
  - specialize (C L). destruct (le_lt_dec (digit_count f (Z.of_nat n)) 10) as [|G]; auto. exfalso.
    assert (10 ^ 10 <= 10 ^ Z.of_nat (digit_count f (Z.of_nat n) - 1))%Z by (apply Z.pow_le_mono_r; lia).
    assert (2 ^ 31 < 10 ^ 10)%Z by reflexivity. lia.
Qed.
Lemma print_d_plain n : plain (print_d n) /\ print_d n <> [] /\ (fits n -> (List.length (print_d n) <= 10)%nat).
Proof.
  destruct (digits_of n) as (k & -> & _ & Hk & F). split; [apply plain_decimals|]. split.
  - intros E. apply (f_equal (@List.length _)) in E. rewrite decimals_length in E. cbn in E. lia.
  - now rewrite decimals_length.
Qed.
Lemma atoi_print n : fits n -> atoi (print_d n) = Done (Z.of_nat n).
Proof.
  intros F. destruct (digits_of n) as (k & -> & L & Hk & _). unfold atoi.
  destruct k as [|k]; [lia|].
  assert (exists d s, decimals (S k) (Z.of_nat n) = digit d :: s /\ (0 <= d < 10)%Z) as (d & s & E & D).
  { destruct (decimals (S k) (Z.of_nat n)) as [|c s] eqn:E.
    - apply (f_equal (@List.length _)) in E. rewrite decimals_length in E. discriminate.
    - destruct (decimals_digits (S k) (Z.of_nat n) c) as (d & D & ->); [rewrite E; now left|]. eauto. }
  destruct (digit_not_sign d s D) as [A B]. rewrite E, B, A, <- E.
  rewrite <- (app_nil_r (decimals (S k) (Z.of_nat n))), scan_decimals by (auto; lia).
  rewrite Z.mod_small by lia. cbn [Z.mul Z.add]. replace (in_int (Z.of_nat n)) with true; auto.
  symmetry. unfold in_int. unfold fits in F. destruct (Z.leb_spec (- 2 ^ 31) (Z.of_nat n)); [|lia]. destruct (Z.ltb_spec (Z.of_nat n) (2 ^ 31)); [auto|lia].
Qed.
Lemma fmt_d_field w n : (w < 100)%nat -> field (lit " " ++ fmt_d w n) (print_d n) /\ (fits n -> (List.length (fmt_d w n) <= 100)%nat).
Proof.
  intros Hw. destruct (pad_left (print_d n) w) as (b & A & B & L). destruct (print_d_plain n) as (P & N & F). split.
  - exists (lit " " ++ b). split; [discriminate|]. split; [constructor; auto|]. split; [unfold fmt_d; rewrite B; now rewrite app_assoc|auto].
  - intros Fn. unfold fmt_d. rewrite L. specialize (F Fn). lia.
Qed.

(** Lines whose first word may be preceded by blanks. *)
Lemma padded_fields b w0 ts ws : Forall (fun c => c = ch_space) b -> plain w0 -> w0 <> [] -> Forall2 field ts ws ->
  words_of (b ++ w0 ++ List.concat ts) = w0 :: ws /\ ~ In ch_lf (b ++ w0 ++ List.concat ts).
Proof.
  intros Hb P N F. destruct (fields_of w0 ts ws P N F) as [A B]. split.
  - rewrite <- A. unfold words_of.
    assert (W : is_words (w0 ++ List.concat ts) (w0 :: ws)).
    { apply is_words_iff. rewrite <- A. unfold words_of. symmetry. apply split_reduce_tokens. apply is_words_iff. reflexivity. }
    rewrite (split_reduce_tokens _ _ W). apply split_reduce_tokens. clear - Hb W. induction Hb as [|c b E Hb IH]; auto. cbn. apply is_words_blank; auto. now left.
  - rewrite in_app_iff. intros [H|H]; auto. rewrite Forall_forall in Hb. apply Hb in H. discriminate.
Qed.

(** ** Headers *)
Definition comment_text (c : ascii) (t : str) : Prop := exists r, t = (c :: r) ++ [ch_lf] /\ ~ In ch_lf (c :: r).
Lemma no_lf_app a b : ~ In ch_lf a -> ~ In ch_lf b -> ~ In ch_lf (a ++ b). Proof. intros A B H. apply in_app_iff in H. tauto. Qed.
Lemma no_lf_repeat c n : c <> ch_lf -> ~ In ch_lf (repeat c n). Proof. intros H I. apply repeat_spec in I. congruence. Qed.
Lemma no_lf_pad s n b : ~ In ch_lf s -> ~ In ch_lf (pad s n ch_space b).
Proof. intros H. unfold pad. destruct (Nat.leb _ _); auto. destruct b; apply no_lf_app; auto; now apply no_lf_repeat. Qed.
Lemma no_lf_plain s : plain s -> ~ In ch_lf s. Proof. intros H I. unfold plain in H. rewrite Forall_forall in H. apply H in I. tauto. Qed.
Lemma no_lf_print_d n : ~ In ch_lf (print_d n). Proof. apply no_lf_plain, print_d_plain. Qed.
Lemma no_lf_concat ls : (forall l, In l ls -> ~ In ch_lf l) -> ~ In ch_lf (List.concat ls).
Proof. intros H I. apply in_concat in I as (l & A & B). now apply (H l). Qed.
Lemma no_lf_nth i l : (forall s, In s l -> ~ In ch_lf s) -> ~ In ch_lf (nth i l []).
Proof. intros H. destruct (nth_in_or_default i l []) as [I| ->]; auto. Qed.
Lemma no_lf_firstn n s : ~ In ch_lf s -> ~ In ch_lf (firstn n s).
Proof. intros H I. apply H. rewrite <- (firstn_skipn n s), in_app_iff. now left. Qed.
Lemma sep_comment c n : c <> ch_lf -> (0 < n)%nat -> comment_text c (sep_line c n).
Proof. intros Hc Hn. destruct n as [|n]; [lia|]. exists (repeat c n). split; auto. intros [->|I]; auto. revert I. now apply no_lf_repeat. Qed.
Lemma fold_width l : forall w, (w + List.length l <= fold_left (fun w n => w + n + 1) l w)%nat.
Proof. induction l as [|n l IH]; intros w; cbn [fold_left List.length]; [lia|]. specialize (IH (w + n + 1)%nat). lia. Qed.
Lemma fold_width_pos l w : (exists n, In n l /\ (0 < n)%nat) -> (w + List.length l < fold_left (fun w n => w + n + 1) l w)%nat.
Proof.
  revert w. induction l as [|n l IH]; intros w (m & I & P); cbn [fold_left List.length]; [easy|]. destruct I as [->|I].
  - assert (F := fold_width l (w + m + 1)). lia.
  - specialize (IH (w + n + 1)%nat). specialize (IH (ex_intro _ m (conj I P))). lia.
Qed.
Lemma header_comments title sizes names infos c h : c <> ch_lf ->
  (forall t, In t (title ++ names ++ infos) -> ~ In ch_lf t) -> (exists n, In n sizes /\ (0 < n)%nat) ->
  createFileHeader title sizes names infos c = Done h -> forall t, In t h -> comment_text c t.
Proof.
  intros Hc Hl Hs E t Ht. unfold createFileHeader in E.
  destruct (negb _); [discriminate E|]. destruct (Nat.eqb _ _) eqn:E0; [discriminate E|]. apply Nat.eqb_neq in E0.
  apply done_inj in E. subst h.
  assert (Ht' : forall x, In x title -> ~ In ch_lf x) by (intros; apply Hl; apply in_app_iff; now left).
  assert (Hn : forall x, In x names -> ~ In ch_lf x) by (intros; apply Hl; rewrite !in_app_iff; right; now left).
  assert (Hi : forall x, In x infos -> ~ In ch_lf x) by (intros; apply Hl; rewrite !in_app_iff; right; now right).
  assert (Sp : forall r, ~ In ch_lf r -> comment_text c (header_start c ++ r ++ [ch_lf])).
  { intros r Hr. exists (ch_space :: r). split; auto. cbn. intros [?|[D|?]]; try tauto. discriminate D. }
  assert (W := fold_width_pos sizes 0 Hs).
  rewrite !in_app_iff in Ht. destruct Ht as [Ht|[Ht|[Ht|[Ht|Ht]]]].
  - destruct Ht as [<-|[]]. apply sep_comment; auto. lia.
  - apply in_map_iff in Ht as (x & <- & Ix). apply Sp. auto.
  - destruct Ht as [<-|[<-|[<-|[]]]]; try (apply sep_comment; auto; lia).
    match goal with |- comment_text c ?X => replace X with (header_start c ++ (pad (lit "Col") 4 ch_space true ++ lit " " ++ pad (lit "Name") (max_width names) ch_space true ++ lit " Description") ++ [ch_lf]) by (now rewrite <- !app_assoc) end.
    apply Sp. repeat apply no_lf_app; try apply no_lf_pad; intros I; repeat (destruct I as [D|I]; [discriminate D|]); destruct I.
  - apply in_map_iff in Ht as (i & <- & Ii).
    match goal with |- comment_text c ?X => replace X with (header_start c ++ (pad (print_d (i + 1)) 4 ch_space true ++ lit " " ++ pad (nth i names []) (max_width names) ch_space true ++ lit " " ++ nth i infos []) ++ [ch_lf]) by (now rewrite <- !app_assoc) end.
    apply Sp. assert (Bl : ~ In ch_lf (lit " ")) by (intros [D|[]]; discriminate D).
    repeat apply no_lf_app; auto; try apply no_lf_pad; try apply no_lf_print_d; apply no_lf_nth; auto.
  - assert (Bl : ~ In ch_lf (lit " ")) by (intros [D|[]]; discriminate D).
    destruct Ht as [<-|[<-|[<-|[<-|[]]]]].
    + apply sep_comment; auto. destruct (Nat.ltb _ _) eqn:L80; [apply Nat.ltb_lt in L80|]; lia.
    + eexists. rewrite app_assoc. split; [reflexivity|]. intros [->|I]; [now apply Hc|]. revert I. apply no_lf_concat. intros l Il.
      apply in_map_iff in Il as (i & <- & _). apply no_lf_app; auto. apply no_lf_pad, no_lf_print_d.
    + eexists. rewrite app_assoc. split; [reflexivity|]. intros [->|I]; [now apply Hc|]. revert I. apply no_lf_concat. intros l Il.
      apply in_map_iff in Il as (i & <- & _). apply no_lf_app; auto. apply no_lf_pad, no_lf_firstn, no_lf_nth. auto.
    + apply sep_comment; auto. lia.
Qed.

(** A list of comment texts is a file of comment lines. *)
Lemma comments_file h : (forall t, In t h -> comment_text ch_hash t) -> exists ls, appendLines h = file_of ls /\
  (forall l, In l ls -> one_line l /\ comment_line l).
Proof.
  induction h as [|t h IH]; intros H; [exists []; split; auto; intros l []|].
  destruct IH as (ls & E & Hls); [intros; apply H; now right|]. destruct (H t (or_introl eq_refl)) as (r & -> & N).
  exists ((ch_hash :: r) :: ls). split.
  - unfold appendLines, file_of in *. cbn [List.concat map]. now rewrite E.
  - intros l [<-|I]; auto. split; auto. exists r. reflexivity.
Qed.
Lemma file_of_app a b : file_of (a ++ b) = file_of a ++ file_of b.
Proof. unfold file_of. now rewrite map_app, concat_app. Qed.
Lemma split_file ls : (forall l, In l ls -> one_line l) -> Strings.split (file_of ls) ch_lf = ls.
Proof. intros H. unfold file_of. rewrite <- (app_nil_r (List.concat _)), split_lines by auto. apply app_nil_r. Qed.
