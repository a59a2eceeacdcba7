From Coq Require Import List Ascii String Arith Lia NArith ZArith Reals Bool Lra.
From Verif Require Import Model.Strings Spec.StringSpec.
Import ListNotations.

Lemma ch_eqb_true a b : ch_eqb a b = true <-> a = b.
Proof. apply Ascii.eqb_eq. Qed.
Lemma ch_eqb_false a b : ch_eqb a b = false <-> a <> b.
Proof. apply Ascii.eqb_neq. Qed.
Lemma str_eqb_true a b : str_eqb a b = true <-> a = b.
Proof. unfold str_eqb. destruct (list_eq_dec ascii_dec a b); split; congruence. Qed.
Lemma str_eqb_refl a : str_eqb a a = true.
Proof. apply str_eqb_true; auto. Qed.
Lemma str_eqb_false a b : str_eqb a b = false <-> a <> b.
Proof. unfold str_eqb. destruct (list_eq_dec ascii_dec a b); split; congruence. Qed.

(** ** split *)

Lemma split_go_nodelim d w : ~ In d w -> forall acc rest,
  split_go d acc (w ++ rest) = split_go d (rev w ++ acc) rest.
Proof.
  induction w as [|c w IH]; intros H acc rest; simpl; auto.
  destruct (ch_eqb c d) eqn:E.
  - apply ch_eqb_true in E. subst. exfalso; apply H; left; auto.
  - rewrite IH by (intro; apply H; right; auto). rewrite <- app_assoc. reflexivity.
Qed.

Lemma split_join d ws : ws <> [] -> (forall w, In w ws -> ~ In d w) -> last ws [] <> [] ->
  split (join [d] ws) d = ws.
Proof.
  unfold split. induction ws as [|w ws IH]; intros Hne Hin Hl; [congruence|].
  destruct ws as [|w2 ws].
  - simpl in *. rewrite <- (app_nil_r w) at 1. rewrite split_go_nodelim by (apply Hin; auto).
    simpl. rewrite app_nil_r. destruct (rev w) eqn:E.
    + apply (f_equal (@rev ascii)) in E. rewrite rev_involutive in E. simpl in E. congruence.
    + rewrite <- E, rev_involutive. auto.
  - change (join [d] (w :: w2 :: ws)) with (w ++ [d] ++ join [d] (w2 :: ws)).
    rewrite split_go_nodelim by (apply Hin; left; auto).
    simpl ([d] ++ _). cbn [split_go]. rewrite (proj2 (ch_eqb_true d d) eq_refl).
    rewrite app_nil_r, rev_involutive. f_equal. apply IH.
    + discriminate.
    + intros; apply Hin; right; auto.
    + exact Hl.
Qed.

Lemma split_go_nil d acc s : split_go d acc s = [] -> acc = [] /\ s = [].
Proof.
  revert acc; induction s as [|c s IH]; intros acc; simpl.
  - destruct acc; [auto | discriminate].
  - destruct (ch_eqb c d); [discriminate|]. intros H. apply IH in H. destruct H. discriminate.
Qed.

Lemma join_cons_ne sep w ws : ws <> [] -> join sep (w :: ws) = w ++ sep ++ join sep ws.
Proof. destruct ws; simpl; congruence. Qed.

Lemma join_split_go d s : forall acc, 
  join [d] (split_go d acc s) = rev acc ++ s \/ join [d] (split_go d acc s) ++ [d] = rev acc ++ s.
Proof.
  induction s as [|c s IH]; intros acc; simpl.
  - left. destruct acc; simpl; rewrite ?app_nil_r; auto.
  - destruct (ch_eqb c d) eqn:E.
    + apply ch_eqb_true in E. subst c.
      destruct (split_go d [] s) as [|w ws] eqn:Es.
      * apply split_go_nil in Es. destruct Es as [_ ->]. simpl. right. reflexivity.
      * specialize (IH []). rewrite Es in IH. rewrite join_cons_ne by discriminate.
        simpl in IH. destruct IH as [IH | IH].
        -- left. f_equal. simpl. f_equal. exact IH.
        -- right. rewrite <- !app_assoc. f_equal. simpl. f_equal. exact IH.
    + specialize (IH (c :: acc)). simpl in IH. rewrite <- app_assoc in IH. exact IH.
Qed.

Lemma split_parts_nodelim d s : forall acc, ~ In d acc -> forall w, In w (split_go d acc s) -> ~ In d w.
Proof.
  induction s as [|c s IH]; intros acc Ha w.
  - destruct acc as [|a acc]; [simpl; tauto|].
    change (split_go d (a :: acc) []) with [rev (a :: acc)].
    intros [<- | []] H. apply in_rev in H. auto.
  - cbn [split_go]. destruct (ch_eqb c d) eqn:E.
    + intros [<- | H]; [rewrite <- in_rev; auto|]. apply (IH [] (fun f => f) w H).
    + apply IH. simpl. intros [H|H]; auto. subst. apply ch_eqb_false in E. congruence.
Qed.

(** ** words *)

Definition blankb (c : ascii) : bool := in_set ws_default c.
Lemma blankb_spec c : blankb c = true <-> blank c.
Proof.
  unfold blankb, in_set, ws_default, blank. simpl. rewrite !orb_true_iff, !ch_eqb_true.
  intuition discriminate.
Qed.
Lemma blankb_false c : blankb c = false <-> ~ blank c.
Proof. rewrite <- blankb_spec. destruct (blankb c); split; congruence. Qed.

Fixpoint words_go (acc s : str) : list str :=
  match s with
  | [] => match acc with [] => [] | _ => [rev acc] end
  | c :: s' => if blankb c
               then match acc with [] => words_go [] s' | _ => rev acc :: words_go [] s' end
               else words_go (c :: acc) s'
  end.
Definition words s := words_go [] s.

Lemma words_blank b : Forall blank b -> forall s, words_go [] (b ++ s) = words_go [] s.
Proof.
  induction 1; intros s; simpl; auto. rewrite (proj2 (blankb_spec x) H). auto.
Qed.
Lemma words_nonblank w : Forall (fun c => ~ blank c) w -> forall acc s,
  words_go acc (w ++ s) = words_go (rev w ++ acc) s.
Proof.
  induction 1; intros acc s; simpl; auto. rewrite (proj2 (blankb_false x) H).
  rewrite IHForall, <- app_assoc. reflexivity.
Qed.

Lemma is_words_words s ws : is_words s ws -> words s = ws.
Proof.
  unfold words. induction 1.
  - rewrite <- (app_nil_r s), words_blank; auto.
  - rewrite words_blank, words_nonblank, app_nil_r by auto.
    destruct (rev w) eqn:E.
    { apply (f_equal (@rev ascii)) in E. rewrite rev_involutive in E. simpl in E. congruence. }
    destruct rest as [|c rest]; simpl.
    + rewrite <- IHis_words. simpl. rewrite <- (rev_involutive w), E. reflexivity.
    + simpl in H2. rewrite (proj2 (blankb_spec c) H2).
      rewrite <- IHis_words. simpl. rewrite (proj2 (blankb_spec c) H2).
      rewrite <- (rev_involutive w), E. reflexivity.
Qed.

Lemma is_words_blank c s ws : blank c -> is_words s ws -> is_words (c :: s) ws.
Proof.
  intros Hc H. destruct H.
  - apply words_nil. constructor; auto.
  - change (c :: b ++ w ++ rest) with ((c :: b) ++ w ++ rest). apply words_cons; auto.
Qed.

Lemma words_is_words s : forall acc, Forall (fun c => ~ blank c) acc ->
  is_words (rev acc ++ s) (words_go acc s).
Proof.
  induction s as [|c s IH]; intros acc Ha; simpl.
  - destruct acc as [|a acc].
    + apply words_nil. constructor.
    + change (rev (a :: acc) ++ []) with ([] ++ rev (a :: acc) ++ []).
      apply words_cons; auto.
      * intros H. apply (f_equal (@List.length ascii)) in H. rewrite rev_length in H. discriminate.
      * apply Forall_rev; auto.
      * exact I.
      * apply words_nil. constructor.
  - destruct (blankb c) eqn:E.
    + apply blankb_spec in E. assert (H0 := IH [] (Forall_nil _)). simpl in H0.
      destruct acc as [|a acc].
      * apply is_words_blank; auto.
      * change (rev (a :: acc) ++ c :: s) with ([] ++ rev (a :: acc) ++ c :: s).
        apply words_cons; auto.
        -- intros H. apply (f_equal (@List.length ascii)) in H. rewrite rev_length in H. discriminate.
        -- apply Forall_rev; auto.
        -- apply is_words_blank; auto.
    + apply blankb_false in E. specialize (IH (c :: acc) ltac:(constructor; auto)).
      simpl in IH. rewrite <- app_assoc in IH. exact IH.
Qed.

Lemma is_words_iff s ws : is_words s ws <-> words s = ws.
Proof.
  split; [apply is_words_words|]. intros <-. apply (words_is_words s []). constructor.
Qed.

Lemma words_go_blank_tail b s : Forall blank b -> forall acc, words_go acc (s ++ b) = words_go acc s.
Proof.
  intros Hb. induction s as [|c s IH]; intros acc; simpl.
  - destruct b as [|c b]; auto. inversion Hb; subst. simpl.
    rewrite (proj2 (blankb_spec c) H1). 
    assert (words_go [] b = []) by (rewrite <- (app_nil_r b), words_blank; auto).
    rewrite H. destruct acc; auto.
  - destruct (blankb c); [destruct acc|]; rewrite ?IH; auto.
Qed.

(** ** find *)

Lemma find_from_skip p A B i pos : (i + List.length A <= pos)%nat ->
  find_from p (A ++ B) i pos = find_from p B (i + List.length A) pos.
Proof.
  revert i; induction A as [|a A IH]; intros i H; simpl in *.
  - f_equal; lia.
  - destruct (Nat.leb_spec pos i); [lia|]. simpl. rewrite IH by lia. f_equal; lia.
Qed.
Lemma find_from_none p A B i pos : Forall (fun c => p c = false) A ->
  find_from p (A ++ B) i pos = find_from p B (i + List.length A) pos.
Proof.
  intros H; revert i; induction H; intros i; simpl.
  - f_equal; lia.
  - rewrite H, andb_false_r. rewrite IHForall. f_equal; lia.
Qed.
Lemma find_from_hit p c B i pos : (pos <= i)%nat -> p c = true -> find_from p (c :: B) i pos = Some i.
Proof. intros H Hp. simpl. rewrite Hp. destruct (Nat.leb_spec pos i); [reflexivity | lia]. Qed.

Lemma nonblank_set w : Forall (fun c => ~ blank c) w -> Forall (fun c => in_set ws_default c = false) w.
Proof. intros H. eapply Forall_impl; [|exact H]. intros a Ha. apply (proj2 (blankb_false a) Ha). Qed.
Lemma blank_set b : Forall blank b -> Forall (fun c => negb (in_set ws_default c) = false) b.
Proof.
  intros H. eapply Forall_impl; [|exact H]. intros a Ha. apply (proj2 (blankb_spec a)) in Ha.
  unfold blankb in Ha. rewrite Ha. reflexivity.
Qed.

(** Shape of trimmed tails. *)
Definition ends_nonblank (s : str) : Prop := s = [] \/ exists s' c, s = s' ++ [c] /\ ~ blank c.

Lemma ends_nonblank_app a b : b <> [] -> ends_nonblank (a ++ b) -> ends_nonblank b.
Proof.
  intros Hb [H | (s' & c & H & Hc)].
  - apply app_eq_nil in H. left; tauto.
  - right. destruct (exists_last Hb) as [b' [x ->]]. exists b', x. split; auto.
    rewrite app_assoc in H. apply app_inj_tail in H. destruct H as [_ ->]. auto.
Qed.

Lemma ends_nonblank_not_all s : s <> [] -> ends_nonblank s -> ~ Forall blank s.
Proof.
  intros Hn [H | (s' & c & -> & Hc)] Hf; [congruence|].
  apply Forall_app in Hf. destruct Hf as [_ Hf]. inversion Hf; auto.
Qed.

Lemma reduce_loop_spec fill : forall ws fuel P w rest,
  (List.length rest < fuel)%nat ->
  w <> [] -> Forall (fun c => ~ blank c) w -> starts_blank rest ->
  is_words rest ws -> ends_nonblank (w ++ rest) ->
  reduce_loop fuel ws_default fill (P ++ w ++ rest)
     (find_first_of ws_default (P ++ w ++ rest) (List.length P)) =
  Some (P ++ join fill (w :: ws)).
Proof.
  induction ws as [|w2 ws IH]; intros fuel P w rest Hf Hw Hwn Hsb Hws He.
  - inversion Hws; subst.
    destruct rest as [|c rest].
    + rewrite app_nil_r. unfold find_first_of.
      rewrite find_from_skip by lia. simpl.
      rewrite <- (app_nil_r w) at 2. rewrite find_from_none by (apply nonblank_set; auto).
      simpl. destruct fuel; reflexivity.
    + exfalso. apply ends_nonblank_app in He; [|discriminate].
      apply (ends_nonblank_not_all (c :: rest)); auto. discriminate.
  - inversion Hws; subst.
    match goal with H : Forall blank ?x |- _ => rename x into b2; rename H into Hb2 end.
    destruct b2 as [|c b2].
    + exfalso. simpl in Hsb. destruct w2 as [|c w2]; [congruence|].
      match goal with H : Forall (fun c => ~ blank c) (c :: w2) |- _ => inversion H; subst end.
      auto.
    + assert (Hc : blank c) by (inversion Hb2; auto).
      assert (Hb2' : Forall blank b2) by (inversion Hb2; auto).
      set (rest2 := rest0) in *.
      assert (Ef : find_first_of ws_default (P ++ w ++ (c :: b2) ++ w2 ++ rest2) (List.length P)
                   = Some (List.length P + List.length w)%nat).
      { unfold find_first_of. rewrite find_from_skip by lia.
        rewrite find_from_none by (apply nonblank_set; auto).
        simpl app. rewrite find_from_hit; [f_equal; lia | lia | apply (proj2 (blankb_spec c) Hc)]. }
      rewrite Ef.
      destruct fuel as [|fuel]; [simpl in Hf; lia|].
      cbn [reduce_loop].
      assert (En : find_first_not_of ws_default (P ++ w ++ (c :: b2) ++ w2 ++ rest2) (List.length P + List.length w)
                   = Some (List.length P + List.length w + List.length (c :: b2))%nat).
      { unfold find_first_not_of. rewrite find_from_skip by lia.
        rewrite find_from_skip by lia.
        rewrite find_from_none by (apply blank_set; auto).
        destruct w2 as [|x w2]; [congruence|]. simpl app at 1.
        rewrite find_from_hit; [f_equal; lia | lia |].
        match goal with H : Forall (fun c => ~ blank c) (x :: w2) |- _ => inversion H; subst end.
        match goal with H : ~ blank x |- _ => apply blankb_false in H; unfold blankb in H; rewrite H end. reflexivity. }
      rewrite En. cbv zeta.
      replace (List.length P + List.length w + List.length (c :: b2) - (List.length P + List.length w))%nat
        with (List.length (c :: b2)) by lia.
      assert (Er : replace_at (P ++ w ++ (c :: b2) ++ w2 ++ rest2) (List.length P + List.length w) (List.length (c :: b2)) fill
                   = (P ++ w ++ fill) ++ w2 ++ rest2).
      { unfold replace_at.
        replace (List.length P + List.length w)%nat with (List.length (P ++ w)) by (rewrite app_length; lia).
        rewrite (app_assoc P w). rewrite firstn_app, Nat.sub_diag, firstn_all. simpl firstn. rewrite app_nil_r.
        rewrite (app_assoc (P ++ w) (c :: b2)).
        rewrite <- app_length. rewrite skipn_app, Nat.sub_diag, skipn_all. simpl skipn. simpl app at 3.
        rewrite <- !app_assoc. reflexivity. }
      rewrite Er.
      replace (List.length P + List.length w + List.length fill)%nat with (List.length (P ++ w ++ fill))
        by (rewrite !app_length; lia).
      rewrite (IH fuel (P ++ w ++ fill) w2 rest2); auto.
      * f_equal. rewrite (join_cons_ne fill w) by discriminate. rewrite <- !app_assoc. reflexivity.
      * simpl in Hf. rewrite !app_length in Hf. destruct w2; [congruence|]. simpl in Hf. lia.
      * apply ends_nonblank_app with (a := w ++ (c :: b2)).
        -- destruct w2; [congruence | discriminate].
        -- rewrite <- app_assoc. exact He.
Qed.

(** ** trim *)

Lemma find_last_app ws A : forall B i best,
  find_last_not_of_aux ws (A ++ B) i best =
  find_last_not_of_aux ws B (i + List.length A) (find_last_not_of_aux ws A i best).
Proof.
  induction A as [|a A IH]; intros B i best; simpl.
  - f_equal; lia.
  - rewrite IH. f_equal. lia.
Qed.
Lemma find_last_blank b : Forall blank b -> forall i best,
  find_last_not_of_aux ws_default b i best = best.
Proof.
  induction 1; intros i best; cbn [find_last_not_of_aux]; auto.
  assert (E := proj2 (blankb_spec x) H). unfold blankb in E. rewrite E. apply IHForall.
Qed.

Lemma decompose s : Forall blank s \/
  exists b w rest t, Forall blank b /\ w <> [] /\ Forall (fun c => ~ blank c) w /\
    starts_blank rest /\ Forall blank t /\ ends_nonblank (w ++ rest) /\
    s = b ++ (w ++ rest) ++ t.
Proof.
  (* strip trailing blanks first *)
  assert (Hs : exists core t, s = core ++ t /\ Forall blank t /\ ends_nonblank core).
  { induction s as [|x s IH] using rev_ind.
    - exists [], []. repeat split; auto. left; auto.
    - destruct (blankb x) eqn:E.
      + apply blankb_spec in E. destruct IH as (core & t & -> & Ht & Hc).
        exists core, (t ++ [x]). rewrite app_assoc. repeat split; auto. apply Forall_app; auto.
      + apply blankb_false in E. exists (s ++ [x]), []. rewrite app_nil_r. repeat split; auto.
        right. eauto. }
  destruct Hs as (core & t & -> & Ht & Hc).
  assert (Hw := words_is_words core [] (Forall_nil _)). simpl in Hw.
  inversion Hw; subst.
  - left. apply Forall_app; auto.
  - right. exists b, w, rest, t. repeat split; auto.
    + match goal with H : ends_nonblank (b ++ w ++ rest) |- _ => apply ends_nonblank_app in H; auto end.
      destruct w; [congruence | discriminate].
    + rewrite <- !app_assoc. reflexivity.
Qed.

Lemma trim_spec b w rest t : Forall blank b -> w <> [] -> Forall (fun c => ~ blank c) w ->
  Forall blank t -> ends_nonblank (w ++ rest) ->
  trim (b ++ (w ++ rest) ++ t) ws_default = w ++ rest.
Proof.
  intros Hb Hw Hwn Ht He. unfold trim, find_first_not_of.
  rewrite find_from_none by (apply blank_set; auto).
  destruct w as [|x w]; [congruence|].
  assert (E1 : find_from (fun c => negb (in_set ws_default c)) (((x :: w) ++ rest) ++ t)
                 (0 + List.length b) 0 = Some (List.length b)).
  { cbn [app]. rewrite find_from_hit; [f_equal; lia|lia|].
    inversion Hwn; subst.
    match goal with H : ~ blank x |- _ => apply blankb_false in H; unfold blankb in H; rewrite H end. reflexivity. }
  rewrite E1.
  unfold find_last_not_of.
  destruct He as [He | (s' & c & He & Hc)]; [discriminate|].
  rewrite He.
  assert (E2 : find_last_not_of_aux ws_default (b ++ (s' ++ [c]) ++ t) 0 None
               = Some (List.length b + List.length s')%nat).
  { rewrite find_last_app, find_last_app, find_last_blank by auto.
    rewrite find_last_app. cbn [find_last_not_of_aux].
    apply blankb_false in Hc. unfold blankb in Hc. rewrite Hc. f_equal. }
  rewrite E2. unfold substr.
  rewrite skipn_app, skipn_all, Nat.sub_diag. cbn [skipn app].
  replace (List.length b + List.length s' - List.length b + 1)%nat with (List.length (s' ++ [c]))
    by (rewrite app_length; simpl; lia).
  rewrite firstn_app, Nat.sub_diag, firstn_all. cbn [firstn]. rewrite app_nil_r. reflexivity.
Qed.

Lemma find_from_all_none p s i pos : Forall (fun c => p c = false) s -> find_from p s i pos = None.
Proof. intros H. rewrite <- (app_nil_r s). rewrite find_from_none by auto. reflexivity. Qed.

Lemma trim_blank s : Forall blank s -> trim s ws_default = [].
Proof.
  intros H. unfold trim, find_first_not_of. rewrite find_from_all_none by (apply blank_set; auto).
  reflexivity.
Qed.

Lemma words_core b w rest t : Forall blank b -> w <> [] -> Forall (fun c => ~ blank c) w ->
  starts_blank rest -> Forall blank t ->
  words (b ++ (w ++ rest) ++ t) = w :: words rest.
Proof.
  intros Hb Hw Hwn Hr Ht. unfold words. rewrite words_blank by auto.
  rewrite words_go_blank_tail by auto.
  assert (H : is_words ([] ++ w ++ rest) (w :: words rest)).
  { apply words_cons; auto. apply is_words_iff; auto. }
  apply is_words_iff in H. exact H.
Qed.

Lemma reduce_opt_words s : reduce_opt s ws_default fill_default = Some (join [ch_space] (words s)).
Proof.
  unfold reduce_opt. destruct (decompose s) as [H | (b & w & rest & t & Hb & Hw & Hwn & Hr & Ht & He & ->)].
  - rewrite trim_blank by auto. assert (E : words s = []) by (apply is_words_iff; apply words_nil; auto).
    rewrite E. reflexivity.
  - rewrite trim_spec by auto. cbv zeta.
    assert (A := reduce_loop_spec fill_default (words rest) (S (List.length (w ++ rest))) [] w rest).
    simpl app in A. simpl (List.length []) in A. rewrite A; auto.
    + rewrite words_core by auto. reflexivity.
    + rewrite app_length. lia.
    + apply is_words_iff; auto.
Qed.

Lemma reduce_words s : reduce s = join [ch_space] (words s).
Proof. unfold reduce. rewrite reduce_opt_words. reflexivity. Qed.

Lemma reduce_is_words s ws : is_words s ws -> reduce s = join [ch_space] ws.
Proof. intros H. apply is_words_iff in H. rewrite reduce_words, H. reflexivity. Qed.

Lemma words_nonempty s w : In w (words s) -> w <> [] /\ Forall (fun c => ~ blank c) w.
Proof.
  intros H. assert (Hw : is_words s (words s)) by (apply is_words_iff; auto).
  remember (words s) as ws. clear Heqws. induction Hw; simpl in H; [tauto|].
  destruct H as [<- | H]; auto.
Qed.

Lemma last_in {A} (l : list A) d : l <> [] -> In (last l d) l.
Proof.
  intros H. destruct (exists_last H) as [l' [x ->]]. rewrite last_last. apply in_or_app; right; left; auto.
Qed.

Lemma split_reduce s : split (reduce s) ch_space = words s.
Proof.
  rewrite reduce_words. destruct (words s) as [|w ws] eqn:E; [reflexivity|].
  assert (Hin : forall x, In x (w :: ws) -> x <> [] /\ Forall (fun c => ~ blank c) x).
  { intros x Hx. apply (words_nonempty s). rewrite E; auto. }
  apply split_join.
  - discriminate.
  - intros x Hx Hd. destruct (Hin x Hx) as [_ Hf]. rewrite Forall_forall in Hf.
    apply (Hf _ Hd). left; auto.
  - apply Hin. apply last_in. discriminate.
Qed.

Lemma words_join ws : (forall x, In x ws -> x <> [] /\ Forall (fun c => ~ blank c) x) ->
  is_words (join [ch_space] ws) ws.
Proof.
  induction ws as [|w ws IH]; intros Hin.
  - apply words_nil. constructor.
  - destruct (Hin w (or_introl eq_refl)) as [H1 H2].
    destruct ws as [|w2 ws].
    + simpl. rewrite <- (app_nil_r w) at 1. apply (words_cons [] w [] []); auto.
      * exact I.
      * apply words_nil. constructor.
    + rewrite join_cons_ne by discriminate.
      apply (words_cons [] w ([ch_space] ++ join [ch_space] (w2 :: ws)) (w2 :: ws)); auto.
      * left; reflexivity.
      * apply is_words_blank; [left; reflexivity|]. apply IH. intros; apply Hin; right; auto.
Qed.

Lemma words_of_reduce s : words (reduce s) = words s.
Proof.
  apply is_words_iff. rewrite reduce_words. apply words_join. intros; apply (words_nonempty s); auto.
Qed.

Lemma reduce_idempotent s : reduce (reduce s) = reduce s.
Proof. rewrite (reduce_words (reduce s)), words_of_reduce, <- reduce_words. reflexivity. Qed.

(** ** pow_int *)
Lemma pow_loop_spec : forall fuel m x result, (m < 2 ^ N.of_nat fuel)%N -> (0 < fuel)%nat ->
  pow_loop fuel m x result = Some (result * x ^ (N.to_nat m))%R.
Proof.
  induction fuel as [|k IH]; intros m x result Hm Hf; [lia|].
  cbn [pow_loop]. 
  assert (Ed : (N.to_nat m = N.to_nat (N.div2 m) + N.to_nat (N.div2 m) + (if N.odd m then 1 else 0))%nat).
  { destruct m as [|[p|p|]]; simpl; lia. }
  assert (Em : (if N.odd m then (result * x)%R else result) = (result * x ^ (if N.odd m then 1 else 0))%R)
    by (destruct (N.odd m); simpl; ring).
  destruct (N.eqb_spec (N.div2 m) 0) as [E0 | E0].
  - rewrite Em. f_equal. rewrite E0 in Ed. rewrite Ed. simpl. reflexivity.
  - rewrite IH.
    + rewrite Em. f_equal. rewrite Ed. rewrite !pow_add. rewrite Rpow_mult_distr. ring.
    + replace (N.of_nat (S k)) with (N.succ (N.of_nat k)) in Hm by lia.
      rewrite N.pow_succ_r' in Hm. rewrite N.div2_div. apply N.div_lt_upper_bound; lia.
    + destruct k; [|lia]. exfalso. apply E0.
      change (2 ^ N.of_nat 1)%N with 2%N in Hm. destruct m as [|[p|p|]]; simpl; auto; lia.
Qed.

Lemma pow_int_spec x n : (- 2 ^ 31 < n < 2 ^ 31)%Z -> (n < 0 -> x <> 0%R)%Z ->
  pow_int x n = Some (powerRZ x n).
Proof.
  intros Hn Hx. unfold pow_int.
  destruct (Z.ltb_spec n 0) as [Hneg | Hpos].
  - rewrite pow_loop_spec; [| | lia].
    + f_equal. rewrite Rmult_1_l. destruct n as [|p|p]; try lia.
      simpl. unfold Rdiv. rewrite Rmult_1_l. apply pow_inv.
    + change (2 ^ N.of_nat 32)%N with 4294967296%N. lia.
  - rewrite pow_loop_spec; [| | lia].
    + f_equal. rewrite Rmult_1_l. destruct n as [|p|p]; try lia; simpl; auto.
    + change (2 ^ N.of_nat 32)%N with 4294967296%N. lia.
Qed.

(** ** Summary lemmas used by the property file *)
Lemma words_exist_unique s : exists ! ws, is_words s ws.
Proof.
  exists (words s). split; [apply is_words_iff; auto|]. intros ws H. apply is_words_iff in H. auto.
Qed.
Lemma reduce_tokens s ws : is_words s ws ->
  reduce_opt s ws_default fill_default = Some (join [ch_space] ws) /\
  reduce s = join [ch_space] ws /\ is_words (reduce s) ws.
Proof.
  intros H. apply is_words_iff in H. subst ws. rewrite reduce_opt_words. split; auto.
  split; [apply reduce_words|]. apply is_words_iff, words_of_reduce.
Qed.
Lemma split_reduce_tokens s ws : is_words s ws -> split (reduce s) ch_space = ws.
Proof. intros H. apply is_words_iff in H. rewrite split_reduce. auto. Qed.
Lemma split_lossless s d :
  (join [d] (split s d) = s \/ join [d] (split s d) ++ [d] = s) /\
  (forall w, In w (split s d) -> ~ In d w).
Proof.
  split.
  - apply (join_split_go d s []).
  - intros w. apply (split_parts_nodelim d s []). simpl; auto.
Qed.

(** ** Padding *)
Lemma pad_shape s n c (b : bool) : exists p, (forall x, In x p -> x = c) /\
  pad s n c b = (if b then s ++ p else p ++ s) /\ List.length (pad s n c b) = Nat.max n (List.length s).
Proof.
  unfold pad. destruct (Nat.leb_spec n (List.length s)) as [H|H].
  - exists []. split; [intros x []|]. split; [destruct b; rewrite ?app_nil_r; reflexivity|lia].
  - exists (repeat c (n - List.length s)). split; [intros x Hx; now apply repeat_spec in Hx|]. split; [reflexivity|].
    destruct b; rewrite app_length, repeat_length; lia.
Qed.
