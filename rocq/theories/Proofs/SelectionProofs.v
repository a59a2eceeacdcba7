From Coq Require Import List Arith Reals Lra Bool Lia Permutation.
From Verif Require Import Model.SymFunctions Model.Selection Spec.SelectionSpec Proofs.SymEval.
Import ListNotations.

Lemma mod_next a n : 0 < n -> a < n -> (S a) mod n = if Nat.eqb (S a) n then 0 else S a.
Proof. intros. destruct (Nat.eqb_spec (S a) n) as [E|E]; [rewrite E; apply Nat.mod_same; lia|apply Nat.mod_small; lia]. Qed.
Lemma wrap_mod p n : 0 < n -> p <= n -> (if Nat.leb n p then 0 else p) = p mod n.
Proof. intros. destruct (Nat.leb_spec n p). - assert (p = n) by lia. subst. now rewrite Nat.mod_same by lia. - now rewrite Nat.mod_small. Qed.

Lemma setCandPos_length k n l : length (setCandPos k n l) = length l.
Proof. unfold setCandPos. rewrite <- (firstn_skipn k l) at 3. rewrite !app_length. f_equal. destruct (skipn k l); reflexivity. Qed.
Lemma setCandPos_nth k n l i : nth_error (setCandPos k n l) i =
  if Nat.eqb i k then match nth_error l k with Some c => Some (mkCand (c_s c) (c_error c) n (c_subs c)) | None => None end else nth_error l i.
Proof.
  unfold setCandPos. revert k i. induction l as [|c l IH]; intros k i.
  - rewrite firstn_nil, skipn_nil. cbn. destruct i, k; cbn; auto; destruct (Nat.eqb _ _); auto.
  - destruct k as [|k].
    + cbn. destruct i; reflexivity.
    + cbn [firstn skipn app]. destruct i as [|i]; [reflexivity|]. cbn [nth_error Nat.eqb]. apply IH.
Qed.
Lemma setCandPos_places k n l : map places (setCandPos k n l) = map places l.
Proof. unfold setCandPos. rewrite <- (firstn_skipn k l) at 3. rewrite !map_app. f_equal. destruct (skipn k l); reflexivity. Qed.

(** Two property states that differ in positions only. *)
Definition alike (u u' : prop) : Prop :=
  u_mode u' = u_mode u /\ u_threshold u' = u_threshold u /\ u_trials u' = u_trials u /\ u_numGrouped u' = u_numGrouped u /\ u_countGrouped u' = u_countGrouped u /\
  length (u_cands u') = length (u_cands u) /\
  forall k c, nth_error (u_cands u) k = Some c -> exists n, nth_error (u_cands u') k = Some (mkCand (c_s c) (c_error c) n (c_subs c)).
Lemma alike_refl u : alike u u.
Proof. repeat split; auto. intros k c H. exists (c_posSub c). rewrite H. now destruct c. Qed.
Lemma alike_trans u v w : alike u v -> alike v w -> alike u w.
Proof.
  intros (A1 & A2 & A3 & A4 & A5 & A6 & A7) (B1 & B2 & B3 & B4 & B5 & B6 & B7). repeat split; try congruence.
  intros k c H. destruct (A7 k c H) as [n Hn]. destruct (B7 k _ Hn) as [m Hm]. exists m. exact Hm.
Qed.
Lemma alike_places u u' : alike u u' -> same_places (u_cands u) (u_cands u').
Proof.
  intros (_ & _ & _ & _ & _ & L & H). unfold same_places. generalize dependent (u_cands u'). generalize (u_cands u). clear.
  induction l as [|c l IH]; intros l' L H; destruct l' as [|c' l']; try discriminate; [reflexivity|]. cbn. f_equal.
  - destruct (H 0 c eq_refl) as [n Hn]. cbn in Hn. injection Hn as ->. reflexivity.
  - apply IH; [cbn in L; lia|]. intros k x Hx. destruct (H (S k) x Hx) as [n Hn]. exists n. exact Hn.
Qed.
Lemma alike_error frac u u' ks : (forall o, position_free (fun c => frac c o)) -> alike u u' -> error_at frac u' ks = error_at frac u ks.
Proof.
  intros F (_ & _ & _ & _ & _ & L & H). unfold error_at. destruct (nth_error (u_cands u) (fst ks)) as [c|] eqn:E.
  - destruct (H _ _ E) as [n ->]. cbn [c_subs]. apply F.
  - apply nth_error_None in E. rewrite <- L in E. apply nth_error_None in E. now rewrite E.
Qed.
Lemma alike_setPos p u : alike u (setPos p u).
Proof. repeat split; auto. intros k c H. exists (c_posSub c). cbn. rewrite H. now destruct c. Qed.
Lemma alike_setCandPos k n u : alike u (setCands (setCandPos k n (u_cands u)) u).
Proof.
  repeat split; auto. { cbn. apply setCandPos_length. } intros i c H. cbn. rewrite setCandPos_nth.
  destruct (Nat.eqb_spec i k) as [E|E]; [subst; rewrite H; eauto|]. exists (c_posSub c). rewrite H. now destruct c.
Qed.

Section Sel.
Variable useSub : bool.

(** One trial: what is picked, and the state after the position has been incremented. *)
Lemma ready_nth u : ready useSub u -> forall k, k < length (u_cands u) -> exists c, nth_error (u_cands u) k = Some c /\ c_posSub c <= length (c_subs c) /\ (useSub = true -> 0 < length (c_subs c)).
Proof.
  intros (H1 & H2 & H3) k Hk. destruct (nth_error (u_cands u) k) as [c|] eqn:E; [|apply nth_error_None in E; lia].
  exists c. split; auto. apply H3. eapply nth_error_In; eauto.
Qed.
Lemma pick_spec u : ready useSub u ->
  exists u1, pick useSub u = Some (u1, fst (tried useSub u 0), snd (tried useSub u 0), logged useSub (tried useSub u 0)) /\ alike u u1 /\
  u_pos u1 = u_pos u mod length (u_cands u) /\
  (forall i c, nth_error (u_cands u) i = Some c -> nth_error (u_cands u1) i = Some (if Nat.eqb i (u_pos u mod length (u_cands u)) then mkCand (c_s c) (c_error c) (if Nat.leb (length (c_subs c)) (c_posSub c) then 0 else c_posSub c) (c_subs c) else c)).
Proof.
  intros H. pose proof H as (H1 & H2 & H3).
  assert (M : u_pos u mod length (u_cands u) < length (u_cands u)) by (apply Nat.mod_upper_bound; lia).
  destruct (ready_nth u H _ M) as (c & Hc & Pc & Sc).
  unfold pick.
  assert (W : exists u0, (if Nat.leb (length (u_cands u)) (u_pos u) then setPos 0 u else u) = u0 /\ u_pos u0 = u_pos u mod length (u_cands u) /\ u_cands u0 = u_cands u /\ alike u u0).
  { eexists. split; [reflexivity|]. rewrite <- wrap_mod by lia. destruct (Nat.leb _ _); cbn; (split; [reflexivity|]); (split; [reflexivity|]); [apply alike_setPos|apply alike_refl]. }
  destruct W as (u0 & -> & W1 & W2 & W3). rewrite W1, W2, Hc.
  set (ps := if Nat.leb (length (c_subs c)) (c_posSub c) then 0 else c_posSub c).
  set (k := u_pos u mod length (u_cands u)) in *.
  assert (T : tried useSub u 0 = (k, if useSub then Some (c_posSub c mod length (c_subs c)) else match length (c_subs c) with 0 => None | _ => Some 0 end)).
  { unfold tried. cbv zeta. rewrite !Nat.add_0_r. replace (if useSub then u_pos u else u_pos u) with (u_pos u) by now destruct useSub. fold k. rewrite Hc. cbv zeta. rewrite ?Nat.add_0_r. reflexivity. }
  rewrite T. cbn [fst snd].
  assert (R : alike u (setCands (setCandPos k ps (u_cands u)) u0)).
  { eapply alike_trans; [exact W3|]. rewrite <- W2. apply alike_setCandPos. }
  exists (setCands (setCandPos k ps (u_cands u)) u0). split; [|split; [exact R|split; [exact W1|]]].
  - unfold logged. cbn [fst snd]. destruct useSub.
    + specialize (Sc eq_refl). assert (Ep : ps = c_posSub c mod length (c_subs c)) by (apply wrap_mod; lia). rewrite Ep.
      assert (ltR : c_posSub c mod length (c_subs c) < length (c_subs c)) by (apply Nat.mod_upper_bound; lia).
      destruct (Nat.ltb_spec (c_posSub c mod length (c_subs c)) (length (c_subs c))) as [L|L]; [|lia]. cbn [u_pos setCands]. now rewrite W1.
    + cbn [u_pos setCands]. rewrite W1. destruct (c_subs c); reflexivity.
  - intros i x Hx. cbn [setCands u_cands]. rewrite setCandPos_nth. destruct (Nat.eqb_spec i k) as [E|E].
    + subst i. rewrite Hx. assert (x = c) by congruence. now subst x.
    + exact Hx.
Qed.
Lemma advance_spec u : ready useSub u -> exists u1, pick useSub u = Some (u1, fst (tried useSub u 0), snd (tried useSub u 0), logged useSub (tried useSub u 0)) /\
  alike u u1 /\
  let u2 := advancePos useSub u1 (fst (tried useSub u 0)) in
  ready useSub u2 /\ alike u u2 /\ (forall j, tried useSub u2 j = tried useSub u (S j)) /\
  u_pos u2 = (if useSub then u_pos u mod length (u_cands u) else S (u_pos u mod length (u_cands u))) /\
  (forall i c, nth_error (u_cands u) i = Some c -> exists c2, nth_error (u_cands u2) i = Some c2 /\ c_subs c2 = c_subs c /\
    (useSub = true -> c_posSub c2 mod length (c_subs c) = (if Nat.eqb i (u_pos u mod length (u_cands u)) then S (c_posSub c) else c_posSub c) mod length (c_subs c))).
Proof.
  intros H. destruct (pick_spec u H) as (u1 & P1 & A1 & U1 & N1). exists u1. split; [exact P1|]. split; [exact A1|]. cbv zeta.
  pose proof H as (H1 & H2 & H3).
  assert (M : u_pos u mod length (u_cands u) < length (u_cands u)) by (apply Nat.mod_upper_bound; lia).
  destruct (ready_nth u H _ M) as (c & Hc & Pc & Sc).
  set (n := length (u_cands u)) in *. set (k := u_pos u mod n) in *.
  assert (T0 : fst (tried useSub u 0) = k).
  { unfold tried. cbv zeta. fold n. rewrite Nat.add_0_r. replace (if useSub then u_pos u else u_pos u) with (u_pos u) by now destruct useSub. fold k. now rewrite Hc. }
  rewrite T0.
  pose proof (ready_nth u H) as RN. fold n in RN.
  assert (L1 : length (u_cands u1) = n) by apply A1.
  set (u2 := advancePos useSub u1 k).
  assert (A2 : alike u u2).
  { eapply alike_trans; [exact A1|]. unfold u2, advancePos. destruct useSub; [|apply alike_setPos]. destruct (nth_error (u_cands u1) k); [apply alike_setCandPos|apply alike_refl]. }
  assert (L2 : length (u_cands u2) = n) by apply A2.
  assert (P2 : u_pos u2 = if useSub then k else S k).
  { unfold u2, advancePos. destruct useSub; [|cbn; now rewrite U1]. destruct (nth_error (u_cands u1) k); exact U1. }
  assert (C2 : forall i x, nth_error (u_cands u) i = Some x -> nth_error (u_cands u2) i = Some (if Nat.eqb i k then mkCand (c_s x) (c_error x) ((fun z : nat => if useSub then S z else z) (if Nat.leb (length (c_subs x)) (c_posSub x) then 0 else c_posSub x)) (c_subs x) else x)).
  { intros i x Hx. specialize (N1 i x Hx). unfold u2, advancePos. destruct useSub; [|exact N1].
    pose proof (N1) as N1'. destruct (Nat.eqb_spec i k) as [E|E].
    - subst i. rewrite N1. cbn [u_cands setCands]. rewrite setCandPos_nth, Nat.eqb_refl, N1. reflexivity.
    - destruct (nth_error (u_cands u1) k); [|exact N1]. cbn [u_cands setCands]. rewrite setCandPos_nth. destruct (Nat.eqb_spec i k); [contradiction|exact N1]. }
  assert (IN : forall x, In x (u_cands u2) -> exists i y, nth_error (u_cands u) i = Some y /\ nth_error (u_cands u2) i = Some x).
  { intros x Hx. apply In_nth_error in Hx. destruct Hx as [i Hi]. assert (i < n) by (rewrite <- L2; apply nth_error_Some; congruence).
    destruct (nth_error (u_cands u) i) as [y|] eqn:E; [eauto|]. apply nth_error_None in E. fold n in E. lia. }
  split; [|split; [exact A2|split; [|split; [exact P2|]]]].
  - unfold ready. rewrite L2. split; [exact H1|]. split; [rewrite P2; destruct useSub; lia|].
    intros x Hx. destruct (IN x Hx) as (i & y & Hy & Hx2). rewrite (C2 i y Hy) in Hx2. injection Hx2 as <-.
    specialize (H3 y (nth_error_In _ _ Hy)). destruct (Nat.eqb i k); [|exact H3]. cbn [c_posSub c_subs]. destruct H3 as [H3 H3'].
    destruct useSub; (split; [|assumption]). { specialize (H3' eq_refl). destruct (Nat.leb_spec (length (c_subs y)) (c_posSub y)); lia. }
    destruct (Nat.leb_spec (length (c_subs y)) (c_posSub y)); lia.
  - intros j. unfold tried. cbv zeta. rewrite L2. fold n. rewrite P2. destruct useSub.
    + replace (k mod n) with k by (symmetry; apply Nat.mod_small; exact M). fold k. rewrite Hc, (C2 k c Hc), Nat.eqb_refl. cbn [c_subs c_posSub].
      specialize (Sc eq_refl). rewrite wrap_mod by lia. f_equal. f_equal.
      replace (S (c_posSub c mod length (c_subs c)) + j) with (c_posSub c mod length (c_subs c) + S j) by lia. apply Nat.add_mod_idemp_l. lia.
    + replace ((S k + j) mod n) with ((u_pos u + S j) mod n) by (unfold k; rewrite <- Nat.add_succ_comm; replace (S (u_pos u mod n) + j) with (u_pos u mod n + S j) by lia; rewrite Nat.add_mod_idemp_l by lia; f_equal; lia).
      set (kk := (u_pos u + S j) mod n). assert (Hkk : kk < n) by (apply Nat.mod_upper_bound; lia).
      destruct (RN kk Hkk) as (x & Hx & _). rewrite Hx, (C2 kk x Hx). destruct (Nat.eqb kk k); reflexivity.
  - intros i x Hx. rewrite (C2 i x Hx). eexists. split; [reflexivity|]. destruct (Nat.eqb_spec i k) as [E|E]; [|auto]. cbn [c_subs c_posSub]. split; [reflexivity|].
    intros Hs. destruct useSub; [|discriminate]. specialize (H3 x (nth_error_In _ _ Hx)). destruct H3 as [H3 H4]. specialize (H4 eq_refl).
    rewrite wrap_mod by lia. change (S (?a mod ?b)) with (1 + a mod b). rewrite Nat.add_mod_idemp_r by lia. reflexivity.
Qed.

(** * Selection without threshold *)
Lemma select_plain frac u : ready useSub u -> u_mode u <> SM_THRESHOLD ->
  exists x, select useSub frac u = Some x /\ (x_cand x, x_sub x) = tried useSub u 0 /\ x_log x = logged useSub (tried useSub u 0) /\ x_il x = 0 /\
  ready useSub (x_prop x) /\ alike u (x_prop x) /\ (forall j, tried useSub (x_prop x) j = tried useSub u (S j)) /\
  u_pos (x_prop x) = (if useSub then u_pos u mod length (u_cands u) else S (u_pos u mod length (u_cands u))) /\
  (forall i c, nth_error (u_cands u) i = Some c -> exists c2, nth_error (u_cands (x_prop x)) i = Some c2 /\ c_subs c2 = c_subs c /\
    (useSub = true -> c_posSub c2 mod length (c_subs c) = (if Nat.eqb i (u_pos u mod length (u_cands u)) then S (c_posSub c) else c_posSub c) mod length (c_subs c))).
Proof.
  intros H Hm. destruct (advance_spec u H) as (u1 & P1 & A1 & B). cbv zeta in B. destruct B as (B1 & B2 & B3 & B4 & B5).
  assert (M1 : u_mode u1 = u_mode u) by apply A1.
  unfold select. destruct (u_mode u) eqn:Em; [| |contradiction]; cbn [trialLoop]; rewrite P1; cbv beta iota zeta; rewrite M1;
  (eexists; split; [reflexivity|]); cbn [x_cand x_sub x_log x_il x_prop]; (split; [now destruct (tried useSub u 0)|]); auto 10.
Qed.

(** * Selection with threshold *)
Section Threshold.
Variable frac : candidate -> option subCandidate -> R.
Hypothesis free : forall o, position_free (fun c => frac c o).
Let err u j := error_at frac u (tried useSub u j).

Lemma trialLoop_found : forall n il u best bf last j, ready useSub u -> u_mode u = SM_THRESHOLD -> j < n ->
  (forall i, i < j -> (err u i <= u_threshold u)%R) -> (u_threshold u < err u j)%R ->
  exists x, trialLoop useSub frac n il u best bf last = Some x /\ (x_cand x, x_sub x) = tried useSub u j /\ x_log x = logged useSub (tried useSub u j) /\ x_il x = il + j /\
  ready useSub (x_prop x) /\ alike u (x_prop x) /\ (forall i, tried useSub (x_prop x) i = tried useSub u (S j + i)).
Proof.
  induction n as [|n IH]; intros il u best bf last j H Hm Hj Hlow Hhigh; [lia|].
  destruct (advance_spec u H) as (u1 & P1 & A1 & B). cbv zeta in B. destruct B as (B1 & B2 & B3 & B4 & B5).
  cbn [trialLoop]. rewrite P1. cbv beta iota zeta. assert (M1 : u_mode u1 = u_mode u) by apply A1. rewrite M1, Hm.
  assert (T1 : u_threshold u1 = u_threshold u) by apply A1. rewrite T1.
  assert (F1 : fracAt frac u1 (fst (tried useSub u 0)) (snd (tried useSub u 0)) = err u 0).
  { unfold err. rewrite <- (alike_error frac u u1 (tried useSub u 0) free A1). reflexivity. }
  rewrite F1. unfold ltR. destruct j as [|j].
  - destruct (Rlt_dec (u_threshold u) (err u 0)); [|contradiction]. cbv iota. eexists. split; [reflexivity|]. cbn [x_cand x_sub x_log x_il x_prop].
    split; [now destruct (tried useSub u 0)|]. split; [reflexivity|]. split; [lia|]. split; [exact B1|]. split; [exact B2|]. intros i. apply B3.
  - destruct (Rlt_dec (u_threshold u) (err u 0)) as [L|L]. { specialize (Hlow 0 ltac:(lia)). lra. } cbv iota.
    set (u2 := advancePos useSub u1 (fst (tried useSub u 0))) in *.
    assert (E2 : forall i, err u2 i = err u (S i)). { intros i. unfold err. rewrite B3. apply alike_error; auto. }
    assert (T2 : u_threshold u2 = u_threshold u) by apply B2.
    match goal with |- context [if ?b then (?a1, ?a2) else (?b1, ?b2)] => destruct (if b then (a1, a2) else (b1, b2)) as [best' bf'] end.
    destruct (IH (S il) u2 best' bf' (Some (fst (tried useSub u 0), snd (tried useSub u 0))) j B1) as (x & X1 & X2 & X3 & X4 & X5 & X6 & X7).
    + rewrite <- Hm. apply B2.
    + lia.
    + intros i Hi. rewrite E2, T2. apply Hlow. lia.
    + now rewrite E2, T2.
    + exists x. split; [exact X1|]. rewrite X2, X3, X4, !B3. split; [reflexivity|]. split; [reflexivity|]. split; [lia|]. split; [exact X5|]. split; [eapply alike_trans; eauto|].
      intros i. rewrite X7, B3. reflexivity.
Qed.
(** Nothing found: the last one tried is used; the one with the largest error goes to the log. *)
Definition best_log (u : prop) (n best : nat) (bf : R) (l : nat) : Prop :=
  (l = best /\ forall i, i < n -> (err u i <= bf)%R) \/
  exists i, i < n /\ l = logged useSub (tried useSub u i) /\ (bf < err u i)%R /\ forall i', i' < n -> (err u i' <= err u i)%R.
Lemma trialLoop_none : forall n il u best bf last, ready useSub u -> u_mode u = SM_THRESHOLD -> (n = 0 -> last <> None) ->
  (forall i, i < n -> (err u i <= u_threshold u)%R) ->
  exists x, trialLoop useSub frac n il u best bf last = Some x /\ (match n with 0 => Some (x_cand x, x_sub x) = last | S m => (x_cand x, x_sub x) = tried useSub u m end) /\
  best_log u n best bf (x_log x) /\ x_il x = il + n /\
  ready useSub (x_prop x) /\ alike u (x_prop x) /\ (forall i, tried useSub (x_prop x) i = tried useSub u (n + i)).
Proof.
  induction n as [|n IH]; intros il u best bf last H Hm Hl Hlow.
  - cbn [trialLoop]. destruct last as [[k s]|]; [|now specialize (Hl eq_refl)]. eexists. split; [reflexivity|]. cbn. split; [reflexivity|].
    split; [left; split; [reflexivity|intros; lia]|]. split; [lia|]. split; [exact H|]. split; [apply alike_refl|reflexivity].
  - destruct (advance_spec u H) as (u1 & P1 & A1 & B). cbv zeta in B. destruct B as (B1 & B2 & B3 & B4 & B5).
    cbn [trialLoop]. rewrite P1. cbv beta iota zeta. assert (M1 : u_mode u1 = u_mode u) by apply A1. rewrite M1, Hm.
    assert (T1 : u_threshold u1 = u_threshold u) by apply A1. rewrite T1.
    assert (F1 : fracAt frac u1 (fst (tried useSub u 0)) (snd (tried useSub u 0)) = err u 0).
    { unfold err. rewrite <- (alike_error frac u u1 (tried useSub u 0) free A1). reflexivity. }
    rewrite F1. unfold ltR. destruct (Rlt_dec (u_threshold u) (err u 0)) as [L|L]. { specialize (Hlow 0 ltac:(lia)). lra. } cbv iota.
    set (u2 := advancePos useSub u1 (fst (tried useSub u 0))) in *.
    assert (E2 : forall i, err u2 i = err u (S i)). { intros i. unfold err. rewrite B3. apply alike_error; auto. }
    assert (T2 : u_threshold u2 = u_threshold u) by apply B2.
    assert (G : forall best' bf', exists x, trialLoop useSub frac n (S il) u2 best' bf' (Some (fst (tried useSub u 0), snd (tried useSub u 0))) = Some x /\
       (x_cand x, x_sub x) = tried useSub u n /\ best_log u2 n best' bf' (x_log x) /\ x_il x = il + S n /\ ready useSub (x_prop x) /\ alike u (x_prop x) /\ (forall i, tried useSub (x_prop x) i = tried useSub u (S n + i))).
    { intros best' bf'. destruct (IH (S il) u2 best' bf' (Some (fst (tried useSub u 0), snd (tried useSub u 0))) B1) as (x & X1 & X2 & X3 & X4 & X5 & X6 & X7).
      - rewrite <- Hm. apply B2.
      - discriminate.
      - intros i Hi. rewrite E2, T2. apply Hlow. lia.
      - exists x. split; [exact X1|]. split. { destruct n; [injection X2 as X2 X2'; rewrite X2, X2'; now destruct (tried useSub u 0)|rewrite X2; apply B3]. }
        split; [exact X3|]. split; [lia|]. split; [exact X5|]. split; [eapply alike_trans; eauto|]. intros i. rewrite X7, B3. reflexivity. }
    destruct (Rlt_dec bf (err u 0)) as [Lb|Lb]; cbv iota.
    + destruct (G (logged useSub (tried useSub u 0)) (err u 0)) as (x & X1 & X2 & X3 & X4). exists x. split; [exact X1|]. split; [exact X2|]. split; [|exact X4].
      right. destruct X3 as [[Y1 Y2]|(i & Y1 & Y2 & Y3 & Y4)].
      * exists 0. split; [lia|]. split; [exact Y1|]. split; [exact Lb|]. intros [|i'] Hi'; [lra|]. rewrite <- E2. apply Y2. lia.
      * exists (S i). split; [lia|]. rewrite <- B3, <- E2. split; [exact Y2|]. split; [lra|]. intros [|i'] Hi'; [lra|]. rewrite <- E2. apply Y4. lia.
    + destruct (G best bf) as (x & X1 & X2 & X3 & X4). exists x. split; [exact X1|]. split; [exact X2|]. split; [|exact X4].
      destruct X3 as [[Y1 Y2]|(i & Y1 & Y2 & Y3 & Y4)].
      * left. split; [exact Y1|]. intros [|i'] Hi'; [lra|]. rewrite <- E2. apply Y2. lia.
      * right. exists (S i). split; [lia|]. rewrite <- B3, <- E2. split; [exact Y2|]. split; [lra|]. intros [|i'] Hi'; [lra|]. rewrite <- E2. apply Y4. lia.
Qed.
End Threshold.
End Sel.
