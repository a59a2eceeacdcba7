(** What setupElectrostatics takes from the settings (C80). *)
From Coq Require Import Reals Lra Lia ZArith Ascii String Bool Arith.
From Coquelicot Require Import Coquelicot.
From Coq Require Import List.
From Verif Require Import Base.AssocMap Model.Strings Model.Printf Model.ElementMap Model.CoreFunction Model.CompactScreening
  Model.Units Model.SymFunctions Model.SymSetup Model.Settings Model.SymLines Model.NetworkSetup Model.DataFiles Model.Electrostatics Model.EwaldSetup
  Spec.CompactSpec Spec.EwaldSpec Proofs.SymLineProofs Proofs.NetworkSetupProofs Proofs.NetworkSetupMain Proofs.EwaldSetupProofs.
Import ListNotations.
Local Open Scope R_scope.

Lemma at_split (ws : list str) w0 w1 : at_ ws 0 = Done w0 -> at_ ws 1 = Done w1 -> exists rest, ws = w0 :: w1 :: rest.
Proof.
  destruct ws as [|a [|b ws]]; cbn; try discriminate. intros A B. apply done_inj in A, B. subst. now exists ws.
Qed.
Section LineFold.
Variable em : element_map.
Variable conv : R -> R.
(** One line, followed by the lines after it. *)
Lemma last_value_cons v ls i x : last_value em i ls x ->
  match x with
  | Some w => last_value em i (v :: ls) (Some w)
  | None => (forall w0 w rest, words_of (fst v) = w0 :: w :: rest -> em_index em w0 = Some i -> last_value em i (v :: ls) (Some w)) /\
            (~ names em i v -> last_value em i (v :: ls) None)
  end.
Proof.
  destruct x as [w|]; cbn [last_value].
  - intros (l1 & u & l2 & sy & rest & -> & H). now exists (v :: l1), u, l2, sy, rest.
  - intro H. split.
    + intros w0 w rest E I. exists [], v, ls, w0, rest. repeat split; assumption.
    + intros N u [<-|U]; [exact N | now apply H].
Qed.
Lemma line_fold (step : str * nat -> list R -> outcome (list R)) :
  (forall v hs hs', step v hs = Done hs' -> exists w0 w rest e, words_of (fst v) = w0 :: w :: rest /\ em_index em w0 = Some e /\
                    set_at e (conv (atof w)) hs = Done hs') ->
  forall ls hs0 hs, foldo step ls hs0 = Done hs ->
  length hs = length hs0 /\ forall i, (i < length hs0)%nat -> exists x, last_value em i ls x /\
    nth_error hs i = match x with None => nth_error hs0 i | Some w => Some (conv (atof w)) end.
Proof.
  intro St. induction ls as [|v ls IH]; intros hs0 hs H; cbn [foldo] in H.
  - apply done_inj in H. subst hs. split; [reflexivity|]. intros i _. exists None. split; [intros v [] | reflexivity].
  - apply bindo_done in H as (hs1 & S1 & H). destruct (St _ _ _ S1) as (w0 & w & rest & e & W & E & Se).
    destruct (set_done _ _ _ _ Se) as (Le & L1 & N1 & N2). destruct (IH _ _ H) as (L & F). split; [congruence|].
    intros i Hi. destruct (F i ltac:(congruence)) as (x & X & N). pose proof (last_value_cons v ls i x X) as C.
    destruct x as [w'|].
    + exists (Some w'). now split.
    + destruct C as [C1 C2]. destruct (Nat.eq_dec i e) as [->|D].
      * exists (Some w). split; [exact (C1 _ _ _ W E) | congruence].
      * exists None. split; [|rewrite N; now apply N2]. apply C2. intros (w1 & r1 & W1 & E1). rewrite W in W1. injection W1 as <- <-. congruence.
Qed.
End LineFold.
Lemma normalized_hardness_eq cv h : normalized_hardness cv h = Done (h * hardness_factor cv).
Proof.
  unfold normalized_hardness, hardness_factor. destruct (cv_normalize cv); [|f_equal; ring].
  change (throwing (normalized (cv_energy cv) (cv_length cv) (cv_charge cv) (lit "hardness") h)) with (Done (h * cv_energy cv / cv_charge cv ^ 2)).
  f_equal. unfold Rdiv. ring.
Qed.
Lemma hardness_step cv em v hs hs' : hardness_line cv em v hs = Done hs' ->
  exists w0 w rest e, words_of (fst v) = w0 :: w :: rest /\ em_index em w0 = Some e /\ set_at e (atof w * hardness_factor cv) hs = Done hs'.
Proof.
  unfold hardness_line, element_at, number_at. intro H. apply bindo_done in H as (e & E & H). apply bindo_done in E as (w0 & W0 & E).
  apply bindo_done in H as (h & Hh & H). apply bindo_done in Hh as (w1 & W1 & Hh). apply done_inj in Hh. subst h.
  rewrite normalized_hardness_eq in H. cbn [bindo] in H. destruct (at_split _ _ _ W0 W1) as (rest & ->).
  exists w0, w1, rest, e. split; [reflexivity|]. split; [|exact H]. now destruct (em_index em w0); [apply done_inj in E; subst|].
Qed.
(** The widths and their maximum. *)
Lemma width_eq cv q : (if cv_normalize cv then q * cv_length cv else q) = q * length_factor cv.
Proof. unfold length_factor. destruct (cv_normalize cv); [reflexivity | ring]. Qed.
Lemma width_step cv em v st st' : gausswidth_line cv em v st = Done st' ->
  exists w0 w rest e, words_of (fst v) = w0 :: w :: rest /\ em_index em w0 = Some e /\
    set_at e (atof w * length_factor cv) (fst st) = Done (fst st') /\ snd st' = Rmax (atof w * length_factor cv) (snd st).
Proof.
  unfold gausswidth_line, element_at, number_at. intro H. apply bindo_done in H as (e & E & H). apply bindo_done in E as (w0 & W0 & E).
  apply bindo_done in H as (h & Hh & H). apply bindo_done in Hh as (w1 & W1 & Hh). apply done_inj in Hh. subst h.
  rewrite width_eq in H. apply bindo_done in H as (l & Hl & H). apply done_inj in H. subst st'.
  destruct (at_split _ _ _ W0 W1) as (rest & ->).
  exists w0, w1, rest, e. split; [reflexivity|]. split; [now destruct (em_index em w0); [apply done_inj in E; subst|]|]. now split.
Qed.
Lemma width_fold cv em : forall ls st st', foldo (gausswidth_line cv em) ls st = Done st' ->
  (length (fst st') = length (fst st) /\ forall i, (i < length (fst st))%nat -> exists x, last_value em i ls x /\
    nth_error (fst st') i = match x with None => nth_error (fst st) i | Some w => Some (atof w * length_factor cv) end) /\
  snd st <= snd st' /\ (Forall (fun q => q <= snd st) (fst st) -> Forall (fun q => q <= snd st') (fst st')).
Proof.
  induction ls as [|v ls IH]; intros st st' H; cbn [foldo] in H.
  - apply done_inj in H. subst st'. split; [|split; [lra | auto]]. split; [reflexivity|]. intros i _. exists None. split; [intros v [] | reflexivity].
  - apply bindo_done in H as (s1 & S1 & H). destruct (width_step _ _ _ _ _ S1) as (w0 & w & rest & e & W & E & Se & Sm).
    destruct (set_done _ _ _ _ Se) as (Le & L1 & N1 & N2). destruct (IH _ _ H) as ((L & F) & M & A).
    pose proof (Rmax_r (atof w * length_factor cv) (snd st)) as M1. pose proof (Rmax_l (atof w * length_factor cv) (snd st)) as M2.
    split; [|split; [lra|]].
    + split; [congruence|]. intros i Hi. destruct (F i ltac:(congruence)) as (x & X & N). pose proof (last_value_cons em v ls i x X) as C.
      destruct x as [w'|].
      * exists (Some w'). now split.
      * destruct C as [C1 C2]. destruct (Nat.eq_dec i e) as [->|D].
        -- exists (Some w). split; [exact (C1 _ _ _ W E) | congruence].
        -- exists None. split; [|rewrite N; now apply N2]. apply C2. intros (w1 & r1 & W1 & E1). rewrite W in W1. injection W1 as <- <-. congruence.
    + intro A0. apply A. rewrite Forall_forall in *. intros q Hq. apply In_nth_error in Hq as (j & Hj).
      destruct (Nat.eq_dec j e) as [->|D].
      * rewrite N1 in Hj. injection Hj as <-. lra.
      * rewrite N2 in Hj by exact D. apply nth_error_In in Hj. specialize (A0 q Hj). cbn in A0. lra.
Qed.

(** ** The whole function *)
Lemma throwing_done {A} (x : option A) a : throwing x = Done a -> x = Some a.
Proof. destruct x; cbn; [intro H; apply done_inj in H; now subst | discriminate]. Qed.
Section Whole.
Variables (cv : conversion) (em : element_map) (files : option (list str)) (s : settings) (n : nat) (m : electro).
Hypothesis H : setupElectrostatics cv em files s (electro_init n) = Done m.
Lemma setup_parts : exists hs ls qs method prec eps screen,
  match files with
  | None => exists ls, getValues s (lit "initial_hardness") = Some ls /\ foldo (hardness_line cv em) ls (repeat 0 n) = Done hs
  | Some ts => mapo (hardness_file cv) ts = Done hs
  end /\ getValues s (lit "fixed_gausswidth") = Some ls /\ foldo (gausswidth_line cv em) ls (repeat 0 n, 0) = Done qs /\
  value_of s (lit "ewald_truncation_error_method") = Done method /\ value_of s (lit "ewald_prec") = Done prec /\
  setup_ewald cv method prec (snd qs) sw_init = Done (el_ewald m) /\
  value_of s (lit "four_pi_epsilon") = Done eps /\ value_of s (lit "screen_electrostatics") = Done screen /\
  setup_screening cv screen sc_init = Done (el_fs m) /\
  el_hardness m = hs /\ el_qsigma m = fst qs /\ el_fourPiEps m = setup_fourPiEps cv eps 1.
Proof.
  pose proof H as K. unfold setupElectrostatics in K. cbn [electro_init el_hardness el_qsigma el_ewald el_fourPiEps el_fs] in K.
  apply bindo_done in K as (hs & K1 & K). apply bindo_done in K as (ls & K2 & K). apply bindo_done in K as (qs & K3 & K).
  apply bindo_done in K as (method & K4 & K). apply bindo_done in K as (prec & K5 & K). apply bindo_done in K as (ew & K6 & K).
  apply bindo_done in K as (eps & K7 & K). apply bindo_done in K as (screen & K8 & K). apply bindo_done in K as (fs & K9 & K).
  apply done_inj in K. subst m. apply throwing_done in K2.
  exists hs, ls, qs, method, prec, eps, screen. repeat (split; [assumption || reflexivity || idtac|]); try assumption; try reflexivity.
  destruct files as [ts|]; [exact K1|]. apply bindo_done in K1 as (lh & L1 & K1). apply throwing_done in L1. exists lh. split; assumption.
Qed.
Lemma nth_repeat_error {A} (x : A) k i : (i < k)%nat -> nth_error (repeat x k) i = Some x.
Proof. revert i. induction k as [|k IH]; intros [|i] L; cbn; try lia; [reflexivity|]. apply IH. lia. Qed.
Lemma widths_read : exists ls, getValues s (lit "fixed_gausswidth") = Some ls /\ length (el_qsigma m) = n /\
  forall i, (i < n)%nat -> exists x, last_value em i ls x /\
    nth_error (el_qsigma m) i = Some (match x with None => 0 | Some w => atof w * length_factor cv end).
Proof.
  destruct setup_parts as (hs & ls & qs & method & prec & eps & screen & P1 & P2 & P3 & _ & _ & _ & _ & _ & _ & _ & -> & _).
  exists ls. split; [exact P2|]. destruct (width_fold _ _ _ _ _ P3) as ((L & F) & _). cbn [fst] in L, F. rewrite repeat_length in L, F.
  split; [exact L|]. intros i Hi. destruct (F i Hi) as (x & X & N). exists x. split; [exact X|]. rewrite N.
  destruct x; [reflexivity|]. now apply nth_repeat_error.
Qed.
Lemma hardness_read : files = None -> exists ls, getValues s (lit "initial_hardness") = Some ls /\ length (el_hardness m) = n /\
  forall i, (i < n)%nat -> exists x, last_value em i ls x /\
    nth_error (el_hardness m) i = Some (match x with None => 0 | Some w => atof w * hardness_factor cv end).
Proof.
  intros HF. destruct setup_parts as (hs & ls & qs & method & prec & eps & screen & P1 & _ & _ & _ & _ & _ & _ & _ & _ & -> & _).
  rewrite HF in P1. destruct P1 as (lh & G & P1). exists lh. split; [exact G|].
  destruct (line_fold em (fun h => h * hardness_factor cv) _ (hardness_step cv em) _ _ _ P1) as (L & F). rewrite repeat_length in L, F.
  split; [exact L|]. intros i Hi. destruct (F i Hi) as (x & X & N). exists x. split; [exact X|]. rewrite N.
  destruct x; [reflexivity|]. now apply nth_repeat_error.
Qed.
Lemma hardness_from_files ts : files = Some ts -> length (el_hardness m) = length ts /\
  forall i text, nth_error ts i = Some text -> exists h, readHardness text = Done (Some h) /\ nth_error (el_hardness m) i = Some (h * hardness_factor cv).
Proof.
  intros HF. destruct setup_parts as (hs & ls & qs & method & prec & eps & screen & P1 & _ & _ & _ & _ & _ & _ & _ & _ & -> & _).
  rewrite HF in P1. destruct (mapo_nth _ _ _ P1) as (L & F). split; [exact L|]. intros i text T.
  destruct (nth_error hs i) as [h|] eqn:E.
  - destruct (F _ _ E) as (t' & T' & Q). rewrite T in T'. injection T' as <-. unfold hardness_file in Q.
    apply bindo_done in Q as ([h0|] & Q0 & Q); [|discriminate]. rewrite normalized_hardness_eq in Q. apply done_inj in Q. subst h. now exists h0.
  - apply nth_error_None in E. assert (nth_error ts i <> None) as X by congruence. apply nth_error_Some in X. lia.
Qed.
Lemma ewald_read : (cv_normalize cv = true -> 0 < cv_length cv) ->
  exists method prec, value_of s (lit "ewald_truncation_error_method") = Done method /\ value_of s (lit "ewald_prec") = Done prec /\
  let mt := chosen_method method in
  match prec with
  | Some w => exists sigma, Forall (fun q => q <= sigma * length_factor cv) (el_qsigma m) /\
      if cv_normalize cv then configured_normalized (cv_energy cv) (cv_length cv) mt (split w ch_space) sigma (el_ewald m)
      else configured mt (split w ch_space) sigma (el_ewald m)
  | None => mt = JACKSON_CATLOW /\ forall V N, rejects (el_ewald m) V N
  end.
Proof.
  intro HL. destruct setup_parts as (hs & ls & qs & method & prec & eps & screen & _ & _ & P3 & P4 & P5 & P6 & _ & _ & _ & _ & -> & _).
  exists method, prec. split; [exact P4|]. split; [exact P5|]. cbv zeta.
  destruct (width_fold _ _ _ _ _ P3) as (_ & M & A). cbn [fst snd] in M, A.
  assert (A0 : Forall (fun q => q <= snd qs) (fst qs)).
  { apply A. apply Forall_forall. intros q Hq. apply repeat_spec in Hq. lra. }
  assert (Em : method_of method sw_init = setTruncMethod (chosen_method method) sw_init).
  { unfold method_of, chosen_method. destruct method as [w|]; [|reflexivity].
    destruct (str_eqb w (lit "0")), (str_eqb w (lit "1")); reflexivity. }
  unfold setup_ewald in P6. cbv zeta in P6. rewrite Em in P6. set (mt := chosen_method method) in *.
  destruct prec as [w|].
  - apply bindo_done in P6 as (e0 & E0 & P6). apply done_inj in P6.
    unfold length_factor. destruct (cv_normalize cv) eqn:Nm.
    + specialize (HL eq_refl). exists (snd qs / cv_length cv).
      replace (snd qs / cv_length cv * cv_length cv) with (snd qs) by (field; lra). split; [exact A0|].
      exists e0. split; [exact E0|]. replace (snd qs / cv_length cv * cv_length cv) with (snd qs) by (field; lra). now symmetry.
    + exists (snd qs). rewrite Rmult_1_r. split; [exact A0|]. exists e0. split; [exact E0 | now symmetry].
  - destruct mt; [|discriminate P6]. split; [reflexivity|]. cbn in P6. apply done_inj in P6. rewrite <- P6. intros V N fuel. now eexists.
Qed.
Lemma permittivity_read : exists eps, value_of s (lit "four_pi_epsilon") = Done eps /\
  el_fourPiEps m = match eps with Some w => atof w | None => 1 end
                   * permittivity_factor cv.
Proof.
  destruct setup_parts as (hs & ls & qs & method & prec & eps & screen & _ & _ & _ & _ & _ & _ & P7 & _ & _ & _ & _ & ->).
  exists eps. split; [exact P7|]. unfold setup_fourPiEps, permittivity_factor. destruct (cv_normalize cv); [reflexivity | ring].
Qed.
Lemma screening_read : (cv_normalize cv = true -> 0 < cv_length cv) ->
  exists screen, value_of s (lit "screen_electrostatics") = Done screen /\
  match screen with
  | None => forall r, 0 <= r -> sc_f (el_fs m) r = 1
  | Some w => exists inner outer rest k fs, split w ch_space = inner :: outer :: rest /\
      core_of (match rest with [] => lit "c" | t :: _ => t end) = Done k /\
      screening_config k (atof inner) (atof outer) = Some fs /\
      forall r, sc_f (el_fs m) (r * length_factor cv) = sc_f fs r
  end.
Proof.
  intro HL. destruct setup_parts as (hs & ls & qs & method & prec & eps & screen & _ & _ & _ & _ & _ & _ & _ & P8 & P9 & _ & _ & _).
  exists screen. split; [exact P8|]. destruct screen as [w|]; unfold setup_screening in P9.
  - cbv zeta in P9. unfold number_at in P9. apply bindo_done in P9 as (a & A & P9). apply bindo_done in A as (wa & Wa & A). apply done_inj in A. subst a.
    apply bindo_done in P9 as (b & B & P9). apply bindo_done in B as (wb & Wb & B). apply done_inj in B. subst b.
    apply bindo_done in P9 as (f1 & F1 & P9). apply bindo_done in P9 as (k & K & P9). apply done_inj in P9.
    destruct (at_split _ _ _ Wa Wb) as (rest & E). rewrite E in *. exists wa, wb, rest, k.
    apply throwing_done in F1. unfold sc_setInnerOuter in F1. destruct (Rge_dec (atof wa) (atof wb)) as [|D] eqn:Dc; [discriminate|].
    injection F1 as <-.
    eexists. split; [reflexivity|]. split. { destruct rest; exact K. }
    split. { unfold screening_config, sc_setInnerOuter. rewrite Dc. reflexivity. }
    intro r. rewrite <- P9. unfold length_factor. destruct (cv_normalize cv) eqn:Nm.
    + specialize (HL eq_refl). unfold sc_f, sc_changeLengthUnits; cbn [sc_setCoreFunction sc_outer sc_inner sc_scale sc_core].
      change (core_setType k (sc_core sc_init)) with (core_setType k (core_setType CK_POLY2 core_init)).
      destruct (Rge_dec (r * cv_length cv) (atof wb * cv_length cv)) as [X|X]; destruct (Rge_dec r (atof wb)) as [Y|Y]; try reflexivity; try (exfalso; nra).
      destruct (Rle_dec (r * cv_length cv) (atof wa * cv_length cv)) as [X'|X']; destruct (Rle_dec r (atof wa)) as [Y'|Y']; try reflexivity; try (exfalso; nra).
      f_equal. f_equal. field. lra.
    + rewrite Rmult_1_r. reflexivity.
  - apply throwing_done in P9. unfold sc_setInnerOuter in P9. destruct (Rge_dec (- 2) (- (1))); [discriminate|]. injection P9 as <-.
    intros r Hr. unfold sc_f. cbn [sc_outer]. destruct (Rge_dec r (- (1))); [reflexivity | lra].
Qed.
End Whole.
