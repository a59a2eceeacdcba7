(** Ewald parameters from the words of "ewald_prec"; independence of the history
    and of the units. *)
From Coq Require Import Reals Lra Lia Psatz Bool Arith.
From Coquelicot Require Import Coquelicot.
From Coq Require Import List.
From Verif Require Import Model.Strings Model.Printf Model.SymFunctions Model.SymSetup Model.SymLines Model.Electrostatics Model.EwaldSetup Spec.EwaldSpec
  Proofs.EwaldNewton Proofs.EwaldLoops Proofs.EwaldAccuracy.
Import ListNotations.
Local Open Scope R_scope.

(** ** readFromArgs *)
Definition made (m : trunc_method) (words : list str) (sigma : R) : ewald_setup :=
  match m, words with
  | JACKSON_CATLOW, p :: _ => mkEwaldSetup ew_init m (mkES (atof p) 1 sigma 1) (Some (TJackson 0))
  | KOLAFA_PERRAM, [p; q] => mkEwaldSetup ew_init m (mkES (atof p) (atof q) sigma 1) (Some (TOptEta 0 0 1 1))
  | KOLAFA_PERRAM, [p; q; r] => mkEwaldSetup (mkEwald 0 (atof r) 0) m (mkES (atof p) (atof q) sigma 1) (Some (TFixR 0 0))
  | _, p :: _ => mkEwaldSetup ew_init m (mkES (atof p) 1 sigma 1) None
  | _, [] => sw_init
  end.
Lemma read_accepts m words : acceptable m words ->
  exists e, readFromArgs words (setTruncMethod m sw_init) = Done e /\ forall sigma, setMaxQSigma sigma e = made m words sigma.
Proof.
  destruct words as [|p [|q [|r [|x l]]]]; cbn [acceptable]; try easy.
  - intro H. destruct m; unfold readFromArgs; cbn -[Rle_dec]; (destruct (Rle_dec (atof p) 0); [lra|]); eexists; split; reflexivity.
  - intros [H ->]. unfold readFromArgs. cbn -[Rle_dec]. destruct (Rle_dec (atof p) 0); [lra|]. eexists. split; reflexivity.
  - intros [H ->]. unfold readFromArgs. cbn -[Rle_dec]. destruct (Rle_dec (atof p) 0); [lra|]. eexists. split; reflexivity.
Qed.
Lemma read_needs m words e : readFromArgs words (setTruncMethod m sw_init) = Done e -> acceptable m words.
Proof.
  destruct words as [|p [|q [|r [|x l]]]].
  - destruct m; discriminate.
  - destruct m; unfold readFromArgs; cbn -[Rle_dec]; (destruct (Rle_dec (atof p) 0); [discriminate | intros _; lra]).
  - destruct m; unfold readFromArgs; cbn -[Rle_dec]; [discriminate|]. destruct (Rle_dec (atof p) 0); [discriminate | intros _; split; [lra | reflexivity]].
  - destruct m; unfold readFromArgs; cbn -[Rle_dec]; [discriminate|]. destruct (Rle_dec (atof p) 0); [discriminate | intros _; split; [lra | reflexivity]].
  - destruct m; discriminate.
Qed.
Lemma accepted_iff m words : (exists e, readFromArgs words (setTruncMethod m sw_init) = Done e) <-> acceptable m words.
Proof.
  split.
  - intros (e & H). now apply read_needs in H.
  - intro H. destruct (read_accepts m words H) as (e & E & _). now exists e.
Qed.
Lemma configured_made m words sigma e : configured m words sigma e -> acceptable m words /\ e = made m words sigma.
Proof.
  intros (e0 & E & ->). pose proof (read_needs _ _ _ E) as A. split; [exact A|].
  destruct (read_accepts m words A) as (e1 & E1 & H). rewrite E in E1. injection E1 as ->. apply H.
Qed.
Lemma configured_normalized_made cE cL m words sigma e : configured_normalized cE cL m words sigma e ->
  acceptable m words /\ e = sw_toNormalizedUnits cE cL (made m words (sigma * cL)).
Proof.
  intros (e0 & E & ->). pose proof (read_needs _ _ _ E) as A. split; [exact A|].
  destruct (read_accepts m words A) as (e1 & E1 & H). rewrite E in E1. injection E1 as ->. now rewrite H.
Qed.

(** ** Precision *)
Lemma optimal_parameters wp wq sigma V N e :
  configured KOLAFA_PERRAM [wp; wq] sigma e -> atof wq <> 0 -> 0 < V -> (0 < N)%nat ->
  exists W, chooses e V N W /\ positive W /\ sigma <= ew_eta W /\
    real_space_error (atof wq) 1 V N (ew_eta W) (ew_rCut W) = reciprocal_error (atof wq) 1 V N (ew_eta W) (ew_kCut W) /\
    real_space_error (atof wq) 1 V N (ew_eta W) (ew_rCut W) <= atof wp * (1 + 2 * / 10 ^ 10) /\
    (ew_eta W = sigma \/ atof wp * (1 - / 10 ^ 10) <= real_space_error (atof wq) 1 V N (ew_eta W) (ew_rCut W)).
Proof.
  intros H Hq HV HN. apply configured_made in H as ([Hp _] & ->). 
  exact (opt_case (atof wp) (atof wq) 1 V N sigma KOLAFA_PERRAM ew_init 1 1 Hp Hq Rlt_0_1 HV HN).
Qed.
Lemma fixed_cutoff wp wq wr sigma V N e :
  configured KOLAFA_PERRAM [wp; wq; wr] sigma e -> atof wq <> 0 -> 0 < atof wr -> 0 < V -> (0 < N)%nat ->
  (atof wp < unscreened_error (atof wq) 1 V N (atof wr) ->
   exists W, chooses e V N W /\ positive W /\ ew_rCut W = atof wr /\
     real_space_error (atof wq) 1 V N (ew_eta W) (ew_rCut W) = atof wp /\
     atof wp <= reciprocal_error (atof wq) 1 V N (ew_eta W) (ew_kCut W) <= atof wp * (1 + / 10 ^ 10)) /\
  (unscreened_error (atof wq) 1 V N (atof wr) <= atof wp -> rejects e V N).
Proof.
  intros H Hq Hr HV HN. apply configured_made in H as ([Hp _] & ->).
  exact (fixr_case (atof wp) (atof wq) 1 V N (atof wr) sigma KOLAFA_PERRAM (mkEwald 0 (atof wr) 0) Hp Hq Rlt_0_1 HV HN Hr eq_refl).
Qed.
Lemma jackson_parameters wp sigma V N e :
  configured JACKSON_CATLOW [wp] sigma e -> 0 < V ->
  (atof wp < 1 -> exists W, chooses e V N W /\ positive W /\ ew_eta W ^ 3 * (2 * PI) * sqrt (2 * PI) = V /\
     exp (- ((ew_rCut W / ew_eta W) ^ 2 / 2)) = atof wp /\ exp (- ((ew_kCut W * ew_eta W) ^ 2 / 2)) = atof wp) /\
  (1 <= atof wp -> rejects e V N).
Proof.
  intros H HV. apply configured_made in H as (Hp & ->).
  exact (jackson_case (atof wp) 1 1 V N sigma JACKSON_CATLOW ew_init Hp HV).
Qed.
(** One word only, with the method of Kolafa and Perram. *)
Lemma no_implementation wp sigma V N : 0 < atof wp ->
  exists e, configured KOLAFA_PERRAM [wp] sigma e /\ rejects e V N.
Proof.
  intro Hp. destruct (read_accepts KOLAFA_PERRAM [wp] Hp) as (e & E & H).
  exists (setMaxQSigma sigma e). split; [now exists e|]. rewrite H. intro fuel. now eexists.
Qed.

(** ** History *)
(** A fresh setup: one that has not seen a structure. *)
Definition unused (e : ewald_setup) : Prop :=
  match sw_impl e with
  | None => True
  | Some (TJackson v) => v = 0
  | Some (TFixR v n) => v = 0 /\ n = 0%nat
  | Some (TOptEta v n _ _) => v = 0 /\ n = 0%nat
  end.
Definition reached (fuel : nat) (e t : ewald_setup) : Prop :=
  t = e \/ exists V N, 0 < V /\ calculateParameters fuel V N e = Some (t, true).
Lemma unchanged_true V N v n : unchanged V N v n = true -> V = v /\ N = n.
Proof.
  unfold unchanged, eqR. destruct (Req_EM_T V v); [|discriminate]. cbn. intro H. now apply Nat.eqb_eq in H.
Qed.
Lemma reached_step fuel e t V N t' : unused e -> reached fuel e t -> 0 < V ->
  calculateParameters fuel V N t = Some (t', true) -> calculateParameters fuel V N e = Some (t', true).
Proof.
  intros U [->|(V0 & N0 & H0 & H)] HV C; [exact C|].
  unfold calculateParameters in *. unfold unused in U. destruct (sw_impl e) as [[v|v n|v n s eta]|] eqn:I; [| | |discriminate].
  - subst v. injection H as H. unfold jackson_calculate in H. destruct (Req_EM_T V0 0); [lra|].
    destruct (Rge_dec _ 1) as [|P]; [discriminate|]. destruct (Rle_dec _ 0) as [|E0]; [discriminate|].
    injection H as <-. cbn [sw_impl] in C. injection C as C. f_equal. unfold jackson_calculate in *.
    cbn [sw_settings sw_params sw_method] in C. destruct (Req_EM_T V 0); [lra|].
    destruct (Req_EM_T V V0) as [<-|NE].
    + destruct (Rge_dec _ 1); [contradiction|]. destruct (Rle_dec _ 0); [contradiction|]. exact C.
    + destruct (Rge_dec _ 1); [contradiction|]. destruct (Rle_dec (jackson_eta V) 0); [discriminate C | exact C].
  - destruct U as [-> ->]. unfold fixr_calculate in H. rewrite unchanged_false in H by exact H0.
    destruct (Req_EM_T _ 0) as [|R0]; [discriminate|].
    destruct (fixr_eta _ _ _) as [eta1|] eqn:E1; [|discriminate].
    destruct (fixr_kCut _ _ _ _) as [k1|] eqn:K1; [|discriminate].
    injection H as <-. cbn [sw_impl] in C. unfold fixr_calculate in *.
    cbn [sw_settings sw_params sw_method ew_rCut] in C. rewrite unchanged_false by exact HV.
    destruct (unchanged V N V0 N0) eqn:Un.
    + apply unchanged_true in Un as [-> ->]. destruct (Req_EM_T _ 0); [contradiction|]. now rewrite E1, K1.
    + destruct (Req_EM_T (ew_rCut (sw_params e)) 0); [discriminate|].
      destruct (fixr_eta (fixr_C (es_maxCharge (sw_settings e)) N V (es_fourPiEps (sw_settings e))) (ew_rCut (sw_params e)) (es_precision (sw_settings e)));
        [exact C | discriminate].
  - destruct U as [-> ->]. unfold opt_calculate in H. rewrite unchanged_false in H by exact H0.
    destruct (calculateEta _ _ _ _) as [[s1 eta1]|] eqn:E1; [|discriminate].
    injection H as <-. cbn [sw_impl] in C. unfold opt_calculate in *.
    cbn [sw_settings sw_params sw_method] in C. rewrite unchanged_false by exact HV.
    destruct (unchanged V N V0 N0) eqn:Un.
    + apply unchanged_true in Un as [-> ->]. now rewrite E1.
    + exact C.
Qed.
Lemma reached_next fuel e t V N t' : unused e -> reached fuel e t -> 0 < V ->
  calculateParameters fuel V N t = Some (t', true) -> reached fuel e t'.
Proof. intros U R HV C. right. exists V, N. split; [exact HV|]. exact (reached_step fuel e t V N t' U R HV C). Qed.

Lemma evaluation_step fuel rs mc c e t r t' : unused e -> reached fuel e t -> filled c ->
  evaluation_parameters fuel rs mc c t = Some (r, t') ->
  reached fuel e t' /\
  exists r' e', evaluation_parameters fuel rs mc c e = Some (r', e') /\ fst r' = fst r /\ (ce_periodic c = true -> r' = r).
Proof.
  intros U Rc [HV HN] H. unfold evaluation_parameters, maxCutoffRadiusOverall in *.
  destruct (ce_periodic c).
  - destruct (calculateParameters fuel (ce_volume c) (ce_numAtoms c) t) as [[t1 [|]]|] eqn:C; try discriminate.
    injection H as <- <-. split; [exact (reached_next _ _ _ _ _ _ U Rc HV C)|].
    rewrite (reached_step _ _ _ _ _ _ U Rc HV C). do 2 eexists. split; [reflexivity|]. now split.
  - injection H as <- <-. split; [exact Rc|]. do 2 eexists. split; [reflexivity|]. split; [reflexivity | discriminate].
Qed.
Lemma history fuel rs mc e : unused e -> forall cs t out, reached fuel e t -> Forall filled cs ->
  evaluate_all fuel rs mc cs t = Some out ->
  Forall2 (fun c r => exists r' e', evaluation_parameters fuel rs mc c e = Some (r', e') /\ fst r' = fst r /\
                                    (ce_periodic c = true -> r' = r)) cs out.
Proof.
  intro U. induction cs as [|c cs IH]; intros t out Rc F H; cbn [evaluate_all] in H.
  - injection H as <-. constructor.
  - inversion F as [|? ? Fc Fcs]; subst. destruct (evaluation_parameters fuel rs mc c t) as [[r t1]|] eqn:E; [|discriminate].
    destruct (evaluate_all fuel rs mc cs t1) as [out1|] eqn:E1; [|discriminate]. injection H as <-.
    destruct (evaluation_step _ _ _ _ _ _ _ _ U Rc Fc E) as (R1 & X). constructor; [exact X|].
    exact (IH t1 out1 R1 Fcs E1).
Qed.
Lemma configured_unused m words sigma e : configured m words sigma e -> unused e.
Proof.
  intro H. apply configured_made in H as (A & ->).
  destruct words as [|p [|q [|r [|x l]]]]; destruct m; cbn; try easy; now split.
Qed.
Lemma configured_normalized_unused cE cL m words sigma e : configured_normalized cE cL m words sigma e -> unused e.
Proof.
  intro H. apply configured_normalized_made in H as (A & ->).
  destruct words as [|p [|q [|r [|x l]]]]; destruct m; cbn; try easy; now split.
Qed.
Lemma history_configured fuel rs mc m words sigma e cs out :
  configured m words sigma e \/ (exists cE cL, configured_normalized cE cL m words sigma e) -> Forall filled cs ->
  evaluate_all fuel rs mc cs e = Some out ->
  Forall2 (fun c r => exists r' e', evaluation_parameters fuel rs mc c e = Some (r', e') /\ fst r' = fst r /\
                                    (ce_periodic c = true -> r' = r)) cs out.
Proof.
  intros C F H. apply (history fuel rs mc e) with (t := e); [ | now left | exact F | exact H].
  destruct C as [C|(cE & cL & C)]; [now apply configured_unused in C | now apply configured_normalized_unused in C].
Qed.
(** The neighbor list reaches as far as the real space cutoff. *)
Lemma list_reaches fuel rs mc : forall cs e out, evaluate_all fuel rs mc cs e = Some out ->
  Forall2 (fun c r => ce_periodic c = true -> ew_rCut (snd r) <= fst r) cs out.
Proof.
  induction cs as [|c cs IH]; intros e out H; cbn [evaluate_all] in H.
  - injection H as <-. constructor.
  - destruct (evaluation_parameters fuel rs mc c e) as [[r t1]|] eqn:E; [|discriminate].
    destruct (evaluate_all fuel rs mc cs t1) as [out1|] eqn:E1; [|discriminate]. injection H as <-.
    constructor; [|exact (IH t1 out1 E1)]. intro P. unfold evaluation_parameters, maxCutoffRadiusOverall in E.
    rewrite P in E. destruct (calculateParameters _ _ _ _) as [[t2 [|]]|]; try discriminate. injection E as <- <-.
    cbn [fst snd]. apply Rmax_r.
Qed.
