(** Properties C78 - C80: Ewald parameters and electrostatics settings. *)
From Coq Require Import Reals ZArith Ascii String.
From Coq Require Import List.
From Verif Require Import Base.AssocMap Model.Strings Model.Printf Model.ElementMap Model.CoreFunction Model.CompactScreening Model.Settings Model.SymLines
  Model.NetworkSetup Model.DataFiles Model.Electrostatics Model.EwaldSetup Spec.CompactSpec Spec.EwaldSpec
  Proofs.EwaldSetupProofs Proofs.EwaldUnits Proofs.ElectroSetupProofs Proofs.EwaldExamples.
Import ListNotations.
Local Open Scope R_scope.

(** ** C78: the Ewald parameters meet the precision asked for *)
(** "ewald_prec" with precision and largest charge: the iterations end, and the
    estimated errors of both sums are equal and not larger than the precision
    (up to the tolerance of the iterations).  The width is not smaller than any
    charge's. *)
Theorem C78_optimal_parameters : forall wp wq sigma V N e,
  configured KOLAFA_PERRAM [wp; wq] sigma e -> atof wq <> 0 -> 0 < V -> (0 < N)%nat ->
  exists W, chooses e V N W /\ positive W /\ sigma <= ew_eta W /\
    real_space_error (atof wq) 1 V N (ew_eta W) (ew_rCut W) = reciprocal_error (atof wq) 1 V N (ew_eta W) (ew_kCut W) /\
    real_space_error (atof wq) 1 V N (ew_eta W) (ew_rCut W) <= atof wp * (1 + 2 * / 10 ^ 10) /\
    (ew_eta W = sigma \/ atof wp * (1 - / 10 ^ 10) <= real_space_error (atof wq) 1 V N (ew_eta W) (ew_rCut W)).
Proof. exact optimal_parameters. Qed.
Print Assumptions C78_optimal_parameters.
(** The same with a given cutoff in real space; rejected if already the
    unscreened error is not above the precision. *)
Theorem C78_fixed_cutoff : forall wp wq wr sigma V N e,
  configured KOLAFA_PERRAM [wp; wq; wr] sigma e -> atof wq <> 0 -> 0 < atof wr -> 0 < V -> (0 < N)%nat ->
  (atof wp < unscreened_error (atof wq) 1 V N (atof wr) ->
   exists W, chooses e V N W /\ positive W /\ ew_rCut W = atof wr /\
     real_space_error (atof wq) 1 V N (ew_eta W) (ew_rCut W) = atof wp /\
     atof wp <= reciprocal_error (atof wq) 1 V N (ew_eta W) (ew_kCut W) <= atof wp * (1 + / 10 ^ 10)) /\
  (unscreened_error (atof wq) 1 V N (atof wr) <= atof wp -> rejects e V N).
Proof. exact fixed_cutoff. Qed.
Print Assumptions C78_fixed_cutoff.
(** Method of Jackson and Catlow: both Gaussians fall to the precision at the
    cutoffs; a precision of one or more is rejected. *)
Theorem C78_jackson : forall wp sigma V N e,
  configured JACKSON_CATLOW [wp] sigma e -> 0 < V ->
  (atof wp < 1 -> exists W, chooses e V N W /\ positive W /\ ew_eta W ^ 3 * (2 * PI) * sqrt (2 * PI) = V /\
     exp (- ((ew_rCut W / ew_eta W) ^ 2 / 2)) = atof wp /\ exp (- ((ew_kCut W * ew_eta W) ^ 2 / 2)) = atof wp) /\
  (1 <= atof wp -> rejects e V N).
Proof. exact jackson_parameters. Qed.
Print Assumptions C78_jackson.
(** Which words are accepted. *)
Theorem C78_accepted : forall m words,
  (exists e, readFromArgs words (setTruncMethod m sw_init) = Done e) <-> acceptable m words.
Proof. exact accepted_iff. Qed.
Print Assumptions C78_accepted.
(** Words that are accepted although no structure can be treated with them: no
    largest charge for the method of Kolafa and Perram, ... *)
Theorem C78_missing_charge_refuted : exists words e, configured KOLAFA_PERRAM words 1 e /\ forall V N, rejects e V N.
Proof. exact missing_charge. Qed.
Print Assumptions C78_missing_charge_refuted.
(** ... or no "ewald_prec" at all (a default precision is shown in the log). *)
Theorem C78_default_refuted : exists text s m, loadFile settings_init text = (s, 0%nat) /\
  setupElectrostatics physical_units HO None s (electro_init 2) = Done m /\ es_precision (sw_settings (el_ewald m)) = / 10 ^ 6 /\
  forall V N, rejects (el_ewald m) V N.
Proof. exact default_rejects. Qed.
Print Assumptions C78_default_refuted.
(** The permittivity of the settings is not used: the error is twice the
    precision asked for if "four_pi_epsilon" is 0.5. *)
Theorem C78_permittivity_refuted : exists text s m W, loadFile settings_init text = (s, 0%nat) /\
  setupElectrostatics physical_units HO None s (electro_init 2) = Done m /\
  value_of s (lit "ewald_prec") = Done (Some (lit "0.25 4 8")) /\ atof (lit "0.25") = / 4 /\ atof (lit "4") = 4 /\
  chooses (el_ewald m) 1 8 W /\ real_space_error 4 (el_fourPiEps m) 1 8 (ew_eta W) (ew_rCut W) = 2 * / 4.
Proof. exact permittivity_ignored. Qed.
Print Assumptions C78_permittivity_refuted.

Example C78_example_optimal : exists e, configured KOLAFA_PERRAM [lit "0.25"; lit "2"] 1 e /\ atof (lit "2") <> 0.
Proof. exact ex_optimal. Qed.
Example C78_example_fixed : (exists e, configured KOLAFA_PERRAM [lit "0.25"; lit "4"; lit "8"] 1 e) /\ atof (lit "4") <> 0 /\ 0 < atof (lit "8") /\
  atof (lit "0.25") < unscreened_error (atof (lit "4")) 1 1 8 (atof (lit "8")).
Proof. exact ex_fixed. Qed.
Example C78_example_jackson : exists e, configured JACKSON_CATLOW [lit "0.25"] 1 e /\ atof (lit "0.25") < 1.
Proof. exact ex_jackson. Qed.

(** ** C79: the parameters depend on the structure only *)
(** Structures evaluated one after the other: each one gets the parameters and
    the range of the neighbor list it would get as the first one. *)
Theorem C79_history : forall fuel rcutScreen maxCutoff m words sigma e cs out,
  configured m words sigma e \/ (exists cE cL, configured_normalized cE cL m words sigma e) -> Forall filled cs ->
  evaluate_all fuel rcutScreen maxCutoff cs e = Some out ->
  Forall2 (fun c r => exists r' e', evaluation_parameters fuel rcutScreen maxCutoff c e = Some (r', e') /\ fst r' = fst r /\
                                    (ce_periodic c = true -> r' = r)) cs out.
Proof. exact history_configured. Qed.
Print Assumptions C79_history.
(** The neighbor list of a periodic structure reaches as far as the cutoff. *)
Theorem C79_list_reaches : forall fuel rcutScreen maxCutoff cs e out,
  evaluate_all fuel rcutScreen maxCutoff cs e = Some out ->
  Forall2 (fun c r => ce_periodic c = true -> ew_rCut (snd r) <= fst r) cs out.
Proof. exact list_reaches. Qed.
Print Assumptions C79_list_reaches.
(** In normalized units the same parameters are chosen, converted. *)
Theorem C79_units : forall cE cL m words sigma e e' V N W, 0 < cE -> 0 < cL -> 0 < V -> (0 < N)%nat -> sensible words ->
  configured m words sigma e -> configured_normalized cE cL m words sigma e' ->
  chooses e V N W -> chooses e' (V * cL ^ 3) N (mkEwald (ew_eta W * cL) (ew_rCut W * cL) (ew_kCut W / cL)).
Proof. exact units_chooses_spelled. Qed.
Print Assumptions C79_units.
Theorem C79_units_rejected : forall cE cL m words sigma e e' V N, 0 < cE -> 0 < cL -> 0 < V -> (0 < N)%nat -> sensible words ->
  configured m words sigma e -> configured_normalized cE cL m words sigma e' ->
  rejects e V N -> rejects e' (V * cL ^ 3) N.
Proof. exact units_rejects. Qed.
Print Assumptions C79_units_rejected.
(** In training all structures are treated with the parameters of the last one:
    the neighbor list of a smaller cell does not reach the cutoff. *)
Theorem C79_training_refuted : exists words e cs radii W, configured JACKSON_CATLOW words 0 e /\ Forall filled cs /\
  Forall (fun c => ce_periodic c = true) cs /\
  (forall fuel, training_parameters fuel 0 1 cs e = Some (map (fun r => (r, W)) radii)) /\
  (exists r, In r radii /\ r < ew_rCut W) /\
  exists c W', In c cs /\ chooses e (ce_volume c) (ce_numAtoms c) W' /\ W' <> W.
Proof. exact training_last. Qed.
Print Assumptions C79_training_refuted.
(** A second call after an exception returns without parameters. *)
Theorem C79_after_failure_refuted : exists words e e1 e2, configured JACKSON_CATLOW words 0 e /\ forall fuel,
  calculateParameters fuel 1 1 e = Some (e1, false) /\ calculateParameters fuel 1 1 e1 = Some (e2, true) /\ sw_params e2 = mkEwald 0 0 0.
Proof. exact after_failure. Qed.
Print Assumptions C79_after_failure_refuted.

Example C79_example : exists e out, configured JACKSON_CATLOW [lit "0.25"] 0 e /\ Forall filled [small_cell; large_cell; small_cell] /\
  forall fuel, evaluate_all fuel 0 1 [small_cell; large_cell; small_cell] e = Some out.
Proof. exact ex_history. Qed.
Example C79_example_units : exists e e', configured KOLAFA_PERRAM [lit "0.25"; lit "2"] 1 e /\
  configured_normalized 4 2 KOLAFA_PERRAM [lit "0.25"; lit "2"] 1 e' /\ sensible [lit "0.25"; lit "2"].
Proof. exact ex_units. Qed.

(** ** C80: electrostatics settings reach the elements *)
(** Each element has the hardness of the last line that names it, ... *)
Theorem C80_hardness : forall cv em s n m, setupElectrostatics cv em None s (electro_init n) = Done m ->
  exists lines, getValues s (lit "initial_hardness") = Some lines /\ List.length (el_hardness m) = n /\
  forall i, (i < n)%nat -> exists x, last_value em i lines x /\
    nth_error (el_hardness m) i = Some (match x with None => 0 | Some w => atof w * hardness_factor cv end).
Proof. exact (fun cv em s n m H => hardness_read cv em None s n m H eq_refl). Qed.
Print Assumptions C80_hardness.
(** ... or that in its file, ... *)
Theorem C80_hardness_files : forall cv em texts s n m, setupElectrostatics cv em (Some texts) s (electro_init n) = Done m ->
  List.length (el_hardness m) = List.length texts /\
  forall i text, nth_error texts i = Some text ->
    exists h, readHardness text = Done (Some h) /\ nth_error (el_hardness m) i = Some (h * hardness_factor cv).
Proof. exact (fun cv em texts s n m H => hardness_from_files cv em (Some texts) s n m H texts eq_refl). Qed.
Print Assumptions C80_hardness_files.
(** ... and the width of the last line that names it. *)
Theorem C80_widths : forall cv em files s n m, setupElectrostatics cv em files s (electro_init n) = Done m ->
  exists lines, getValues s (lit "fixed_gausswidth") = Some lines /\ List.length (el_qsigma m) = n /\
  forall i, (i < n)%nat -> exists x, last_value em i lines x /\
    nth_error (el_qsigma m) i = Some (match x with None => 0 | Some w => atof w * length_factor cv end).
Proof. exact widths_read. Qed.
Print Assumptions C80_widths.
(** The Ewald setup is the one of C78 and C79, with the words of "ewald_prec" and
    a largest width that is not smaller than that of any element. *)
Theorem C80_ewald : forall cv em files s n m, setupElectrostatics cv em files s (electro_init n) = Done m ->
  (cv_normalize cv = true -> 0 < cv_length cv) ->
  exists method prec, value_of s (lit "ewald_truncation_error_method") = Done method /\ value_of s (lit "ewald_prec") = Done prec /\
  match prec with
  | Some w => exists sigma, Forall (fun q => q <= sigma * length_factor cv) (el_qsigma m) /\
      if cv_normalize cv then configured_normalized (cv_energy cv) (cv_length cv) (chosen_method method) (split w ch_space) sigma (el_ewald m)
      else configured (chosen_method method) (split w ch_space) sigma (el_ewald m)
  | None => chosen_method method = JACKSON_CATLOW /\ forall V N, rejects (el_ewald m) V N
  end.
Proof. exact ewald_read. Qed.
Print Assumptions C80_ewald.
Theorem C80_permittivity : forall cv em files s n m, setupElectrostatics cv em files s (electro_init n) = Done m ->
  exists eps, value_of s (lit "four_pi_epsilon") = Done eps /\
  el_fourPiEps m = match eps with Some w => atof w | None => 1 end * permittivity_factor cv.
Proof. exact permittivity_read. Qed.
Print Assumptions C80_permittivity.
(** The screening function has the limits and the type of the settings, or is
    one everywhere. *)
Theorem C80_screening : forall cv em files s n m, setupElectrostatics cv em files s (electro_init n) = Done m ->
  (cv_normalize cv = true -> 0 < cv_length cv) ->
  exists screen, value_of s (lit "screen_electrostatics") = Done screen /\
  match screen with
  | None => forall r, 0 <= r -> sc_f (el_fs m) r = 1
  | Some w => exists inner outer rest k fs, split w ch_space = inner :: outer :: rest /\
      core_of (match rest with [] => lit "c" | t :: _ => t end) = Done k /\
      screening_config k (atof inner) (atof outer) = Some fs /\
      forall r, sc_f (el_fs m) (r * length_factor cv) = sc_f fs r
  end.
Proof. exact screening_read. Qed.
Print Assumptions C80_screening.
(** Elements without a line get zero without a message. *)
Theorem C80_missing_width_refuted : exists text s m, loadFile settings_init text = (s, 0%nat) /\
  setupElectrostatics physical_units HO None s (electro_init 2) = Done m /\ nth_error (el_qsigma m) 0 = Some 0 /\ nth_error (el_hardness m) 1 = Some 0.
Proof. exact missing_width. Qed.
Print Assumptions C80_missing_width_refuted.

Example C80_example : loadFile settings_init elec_text = (elec_settings, 0%nat) /\ registerElements em_init (lit "H O") = Some (HO, 2%nat) /\
  (exists m, setupElectrostatics physical_units HO None elec_settings (electro_init 2) = Done m) /\
  exists m, setupElectrostatics normalized_units HO None elec_settings (electro_init 2) = Done m.
Proof. exact ex_settings_read. Qed.
