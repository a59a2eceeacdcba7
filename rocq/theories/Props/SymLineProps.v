(** Properties C72 (symmetry functions from the settings file) and C73
    (pruning). *)
From Coq Require Import Reals ZArith Ascii String Bool Arith Permutation Sorted.
From Coq Require Import List.
From Verif Require Import Base.AssocMap Model.Strings Model.Printf Model.ElementMap Model.CutoffFunction
  Model.SymFunctions Model.SymSetup Model.SymLines Model.Settings Spec.StringSpec
  Spec.SymSpec Spec.SetupSpec Spec.ForceSpec Spec.SymLineSpec Proofs.SetupExamples
  Proofs.SymLineSetup Proofs.SymLineFinal Proofs.SymLineResult Proofs.SymLineUse Proofs.SymLinePrune Proofs.SymLineExamples.
Import ListNotations.
Local Open Scope R_scope.

(** ** C72 *)
(** The set-up succeeds exactly for the lines which follow the documented
    format. *)
Theorem C72_accepted : forall em normalize conv t alpha sort values, registered em -> 0 < conv -> sorts lf_lt sort ->
  (exists fss rmax, setupSymmetryFunctions sort em normalize conv t alpha values = Done (fss, rmax)) <->
  forall v, In v values -> exists ec k, describes em t alpha (fst v) ec k.
Proof. exact (fun em normalize conv t alpha sort values HR Hc => accepted em normalize conv t alpha HR Hc sort values). Qed.
Print Assumptions C72_accepted.

(** A line has one meaning only. *)
Theorem C72_meaning_unique : forall em t alpha line ec k ec' k',
  describes em t alpha line ec k -> describes em t alpha line ec' k' -> ec' = ec /\ k' = k.
Proof. exact describes_unique. Qed.
Print Assumptions C72_meaning_unique.

(** Each line becomes one function, with the line's parameters in the internal
    unit and the line's number, in the list of its element; each list is sorted
    and numbered from 0; the largest cutoff radius is the maximum. *)
Theorem C72_functions : forall em normalize conv t alpha sort values fss rmax, registered em -> 0 < conv -> sorts lf_lt sort ->
  setupSymmetryFunctions sort em normalize conv t alpha values = Done (fss, rmax) ->
  length fss = em_size em /\
  (exists vss, Permutation (concat vss) values /\ Forall2 (Forall2 (made_from em normalize conv t alpha)) vss fss) /\
  (forall e fs f, nth_error fss e = Some fs -> In f fs -> lf_ec f = e) /\
  Forall (fun fs => StronglySorted (fun f g => lf_lt g f = false) fs /\ numbered (map lf_sf fs)) fss /\
  (forall fs f, In fs fss -> In f fs -> cutoff_of (lf_kind f) <= rmax) /\
  0 <= rmax /\ (rmax = 0 \/ exists fs f, In fs fss /\ In f fs /\ rmax = cutoff_of (lf_kind f)).
Proof. exact (fun em normalize conv t alpha sort values fss rmax HR Hc => functions em normalize conv t alpha HR Hc sort values fss rmax). Qed.
Print Assumptions C72_functions.

(** The order of the lines does not matter, nor how std::sort treats ties: same
    functions with same numbers. *)
Theorem C72_order_independent : forall em normalize conv t alpha sort sort' values values' fss rmax, registered em -> 0 < conv ->
  sorts lf_lt sort -> sorts lf_lt sort' -> Permutation values values' ->
  setupSymmetryFunctions sort em normalize conv t alpha values = Done (fss, rmax) ->
  exists fss', setupSymmetryFunctions sort' em normalize conv t alpha values' = Done (fss', rmax) /\
    map (map lf_sf) fss' = map (map lf_sf) fss.
Proof. exact (fun em normalize conv t alpha sort sort' values values' fss rmax HR Hc => order_independent em normalize conv t alpha HR Hc sort sort' values values' fss rmax). Qed.
Print Assumptions C72_order_independent.

(** The comparison is what std::sort requires. *)
Theorem C72_order : strict_weak_order (fun _ => True) lf_lt.
Proof. exact lf_lt_order. Qed.
Print Assumptions C72_order.

(** The function in internal units has, for the environment in internal units,
    the value the line describes for the environment in the file's units. *)
Theorem C72_values : forall em (normalize : bool) conv t alpha v f k, 0 < conv -> made_from em normalize conv t alpha v f ->
  describes em t alpha (fst v) (lf_ec f) k -> ordinary k ->
  admissible (lf_kind f) /\
  forall Z e, sf_value Z (lf_kind f) (if normalize then scaled conv e else e) = sf_value Z k e.
Proof. exact made_value. Qed.
Print Assumptions C72_values.

(** The functions set up meet the requirements of the theorems about energies
    and forces (C34, C68-C71). *)
Theorem C72_usable : forall em normalize conv t alpha sort values fss rmax, registered em -> 0 < conv -> sorts lf_lt sort ->
  setupSymmetryFunctions sort em normalize conv t alpha values = Done (fss, rmax) ->
  (forall v ec k, In v values -> describes em t alpha (fst v) ec k -> ordinary k) ->
  forall fs, In fs fss -> fs <> [] -> usable rmax (map lf_sf fs).
Proof. exact made_usable. Qed.
Print Assumptions C72_usable.

(** The cutoff type and its parameter, as documented except for negative
    parameters. *)
Theorem C72_cutoff : forall value t alpha, reduce value = value ->
  setupCutoff value = Done (t, alpha) <->
  exists ws, is_words value ws /\ type_no ws 0 (Z.of_nat (cutoff_number t)) /\
    (num ws 1 alpha \/ (length ws <= 1)%nat /\ alpha = 0) /\ alpha < 1.
Proof. exact cutoff_setting. Qed.
Print Assumptions C72_cutoff.

(** A negative parameter passes the check in setupCutoff ... *)
Theorem C72_cutoff_parameter_refuted : exists value t alpha, reduce value = value /\ setupCutoff value = Done (t, alpha) /\ alpha < 0.
Proof. exact negative_alpha. Qed.
Print Assumptions C72_cutoff_parameter_refuted.

(** ... but no function with a cutoff function is made from it. *)
Theorem C72_cutoff_parameter : forall em t alpha line ec k, describes em t alpha line ec k -> is_gaussian k = true -> 0 <= alpha < 1.
Proof. exact gaussian_alpha. Qed.
Print Assumptions C72_cutoff_parameter.

Example C72_case : exists s fss rmax, registered HO /\ sorts lf_lt (isort lf_lt) /\
  loadFile settings_init ex_settings = (s, 0%nat) /\ getValues s (lit "symfunction_short") = Some ex_values /\
  setupSymmetryFunctions (isort lf_lt) HO true (/ 2) CT_COS 0 ex_values = Done (fss, rmax) /\
  (forall v ec k, In v ex_values -> describes HO CT_COS 0 (fst v) ec k -> ordinary k).
Proof. exact ex_case. Qed.
Example C72_case_values : exists v f k, In v ex_values /\ made_from HO true (/ 2) CT_COS 0 v f /\
  describes HO CT_COS 0 (fst v) (lf_ec f) k /\ ordinary k.
Proof. exact ex_values_case. Qed.
Example C72_case_cutoff : reduce (lit "5 0") = lit "5 0" /\ setupCutoff (lit "5 0") = Done (CT_POLY1, 0).
Proof. exact ex_cutoff. Qed.

(** ** C73 *)
(** After pruning by range and loading the written file the functions are, in
    order, those with a range of at least the threshold; all other settings are
    unchanged. *)
Theorem C73_range : forall em normalize conv t alpha text s values sort sort' fss elements rmax threshold, registered em -> 0 < conv ->
  loadFile settings_init text = (s, 0%nat) -> getValues s (lit "symfunction_short") = Some values ->
  sorts lf_lt sort -> sorts lf_lt sort' ->
  setupSymmetryFunctions sort em normalize conv t alpha values = Done (fss, rmax) -> same_functions fss elements ->
  (exists fs f, In fs elements /\ In f fs /\ wide threshold f = true) ->
  exists s' values' fss' rmax', loadFile settings_init (writePrunedSettingsFile s (pruneRange threshold elements)) = (s', 0%nat) /\
    getValues s' (lit "symfunction_short") = Some values' /\
    setupSymmetryFunctions sort' em normalize conv t alpha values' = Done (fss', rmax') /\
    (forall kw, ~ In kw [lit "symfunction_short"; lit "symfunction"] ->
       getValue s' kw = getValue s kw /\ getValues s' kw = getValues s kw /\ forall b, keywordExists s' kw b = keywordExists s kw b) /\
    Forall2 (fun fs fs' => map lf_kind fs' = map lf_kind (filter (wide threshold) fs)) elements fss'.
Proof.
  exact (fun em normalize conv t alpha text s values sort sort' fss elements rmax threshold HR Hc Hl Hv Hs Hs' Hf He =>
    reload_range em normalize conv t alpha HR Hc text s values sort fss elements rmax Hl Hv Hs Hf He threshold sort' Hs').
Qed.
Print Assumptions C73_range.

(** The same for pruning by sensitivity. *)
Theorem C73_sensitivity : forall em normalize conv t alpha text s values sort sort' fss elements rmax threshold sens prune, registered em -> 0 < conv ->
  loadFile settings_init text = (s, 0%nat) -> getValues s (lit "symfunction_short") = Some values ->
  sorts lf_lt sort -> sorts lf_lt sort' ->
  setupSymmetryFunctions sort em normalize conv t alpha values = Done (fss, rmax) -> same_functions fss elements ->
  pruneSensitivity threshold sens elements = Done prune ->
  (exists e fs, nth_error elements e = Some fs /\ sensitive threshold sens e fs <> []) ->
  exists s' values' fss' rmax', loadFile settings_init (writePrunedSettingsFile s prune) = (s', 0%nat) /\
    getValues s' (lit "symfunction_short") = Some values' /\
    setupSymmetryFunctions sort' em normalize conv t alpha values' = Done (fss', rmax') /\
    (forall kw, ~ In kw [lit "symfunction_short"; lit "symfunction"] ->
       getValue s' kw = getValue s kw /\ getValues s' kw = getValues s kw /\ forall b, keywordExists s' kw b = keywordExists s kw b) /\
    length fss' = length elements /\
    forall e fs, nth_error elements e = Some fs ->
      exists fs', nth_error fss' e = Some fs' /\ map lf_kind fs' = map lf_kind (sensitive threshold sens e fs).
Proof.
  exact (fun em normalize conv t alpha text s values sort sort' fss elements rmax threshold sens prune HR Hc Hl Hv Hs Hs' Hf He =>
    reload_sensitivity em normalize conv t alpha HR Hc text s values sort fss elements rmax Hl Hv Hs Hf He threshold sens prune sort' Hs').
Qed.
Print Assumptions C73_sensitivity.

(** Pruning by sensitivity needs a sensitivity for each function, and that is
    enough; otherwise there is an exception. *)
Theorem C73_sensitivity_accepted : forall elements threshold sens, (exists prune, pruneSensitivity threshold sens elements = Done prune) <->
  forall e fs, nth_error elements e = Some fs -> (length fs <= length (nth e sens []))%nat.
Proof. exact sensitivity_accepted. Qed.
Print Assumptions C73_sensitivity_accepted.

Example C73_case : exists s fss rmax elements prune, registered HO /\ sorts lf_lt (isort lf_lt) /\
  loadFile settings_init ex_settings = (s, 0%nat) /\ getValues s (lit "symfunction_short") = Some ex_values /\
  setupSymmetryFunctions (isort lf_lt) HO true (/ 2) CT_COS 0 ex_values = Done (fss, rmax) /\
  same_functions fss elements /\ (exists fs f, In fs elements /\ In f fs /\ wide 4 f = true) /\
  (exists fs f, In fs elements /\ In f fs /\ wide 4 f = false) /\
  pruneSensitivity 1 ex_sensitivity elements = Done prune /\
  exists e fs, nth_error elements e = Some fs /\ sensitive 1 ex_sensitivity e fs <> [].
Proof. exact ex_prune. Qed.
