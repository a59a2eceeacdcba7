(** C92: normalization constants written by training and used by later runs. *)
From Coq Require Import Reals List Ascii String.
From Verif Require Import Model.Strings Model.Settings Model.Printf Model.SymLines Model.NormalizationSetup
  Spec.SettingsSpec Spec.PrintfSpec Spec.NormalizationSpec Spec.NormalizationSetupSpec
  Proofs.NormalizationSetupProofs Proofs.NormalizationSetupMain Proofs.NormalizationSetupExamples.
From Coq Require Import List.
Import ListNotations.
Local Open Scope R_scope.

(** C92: for all settings the set-up either uses the first values given for the
    three constants (and the charge factor if there is one), or is not used
    because none of the keywords occurs, or ends with an exception because only
    some of the three are given. *)
Theorem C92_setup : forall s m, match setupNormalization s m with
  | Done n =>
      (nm_use n = true /\ (exists v, first_value kME s v /\ nm_mean n = atof v) /\ (exists v, first_value kCE s v /\ nm_cE n = atof v) /\
       (exists v, first_value kCL s v /\ nm_cL n = atof v) /\ charge_factor s (nm_cQ m) (nm_cQ n)) \/
      ((forall k, In k [kME; kCE; kCL; kCQ] -> ~ occurs k (s_contents s)) /\ nm_use n = false /\
       nm_mean n = nm_mean m /\ nm_cE n = nm_cE m /\ nm_cL n = nm_cL m /\ nm_cQ n = nm_cQ m)
  | Thrown => (exists k, In k [kME; kCE; kCL; kCQ] /\ occurs k (s_contents s)) /\ (exists k, In k [kME; kCE; kCL] /\ ~ occurs k (s_contents s))
  | Undefined => False
  end.
Proof. exact setup_spec. Qed.
Print Assumptions C92_setup.

(** C92: the settings file training writes is accepted and read back by later
    runs with exactly the constants training computed, the charge factor of the
    file and all other settings unchanged, if the keywords are at the beginning
    of their lines and all three or none were given before (without these two
    conditions it is false, see the two theorems below). *)
Theorem C92_round_trip_partial : forall text s m e l, Forall regular_line (readFile text) -> loadSettingsFile text = Done s -> well_placed text ->
  ((forall k, In k [kME; kCE; kCL] -> exists v, gives text k v) \/ (forall k v, In k [kME; kCE; kCL] -> ~ gives text k v)) ->
  double m -> double e -> double l ->
  exists s'' n, loadSettingsFile (newInput m e l s) = Done s'' /\ setupNormalization s'' norm_init = Done n /\
    nm_use n = true /\ nm_mean n = m /\ nm_cE n = e /\ nm_cL n = l /\ charge_factor s 1 (nm_cQ n) /\ other_settings s'' = other_settings s.
Proof. exact round_trip. Qed.
Print Assumptions C92_round_trip_partial.

(** C92: if a keyword is given but not at the beginning of a line the settings
    file training writes is always rejected by later runs. *)
Theorem C92_unrecognised_keyword : forall text s m e l k v, Forall regular_line (readFile text) -> loadSettingsFile text = Done s ->
  (forall line k', In line (readFile text) -> In k' [kME; kCE; kCL] -> ~ sets_keyword k' line) ->
  In k [kME; kCE; kCL] -> gives text k v -> loadSettingsFile (newInput m e l s) = Thrown.
Proof. exact unrecognised. Qed.
Print Assumptions C92_unrecognised_keyword.

(** C92: there is a file with all three keywords, accepted and used, for which
    the file training writes is rejected. *)
Theorem C92_indented_refuted : exists text s v, Forall regular_line (readFile text) /\ loadSettingsFile text = Done s /\ gives text kME v /\
  (exists n, setupNormalization s norm_init = Done n /\ nm_use n = true) /\ forall m e l, loadSettingsFile (newInput m e l s) = Thrown.
Proof. exact indented_rejected. Qed.
Print Assumptions C92_indented_refuted.

(** C92: there is a file with one keyword, at the beginning of its line, for which
    later runs stop with an exception whatever training computed. *)
Theorem C92_incomplete_refuted : exists text s, Forall regular_line (readFile text) /\ loadSettingsFile text = Done s /\ well_placed text /\
  forall m e l, exists s', loadSettingsFile (newInput m e l s) = Done s' /\ setupNormalization s' norm_init = Thrown.
Proof. exact incomplete. Qed.
Print Assumptions C92_incomplete_refuted.

(** The hypotheses are met by a file without the keywords, *)
Example C92_plain_file : Forall regular_line (readFile plain_text) /\ (exists s, loadSettingsFile plain_text = Done s) /\ well_placed plain_text /\
  (forall k v, In k [kME; kCE; kCL] -> ~ gives plain_text k v).
Proof. exact plain_ok. Qed.
(** by one with constants from before, *)
Example C92_old_file : Forall regular_line (readFile old_text) /\ (exists s, loadSettingsFile old_text = Done s) /\ well_placed old_text /\
  (forall k, In k [kME; kCE; kCL] -> exists v, gives old_text k v) /\ gives old_text kCQ (lit "2").
Proof. exact old_ok. Qed.
(** and those of [C92_unrecognised_keyword] by a file with indented lines. *)
Example C92_indented_file : Forall regular_line (readFile indented_text) /\ (exists s, loadSettingsFile indented_text = Done s) /\
  (forall line k, In line (readFile indented_text) -> In k [kME; kCE; kCL] -> ~ sets_keyword k line) /\
  (forall k, In k [kME; kCE; kCL] -> exists v, gives indented_text k v).
Proof. exact indented_ok. Qed.
