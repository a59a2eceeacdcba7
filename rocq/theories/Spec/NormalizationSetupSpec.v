(** What normalization keywords in a settings file mean (C92). *)
From Coq Require Import Reals String List Ascii Arith.
From Verif Require Import Model.Strings Model.Settings Model.Printf Model.NormalizationSetup Spec.SettingsSpec Spec.NormalizationSpec.
From Coq Require Import List.
Import ListNotations.
Local Open Scope R_scope.

Definition kCQ := lit "conv_charge".
(** The first occurrence of the keyword has the value v. *)
Definition first_value (k : str) (s : settings) (v : str) : Prop :=
  exists c1 i c2, s_contents s = c1 ++ (k, (v, i)) :: c2 /\ ~ In k (map fst c1).
(** The conversion factor of charges: that of the file, or as before. *)
Definition charge_factor (s : settings) (before q : R) : Prop :=
  (exists v, first_value kCQ s v /\ q = atof v) \/ (~ occurs kCQ (s_contents s) /\ q = before).
(** A line of the file gives keyword k the value v. *)
Definition gives (text k v : str) : Prop := exists line, In line (readFile text) /\ line_entry line k v.
(** Normalization keywords are at the beginning of their lines, followed by a
    blank or nothing. *)
Definition well_placed (text : str) : Prop :=
  forall line k v, In line (readFile text) -> In k [kME; kCE; kCL] -> line_entry line k v -> sets_keyword k line.
(** The settings without the three keywords: keywords and values in order. *)
Definition other_settings (s : settings) : list (str * str) :=
  map (fun e => (fst e, fst (snd e))) (filter (fun e => negb (mem (fst e) [kME; kCE; kCL])) (s_contents s)).
