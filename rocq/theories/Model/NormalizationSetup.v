(** Model of the way normalization constants take from training to later runs:
    lines written to input.nn by Training::dataSetNormalization, reading them in
    Mode::setupNormalization.

    Statistics and the choice of lines are in Normalization.v, the settings file
    in Settings.v, number formats in Printf.v.  Log output is left out. *)
From Coq Require Import Reals List Bool Arith String.
From Verif Require Import Model.Strings Model.Settings Model.Printf Model.SymLines Model.Normalization.
From Coq Require Import List.
Import ListNotations.
Local Open Scope R_scope.

(** src/libnnp/Mode.cpp:161-175 loadSettingsFile: critical problems are an
    error.  The type of the potential (lines 177-205) is left out. *)
Definition loadSettingsFile (text : str) : outcome settings :=
  let (s, n) := loadFile settings_init text in
  if Nat.ltb 0 n then Thrown else Done s.

(** Mode.h: normalize, meanEnergy, convEnergy, convLength, convCharge; Mode.cpp:40-53
    (constructor). *)
Record norm := mkNorm { nm_use : bool; nm_mean : R; nm_cE : R; nm_cL : R; nm_cQ : R }.
Definition norm_init : norm := mkNorm false 0 1 1 1.

(** Mode.cpp:238-299 setupNormalization.  keywordExists is evaluated lazily in
    the program; for these keywords it never throws. *)
Definition setupNormalization (s : settings) (m : norm) : outcome norm :=
  let ke k := throwing (keywordExists s (lit k) false) in
  me <- ke "mean_energy"%string; ce <- ke "conv_energy"%string; cl <- ke "conv_length"%string; cq <- ke "conv_charge"%string;
  if (me && ce && cl)%bool then
    v1 <- throwing (getValue s (lit "mean_energy")); v2 <- throwing (getValue s (lit "conv_energy")); v3 <- throwing (getValue s (lit "conv_length"));
    if cq then v4 <- throwing (getValue s (lit "conv_charge")); Done (mkNorm true (atof v1) (atof v2) (atof v3) (atof v4))
    else Done (mkNorm true (atof v1) (atof v2) (atof v3) (nm_cQ m))
  else if (negb me && negb ce && negb cl && negb cq)%bool then Done (mkNorm false (nm_mean m) (nm_cE m) (nm_cL m) (nm_cQ m))
  else Thrown.

(** src/libnnptrain/Training.cpp:663-668: the lines (without end of line). *)
Definition norm_line (keyword : str) (v : R) : str := keyword ++ lit " " ++ fmt24 v ++ lit " # nnp-train".
(** Lines 671-685: map<size_t, string> replace, for lines [i], [i+1], ... *)
Fixpoint replace_map (n1 n2 n3 : str) (lines : list str) (i : nat) : list (nat * str) :=
  match lines with
  | [] => []
  | l :: ls => match replacement n1 n2 n3 l with
               | Some r => (i, r ++ [ch_lf]) :: replace_map n1 n2 n3 ls (S i)
               | None => replace_map n1 n2 n3 ls (S i)
               end
  end.
(** Lines 663-706: the text of the new input.nn; Settings::writeSettingsFile writes
    the old lines with replacements. *)
Definition newInput (mean cE cL : R) (s : settings) : str :=
  let n1 := norm_line (lit "mean_energy") mean in
  let n2 := norm_line (lit "conv_energy") cE in
  let n3 := norm_line (lit "conv_length") cL in
  let replace := replace_map n1 n2 n3 (s_lines s) 0 in
  (match replace with
   | [] => List.concat (map (fun l => l ++ [ch_lf]) [hashes; lit "# DATA SET NORMALIZATION"; hashes; n1; n2; n3; hashes; []])
   | _ => []
   end) ++ writeSettingsFile s replace.
