(** Model of the learning curve file: Training.cpp (src/libnnptrain)
    writeLearningCurve and the names set in the constructor of
    Training::Property.

    The file is its text.  The name of the file is modelled in TrainingSetup
    (curve_name).  The maps p and pk are one list of properties in the order of
    pk. *)
From Coq Require Import Reals List Bool Arith Ascii String.
From Coq Require Import List.
From Verif Require Import Base.AssocMap Model.Strings Model.Printf Model.Settings Model.SymLines Model.DataFiles Model.Units Model.Errors.
Import ListNotations.
Local Open Scope R_scope.

(** Conversion %16.8E. *)
Definition fmt16 (v : R) : str := pad (print_E 8 v) 16 ch_space false.

(** Training.cpp:4104-4130: tiny and plural; [Thrown]: unknown property. *)
Definition tiny_plural (k : str) : outcome (str * str) :=
  if str_eqb k (lit "energy") then Done (lit "E", lit "energies")
  else if str_eqb k (lit "force") then Done (lit "F", lit "forces")
  else if str_eqb k (lit "charge") then Done (lit "Q", lit "charges")
  else Thrown.
(** A property after its construction and the last calculateError: key, tiny,
    plural, errorMetrics, errorTrain, errorTest. *)
Record cproperty := mkCP { cp_key : str; cp_tiny : str; cp_plural : str; cp_metrics : list str; cp_train : emap; cp_test : emap }.
(** Training.cpp:4081-4138; the maps start with zeros (4132-4137). *)
Definition construct (k : str) (train test : emap) : outcome cproperty :=
  tp <- tiny_plural k; Done (mkCP k (fst tp) (snd tp) (metric_keys k) train test).
(** The members writeLearningCurve reads. *)
Record curve := mkCurve { cu_props : list cproperty; cu_normalize : bool; cu_energy : R; cu_length : R; cu_charge : R; cu_epoch : nat }.

Definition is_converted (k : str) : bool := (str_eqb k (lit "energy") || str_eqb k (lit "force") || str_eqb k (lit "charge"))%bool.
(** Training.cpp:1762-1766: text[m] with the two names put in; an unknown metric
    has an empty text. *)
Definition metric_text (m what : str) : str :=
  if str_eqb m (lit "RMSEpa") then lit "RMSE of " ++ what ++ lit " per atom"
  else if str_eqb m (lit "RMSE") then lit "RMSE of " ++ what
  else if str_eqb m (lit "MAEpa") then lit "MAE of " ++ what ++ lit " per atom"
  else if str_eqb m (lit "MAE") then lit "MAE of " ++ what
  else [].
(** Training.cpp:1768-1785 and 1788-1809: the two columns of every metric of a
    property, name and description; strpr's buffer is large enough for these
    texts. *)
Definition property_columns (suffix units : str) (p : cproperty) : list (str * str) :=
  flat_map (fun m =>
    [(m ++ lit "_" ++ cp_tiny p ++ lit "train" ++ suffix, metric_text m (lit "training " ++ cp_plural p) ++ units);
     (m ++ lit "_" ++ cp_tiny p ++ lit "test" ++ suffix, metric_text m (lit "test " ++ cp_plural p) ++ units)]) (cp_metrics p).
Definition curve_columns (c : curve) : list (str * str) :=
  flat_map (property_columns (lit "_pu") (lit " (physical units)")) (cu_props c) ++
  (if cu_normalize c
   then flat_map (fun p => if is_converted (cp_key p) then property_columns (lit "_iu") (lit " (training units)") p else []) (cu_props c)
   else []).
(** Training.cpp:1752-1812. *)
Definition curve_header (c : curve) : outcome (list str) :=
  let cols := curve_columns c in
  createFileHeader (lit "Learning curves for training properties:" :: map (fun p => lit " * " ++ cp_plural p) (cu_props c))
    (10%nat :: map (fun _ => 16%nat) cols) (lit "epoch" :: map fst cols) (lit "Current epoch." :: map snd cols) ch_hash.

(** Training.cpp:1823-1825 and 1834-1836. *)
Definition pair_text (a b : R) : outcome str := undefined_if_long (strpr (lit " " ++ fmt16 a ++ lit " " ++ fmt16 b)).
(** error.at(m) *)
Definition error_at (m : str) (e : emap) : outcome R := throwing (mget str_eqb m e).
(** Training.cpp:1815-1829. *)
Definition physical_texts (c : curve) (p : cproperty) : outcome str :=
  if is_converted (cp_key p) then
    ts <- mapo (fun m =>
      a <- error_at m (cp_train p); a <- throwing (physical (cu_energy c) (cu_length c) (cu_charge c) (cp_key p) a);
      b <- error_at m (cp_test p); b <- throwing (physical (cu_energy c) (cu_length c) (cu_charge c) (cp_key p) b);
      pair_text a b) (cp_metrics p);
    Done (List.concat ts)
  else Done [].
(** Training.cpp:1830-1838. *)
Definition internal_texts (p : cproperty) : outcome str :=
  ts <- mapo (fun m => a <- error_at m (cp_train p); b <- error_at m (cp_test p); pair_text a b) (cp_metrics p);
  Done (List.concat ts).
(** Training.cpp:1814-1839: the line of the current epoch. *)
Definition curve_row (c : curve) : outcome str :=
  e <- undefined_if_long (strpr (fmt_d 10 (cu_epoch c)));
  ph <- (if cu_normalize c then mapo (physical_texts c) (cu_props c) else Done []);
  int <- mapo internal_texts (cu_props c);
  Done (e ++ List.concat ph ++ List.concat int).
(** Training.cpp:1734-1842: the new contents of a file with contents [old]. *)
Definition writeLearningCurve (c : curve) (append : bool) (old : str) : outcome str :=
  start <- (if append then Done old else (h <- curve_header c; Done (appendLines h)));
  row <- curve_row c;
  Done (start ++ row ++ [ch_lf]).
