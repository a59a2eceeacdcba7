(** Model of the error metrics: Structure.cpp, Atom.cpp (src/libnnp)
    updateError, Dataset.cpp collectError and Training.cpp (src/libnnptrain)
    calculateError.  Structures already contain the predicted energies, forces and
    charges (their calculation is the subject of other model files). *)
From Coq Require Import Reals List Bool Arith String.
From Coq Require Import List.
From Verif Require Import Base.Vec3 Base.AssocMap Model.Strings Model.SymFunctions Model.Units.
Import ListNotations.
Local Open Scope R_scope.

(** map<string, double> of error metrics. *)
Definition emap := list (str * R).
(** error.at(k) += x; [None] = out_of_range. *)
Definition at_add (k : str) (x : R) (m : emap) : option emap :=
  match mget str_eqb k m with None => None | Some v => Some (mset str_eqb k (v + x) m) end.
Definition obind {A B} (x : option A) (f : A -> option B) : option B := match x with None => None | Some a => f a end.

(** Atom.cpp:347-369 updateError. *)
Definition atom_updateError (property : str) (a : qatom) (st : emap * nat) : option (emap * nat) :=
  let (error, count) := st in
  if str_eqb property (lit "force") then
    obind (at_add (lit "RMSE") (norm2 (vsub (q_fRef a) (q_f a))) error) (fun error =>
    obind (at_add (lit "MAE") (l1norm (vsub (q_fRef a) (q_f a))) error) (fun error => Some (error, count + 3)%nat))
  else if str_eqb property (lit "charge") then
    obind (at_add (lit "RMSE") ((q_chargeRef a - q_charge a) * (q_chargeRef a - q_charge a)) error) (fun error =>
    obind (at_add (lit "MAE") (Rabs (q_chargeRef a - q_charge a)) error) (fun error => Some (error, count + 1)%nat))
  else None.
(** Structure.cpp:1386-1414 updateError (size_t product numAtoms * numAtoms
    without wrap-around). *)
Definition updateError (property : str) (s : qstructure) (st : emap * nat) : option (emap * nat) :=
  let (error, count) := st in
  if str_eqb property (lit "energy") then
    let diff := qs_energyRef s - qs_energy s in
    obind (at_add (lit "RMSEpa") (diff * diff / INR (qs_numAtoms s * qs_numAtoms s)) error) (fun error =>
    obind (at_add (lit "RMSE") (diff * diff) error) (fun error =>
    let diff := Rabs diff in
    obind (at_add (lit "MAEpa") (diff / INR (qs_numAtoms s)) error) (fun error =>
    obind (at_add (lit "MAE") diff error) (fun error => Some (error, count + 1)%nat))))
  else if str_eqb property (lit "force") || str_eqb property (lit "charge") then
    ofold (atom_updateError property) (qs_atoms s) st
  else None.

(** MPI_Allreduce(MPI_IN_PLACE, ..., MPI_SUM) of one entry of all ranks' maps:
    every rank's entry becomes the sum over ranks. *)
Definition allreduce_at (k : str) (ranks : list (emap * nat)) : option (list (emap * nat)) :=
  obind (omap (fun r => mget str_eqb k (fst r)) ranks) (fun vs =>
  Some (map (fun r => (mset str_eqb k (fold_left Rplus vs 0) (fst r), snd r)) ranks)).
Definition allreduce_count (ranks : list (emap * nat)) : list (emap * nat) :=
  map (fun r => (fst r, fold_left Nat.add (map snd ranks) O)) ranks.
(** error.at(k) = f(error.at(k)). *)
Definition at_map (k : str) (f : R -> R) (m : emap) : option emap :=
  match mget str_eqb k m with None => None | Some v => Some (mset str_eqb k (f v) m) end.
(** Dataset.cpp:1712-1742 collectError, executed by all ranks. *)
Definition collectError (property : str) (ranks : list (emap * nat)) : option (list (emap * nat)) :=
  if str_eqb property (lit "energy") then
    let ranks := allreduce_count ranks in
    obind (allreduce_at (lit "RMSEpa") ranks) (fun ranks =>
    obind (allreduce_at (lit "RMSE") ranks) (fun ranks =>
    obind (allreduce_at (lit "MAEpa") ranks) (fun ranks =>
    obind (allreduce_at (lit "MAE") ranks) (fun ranks =>
    omap (fun r => let (error, count) := r : emap * nat in
      obind (at_map (lit "RMSEpa") (fun x => sqrt (x / INR count)) error) (fun error =>
      obind (at_map (lit "RMSE") (fun x => sqrt (x / INR count)) error) (fun error =>
      obind (at_map (lit "MAEpa") (fun x => x / INR count) error) (fun error =>
      obind (at_map (lit "MAE") (fun x => x / INR count) error) (fun error => Some (error, count)))))) ranks))))
  else if str_eqb property (lit "force") || str_eqb property (lit "charge") then
    let ranks := allreduce_count ranks in
    obind (allreduce_at (lit "RMSE") ranks) (fun ranks =>
    obind (allreduce_at (lit "MAE") ranks) (fun ranks =>
    omap (fun r => let (error, count) := r : emap * nat in
      obind (at_map (lit "RMSE") (fun x => sqrt (x / INR count)) error) (fun error =>
      obind (at_map (lit "MAE") (fun x => x / INR count) error) (fun error => Some (error, count)))) ranks))
  else None.

(** Structure.h: enum SampleType. *)
Inductive sample_type := ST_UNKNOWN | ST_TRAINING | ST_VALIDATION | ST_TEST.
(** Training.cpp:1330-1346: counters and metrics are zero at the start; the keys
    of the maps are set in the constructor of Training::Property
    (Training.cpp:4081-4138): the per-atom metrics exist for the energy only. *)
Definition metric_keys (property : str) : list str :=
  if str_eqb property (lit "energy") then [lit "RMSEpa"; lit "RMSE"; lit "MAEpa"; lit "MAE"] else [lit "RMSE"; lit "MAE"].
Definition zero_metrics (property : str) : emap := map (fun k => (k, 0)) (metric_keys property).
(** Training.cpp:1417-1482: accumulation on one rank for one property, training
    and test metrics; a structure of neither type makes the code dereference a
    null pointer: [None]. *)
Definition accumulate (property : str) (structures : list (sample_type * qstructure)) : option ((emap * nat) * (emap * nat)) :=
  ofold (fun ts st => match fst ts with
    | ST_TRAINING => obind (updateError property (snd ts) (fst st)) (fun e => Some (e, snd st))
    | ST_TEST => obind (updateError property (snd ts) (snd st)) (fun e => Some (fst st, e))
    | _ => None
    end) structures ((zero_metrics property, O), (zero_metrics property, O)).
(** Training.cpp:1310-1503 calculateError on all ranks for one property: metrics
    of training and test set on every rank. *)
Definition calculateError (property : str) (ranks : list (list (sample_type * qstructure))) : option (list (emap * nat) * list (emap * nat)) :=
  obind (omap (accumulate property) ranks) (fun acc =>
  obind (collectError property (map fst acc)) (fun train =>
  obind (collectError property (map snd acc)) (fun test => Some (train, test)))).
