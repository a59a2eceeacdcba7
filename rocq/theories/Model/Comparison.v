(** Model of the comparison files (trainpoints, testforces, ...):
    Training::calculateError (src/libnnptrain/Training.cpp) as far as it writes,
    Structure::getEnergyLine, getForcesLines, getChargesLines and
    Atom::getForcesLines, getChargeLine (src/libnnp).  The metrics calculated by
    the same loop are modelled in Errors.  Structures already contain the
    predictions. *)
From Coq Require Import Reals List Bool Arith Ascii String.
From Coq Require Import List.
From Verif Require Import Base.Vec3 Model.Strings Model.Printf Model.Settings Model.SymLines Model.StructureFile Model.DataFiles Model.Units Model.Errors
  Model.Dataset Model.LearningCurve.
Import ListNotations.
Local Open Scope R_scope.

(** Atom.h: members indexStructure, index and those of Units.v. *)
Record catom := mkCA { ca_structure : nat; ca_index : nat; ca_atom : qatom }.
(** Structure.h: the members used here. *)
Record cstructure := mkCT { ct_index : nat; ct_sample : Errors.sample_type; ct_numAtoms : nat; ct_energyRef : R; ct_energy : R; ct_atoms : list catom }.

(** Structure.cpp:1416-1422 getEnergyLine; numAtoms > 0. *)
Definition getEnergyLine (s : cstructure) : outcome str :=
  undefined_if_long (line (fmt_d 10 (ct_index s) ++ lit " " ++ fmt16 (ct_energyRef s / INR (ct_numAtoms s)) ++ lit " " ++ fmt16 (ct_energy s / INR (ct_numAtoms s)))).
(** Atom.cpp:451-455 and 463-467. *)
Definition atom_line (a : catom) (ref nnp : R) : outcome str :=
  undefined_if_long (line (fmt_d 10 (ca_structure a) ++ lit " " ++ fmt_d 10 (ca_index a) ++ lit " " ++ fmt16 ref ++ lit " " ++ fmt16 nnp)).
(** Atom.cpp:446-459 getForcesLines. *)
Definition atom_forces_lines (a : catom) : outcome (list str) :=
  let f := q_f (ca_atom a) in let fRef := q_fRef (ca_atom a) in
  x <- atom_line a (vx fRef) (vx f); y <- atom_line a (vy fRef) (vy f); z <- atom_line a (vz fRef) (vz f); Done [x; y; z].
(** Structure.cpp:1424-1435 getForcesLines. *)
Definition getForcesLines (s : cstructure) : outcome (list str) := ls <- mapo atom_forces_lines (ct_atoms s); Done (List.concat ls).
(** Structure.cpp:1437-1447 getChargesLines. *)
Definition getChargesLines (s : cstructure) : outcome (list str) :=
  mapo (fun a => atom_line a (q_chargeRef (ca_atom a)) (q_charge (ca_atom a))) (ct_atoms s).
(** Training.cpp:1471-1482: the text for one structure. *)
Definition structure_text (k : str) (s : cstructure) : outcome str :=
  if str_eqb k (lit "energy") then getEnergyLine s
  else if str_eqb k (lit "force") then (ls <- getForcesLines s; Done (List.concat ls))
  else if str_eqb k (lit "charge") then (ls <- getChargesLines s; Done (List.concat ls))
  else Done [].
(** Training.cpp:1365-1411. *)
Definition comparison_header (k : str) : outcome (list str) :=
  if str_eqb k (lit "energy") then
    createFileHeader [lit "Energy comparison."] [10; 16; 16]%nat [lit "index"; lit "Eref"; lit "Ennp"]
      [lit "Structure index."; lit "Reference potential energy per atom (training units)."; lit "NNP potential energy per atom (training units)."] ch_hash
  else if str_eqb k (lit "force") then
    createFileHeader [lit "Force comparison."] [10; 10; 16; 16]%nat [lit "index_s"; lit "index_a"; lit "Fref"; lit "Fnnp"]
      [lit "Structure index."; lit "Atom index (x, y, z components in consecutive lines)."; lit "Reference force (training units)."; lit "NNP force (training units)."] ch_hash
  else if str_eqb k (lit "charge") then
    createFileHeader [lit "Charge comparison."] [10; 10; 16; 16]%nat [lit "index_s"; lit "index_a"; lit "Qref"; lit "Qnnp"]
      [lit "Structure index."; lit "Atom index."; lit "Reference charge."; lit "NNP charge."] ch_hash
  else createFileHeader [] [] [] [] ch_hash.
(** Training.cpp:1417-1487, the loop over the structures of one process: the text
    appended to its two files; a structure of neither set: null pointer
    (Undefined). *)
Fixpoint process_texts (k : str) (l : list cstructure) : outcome (str * str) :=
  match l with
  | [] => Done ([], [])
  | s :: r =>
      ab <- (match ct_sample s with
             | Errors.ST_TRAINING => t <- structure_text k s; Done (t, [])
             | Errors.ST_TEST => t <- structure_text k s; Done ([], t)
             | _ => Undefined
             end);
      xy <- process_texts k r; Done (fst ab ++ fst xy, snd ab ++ snd xy)
  end.
(** Training.cpp:1353-1415, 1417-1487: files of one process; process 0 writes the
    header. *)
Definition process_files (k : str) (rank : nat) (l : list cstructure) : outcome (str * str) :=
  h <- (if Nat.eqb rank 0 then (h <- comparison_header k; Done (appendLines h)) else Done []);
  xy <- process_texts k l; Done (h ++ fst xy, h ++ snd xy).
(** Training.cpp:1310-1503 for one property [k] written to file; [procs] are the
    structures of the processes.  Combined training and test file; the barrier
    (1496) separates writing and combining. *)
Definition comparison_files (k : str) (procs : list (list cstructure)) : outcome (str * str) :=
  res <- mapo (fun p => process_files k (fst p) (snd p)) (number_list procs);
  let (ok, train) := combineFiles (List.length procs) (fun i => option_map fst (nth_error res i)) in
  let (ok', test) := combineFiles (List.length procs) (fun i => option_map snd (nth_error res i)) in
  if (ok && ok')%bool then Done (f_combined train, f_combined test) else Thrown.
