(** Model of Training::writeSetsToFiles (src/libnnptrain/Training.cpp) on top of
    the models of structure files, energy offsets and combineFiles.  [None] = an
    exception is thrown or the behaviour is undefined.  Files can always be opened
    (otherwise the program constructs an exception without throwing it). *)
From Coq Require Import Reals ZArith List Ascii Bool Arith.
From Verif Require Import Base.Vec3 Model.Strings Model.ElementMap Model.NeighborList Model.Units Model.Errors Model.StructureFile Model.Prediction Model.Dataset.
From Coq Require Import List.
Import ListNotations.
Local Open Scope R_scope.

(** Mode.cpp:2018-2035 addEnergyOffset and 2037-2054 removeEnergyOffset (Units.v) with ref = true (the default, Mode.h:391-402),
    applied to a structure with the members of StructureFile.v. *)
Definition shiftRef (shift : list R -> bool -> qstructure -> option qstructure) (offsets : list R) (s : fstruct) : option fstruct :=
  obind (shift offsets true (q_of s)) (fun q => Some (set_refs s (qs_energyRef q) (fs_chargeRef s))).
(** Dataset.cpp:820, 828, 848, 856: each structure read by distributeStructures. *)
Definition distributed_structure (offsets : list R) (s : fstruct) : option fstruct := shiftRef removeEnergyOffset offsets s.

(** Training.cpp:254-270: the loop of one process over its structures; texts of
    its two files and the structures afterwards. *)
Fixpoint writeSetsLocal (em : element_map) (offsets : list R) (l : list fstruct) : option (str * str * list fstruct) :=
  match l with
  | [] => Some ([], [], [])
  | s :: r =>
    obind (shiftRef addEnergyOffset offsets s) (fun s1 =>
    obind (match fs_sample s1 with
           | ST_TRAINING => obind (writeToFile em true s1) (fun t => Some (t, []))
           | ST_TEST => obind (writeToFile em true s1) (fun t => Some ([], t))
           | ST_UNKNOWN => Some ([], [])
           end) (fun '(a, b) =>
    obind (shiftRef removeEnergyOffset offsets s1) (fun s2 =>
    obind (writeSetsLocal em offsets r) (fun '(x, y, z) => Some (a ++ x, b ++ y, s2 :: z)))))
  end.
(** Training.cpp:230-290: [procs] are the structures of the processes; "train.data", "test.data" and
    the structures afterwards.  The barrier (276) separates writing and combining. *)
Definition writeSetsToFiles (em : element_map) (offsets : list R) (procs : list (list fstruct)) : option (str * str * list (list fstruct)) :=
  obind (omap (writeSetsLocal em offsets) procs) (fun res =>
  let (ok, train) := combineFiles (List.length procs) (fun i => option_map (fun r => fst (fst r)) (nth_error res i)) in
  let (ok', test) := combineFiles (List.length procs) (fun i => option_map (fun r => snd (fst r)) (nth_error res i)) in
  if (ok && ok')%bool then Some (f_combined train, f_combined test, map snd res) else None).
