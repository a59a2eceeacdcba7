(** Model of the sensitivity analysis of src/application/nnp-dataset.cpp and of
    its use in src/application/nnp-prune.cpp.

    Processes are a list, process 0 first; each is given by the atoms of all its
    structures, in order, after evaluateNNP has filled their dEdG (modelled in
    Model/Forces.v).  Not a number is [None]. *)
From Coq Require Import Reals List Bool Arith Ascii String.
From Coq Require Import List.
From Verif Require Import Model.Strings Model.Printf Model.Settings Model.SymLines Model.DataFiles Model.NetworkSetup Model.StructureFile Model.LearningCurve Model.NeuronStats.
Import ListNotations.
Local Open Scope R_scope.

(** Atom.h: element, dEdG. *)
Record sens_atom := mkSensAtom { sa_element : nat; sa_dEdG : list R }.
(** nnp-dataset.cpp:110-112: count, and for each symmetry function sensMean and
    sensMax, of one element. *)
Notation sens_data := (nat * list (R * R))%type.
(** nnp-dataset.cpp:110-119. *)
Definition sens_init (numSymmetryFunctions : list nat) : list sens_data := map (fun n => (0%nat, repeat (0, 0) n)) numSymmetryFunctions.
(** nnp-dataset.cpp:221-226; the loop over i, which visits all entries. *)
Definition sens_entry (dEdG : list R) (ip : nat * (R * R)) : outcome (R * R) :=
  s <- throwing (nth_error dEdG (fst ip));
  Done (fst (snd ip) + s * s, Rmax (snd (snd ip)) (Rabs s)).
(** nnp-dataset.cpp:217-226. *)
Definition sens_add (a : sens_atom) (st : list sens_data) : outcome (list sens_data) :=
  update_at (sa_element a) (fun d => ps <- mapo (sens_entry (sa_dEdG a)) (number_list (snd d)); Done (S (fst d), ps)) st.
Definition sens_process (nsf : list nat) (atoms : list sens_atom) : outcome (list sens_data) := foldo sens_add atoms (sens_init nsf).

(** nnp-dataset.cpp:413-420, 498-505: MPI_Reduce onto process 0, MPI_SUM, MPI_SUM
    and MPI_MAX; the order of the additions is that of the processes. *)
Definition sens_join (a b : sens_data) : sens_data :=
  ((fst a + fst b)%nat, map (fun p => (fst (fst p) + fst (snd p), Rmax (snd (fst p)) (snd (snd p)))) (List.combine (snd a) (snd b))).
Definition sens_reduce (own : list sens_data) (others : list (list sens_data)) : list sens_data :=
  fold_left (fun acc l => map (fun p => sens_join (fst p) (snd p)) (List.combine acc l)) others own.

(** A line of the file: index, normalized values in percent, values in physical
    units if the data set is normalized, values. *)
Record sens_row := mkSensRow { se_index : nat; se_msa_norm : option R; se_max_norm : option R; se_phys : option (option R * R); se_msa : option R; se_max : R }.
(** a / b with b = 0 only if a = 0. *)
Definition percent (a b : R) : option R := if Req_EM_T b 0 then None else Some (a / b * 100).
(** nnp-dataset.cpp:417-426, 475-491, numbers only.  Without atoms sensMean is
    0 / 0.  [conv]: convEnergy if normalized; physical("energy", x) = x / convEnergy
    (Mode.cpp:2112). *)
Definition sens_rows (conv : option R) (d : sens_data) : list sens_row :=
  let means := map (fun p => sqrt (fst p / INR (fst d))) (snd d) in
  let sensMeanSum := fold_left Rplus means 0 in
  let sensMaxSum := fold_left Rplus (map snd (snd d)) 0 in
  map (fun jp =>
    let mean := sqrt (fst (snd jp) / INR (fst d)) in
    let msa := if Nat.eqb (fst d) 0 then None else Some mean in
    mkSensRow (fst jp + 1) (if Nat.eqb (fst d) 0 then None else percent mean sensMeanSum) (percent (snd (snd jp)) sensMaxSum)
      (match conv with Some c => Some (option_map (fun m => m / c) msa, snd (snd jp) / c) | None => None end) msa (snd (snd jp)))
    (number_list (snd d)).
(** The rows of all elements. *)
Definition sensitivities (conv : option R) (nsf : list nat) (procs : list (list sens_atom)) : outcome (list (list sens_row)) :=
  ds <- mapo (sens_process nsf) procs;
  match ds with
  | [] => Undefined
  | own :: others => Done (map (sens_rows conv) (sens_reduce own others))
  end.

(** nnp-dataset.cpp:475-491. *)
Definition sens_line (r : sens_row) : outcome str :=
  undefined_if_long (line (fmt_d 10 (se_index r) ++ lit " " ++ fmt16o (se_msa_norm r) ++ lit " " ++ fmt16o (se_max_norm r) ++
    match se_phys r with Some (m, x) => lit " " ++ fmt16o m ++ lit " " ++ fmt16 x | None => [] end ++
    lit " " ++ fmt16o (se_msa r) ++ lit " " ++ fmt16 (se_max r))).
(** nnp-dataset.cpp:434-473. *)
Definition sens_header (normalize : bool) (symbol : str) : outcome (list str) :=
  createFileHeader [lit "Sensitivity analysis for element " ++ fmt2s symbol ++ lit "."]
    ([10; 16; 16; 16; 16]%nat ++ if normalize then [16; 16]%nat else [])
    ([lit "index"; lit "sens_msa_norm"; lit "sens_max_norm"; lit "sens_msa_phys"; lit "sens_max_phys"] ++
     if normalize then [lit "sens_msa_int"; lit "sens_max_int"] else [])
    ([lit "Symmetry function index."; lit "Mean square average sensitivity (normalized, sum = 100%)."; lit "Maximum sensitivity (normalized, sum = 100%).";
      lit "Mean square average sensitivity (physical energy units)."; lit "Maximum sensitivity (physical energy units)."] ++
     if normalize then [lit "Mean square average sensitivity (internal units)."; lit "Maximum sensitivity (internal units)."] else []) ch_hash.
(** nnp-dataset.cpp:427-493: the file of one element. *)
Definition sens_file (normalize : bool) (symbol : str) (rows : list sens_row) : outcome str :=
  h <- sens_header normalize symbol; ls <- mapo sens_line rows; Done (appendLines h ++ List.concat ls).

(** nnp-prune.cpp:88-107: the column; [Thrown]: invalid_argument. *)
Definition sens_column (mode : str) : outcome nat :=
  if str_eqb mode (lit "msa") then Done 1%nat else if str_eqb mode (lit "max") then Done 2%nat else Thrown.
(** nnp-prune.cpp:115-142: the sensitivities of one element with [n] symmetry
    functions; the reading loop is that of the scaling file.  atof of NAN is not
    modelled. *)
Definition read_sensitivity (column n : nat) (text : str) : outcome (list R) :=
  lines <- scaling_data text;
  if Nat.eqb (List.length lines) n then mapo (fun l => SymLines.number_at (words_of l) column) lines else Thrown.
