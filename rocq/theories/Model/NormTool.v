(** Model of the data set normalization tool nnp-norm (src/application/
    nnp-norm.cpp, main after reading settings and data set).

    Structures are reduced to the members that are converted.  [procs] are the
    structures of the processes; MPI_Allreduce adds (or takes the maximum of) the
    processes' values in order of rank.  Not modelled: the file evsv.dat and the
    text of output.data and input.nn (see StructureFile.v and Normalization.v). *)
From Coq Require Import Reals List Arith Bool.
From Verif Require Import Base.Vec3 Base.SumR Model.SymLines.
Import ListNotations.
Local Open Scope R_scope.

(** Atom.h: r, fRef, chargeRef. *)
Record ntatom := mkNT { nt_r : vec; nt_fRef : vec; nt_chargeRef : R }.
(** Structure.h: numAtoms, energyRef, chargeRef, box, atoms. *)
Record ntstruct := mkNS { ns_numAtoms : nat; ns_energyRef : R; ns_chargeRef : R; ns_box : mat; ns_atoms : list ntatom }.

(** nnp-norm.cpp:104-110: numStructures, numAtomsTotal, meanEnergyPerAtom,
    meanForce, maxAbsCharge. *)
Record ntacc := mkNTA { nc_structures : nat; nc_atoms : nat; nc_energy : R; nc_force : R; nc_charge : R }.
(** nnp-norm.cpp:124-131: loop over the atoms. *)
Definition firstAtom (c : ntacc) (a : ntatom) : ntacc :=
  mkNTA (nc_structures c) (nc_atoms c) (nc_energy c)
        (nc_force c + (vx (nt_fRef a) + vy (nt_fRef a) + vz (nt_fRef a)))
        (if Rlt_dec (nc_charge c) (Rabs (nt_chargeRef a)) then Rabs (nt_chargeRef a) else nc_charge c).
(** nnp-norm.cpp:111-132: first loop over the structures of a process. *)
Definition firstLoop (ss : list ntstruct) : ntacc :=
  fold_left (fun c s => fold_left firstAtom (ns_atoms s)
      (mkNTA (S (nc_structures c)) (nc_atoms c + ns_numAtoms s) (nc_energy c + ns_energyRef s / INR (ns_numAtoms s)) (nc_force c) (nc_charge c)))
    ss (mkNTA 0 0 0 0 0).
(** nnp-norm.cpp:139-143 MPI_Allreduce. *)
Definition reduceLoop (l : list ntacc) : ntacc :=
  mkNTA (list_sum (map nc_structures l)) (list_sum (map nc_atoms l)) (rsum (map nc_energy l)) (rsum (map nc_force l))
        (fold_right Rmax 0 (map nc_charge l)).
(** nnp-norm.cpp:146-161: second loop, sums of squared deviations of energies and
    force components. *)
Definition secondLoop (me mf : R) (ss : list ntstruct) : R * R :=
  fold_left (fun c s =>
      let ediff := ns_energyRef s / INR (ns_numAtoms s) - me in
      fold_left (fun c a =>
          let d0 := vx (nt_fRef a) - mf in let d1 := vy (nt_fRef a) - mf in let d2 := vz (nt_fRef a) - mf in
          (fst c, snd c + d0 * d0 + d1 * d1 + d2 * d2)) (ns_atoms s) (fst c + ediff * ediff, snd c))
    ss (0, 0).
(** nnp-norm.cpp:189-201: conversion of a structure (operator*= of Vec3D). *)
Definition convertStructure (m cE cL cQ : R) (s : ntstruct) : ntstruct :=
  mkNS (ns_numAtoms s) ((ns_energyRef s - m * INR (ns_numAtoms s)) * cE) (ns_chargeRef s * cQ)
       (mkMat (smul cL (m0 (ns_box s))) (smul cL (m1 (ns_box s))) (smul cL (m2 (ns_box s))))
       (map (fun a => mkNT (smul cL (nt_r a)) (smul (cE / cL) (nt_fRef a)) (nt_chargeRef a * cQ)) (ns_atoms s)).
(** Mean energy per atom and conversion factors for energy, length and charge. *)
Record factors := mkFactors { fa_mean : R; fa_energy : R; fa_length : R; fa_charge : R }.
(** nnp-norm.cpp:144-145, 162-165, 175-179.  (With fewer than two structures, or
    equal energies, the code divides by zero; the theorems exclude this case.) *)
Definition findFactors (procs : list (list ntstruct)) : factors :=
  let c := reduceLoop (map firstLoop procs) in
  let me := nc_energy c / INR (nc_structures c) in
  let mf := nc_force c / INR (3 * nc_atoms c) in
  let sums := map (secondLoop me mf) procs in
  let sigmaE := sqrt (rsum (map fst sums) / INR (nc_structures c - 1)) in
  let sigmaF := sqrt (rsum (map snd sums) / INR (3 * nc_atoms c - 1)) in
  mkFactors me (1 / sigmaE) (sigmaF / sigmaE) (if Rlt_dec 0 (nc_charge c) then 1 / nc_charge c else 1).
(** nnp-norm.cpp:65-203.  [normalized]: the settings contain one of mean_energy,
    conv_energy, conv_length, conv_charge.  Result: the factors written to the
    settings file and the structures written by each process. *)
Definition normTool (normalized : bool) (procs : list (list ntstruct)) : outcome (factors * list (list ntstruct)) :=
  if normalized then Thrown
  else let f := findFactors procs in
       Done (f, map (map (convertStructure (fa_mean f) (fa_energy f) (fa_length f) (fa_charge f))) procs).
