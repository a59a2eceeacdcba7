(** Model of the data set normalization in src/libnnptrain/Training.cpp (dataSetNormalization) and of the conversion of all structures in
    src/libnnptrain/Dataset.cpp (toNormalizedUnits).

    A structure comes with the energy and forces predicted by the current networks (qs_energy, q_f); their calculation (lines 508-520) is
    modelled elsewhere.  [procs] are the structures of the processes; MPI_Allreduce with MPI_SUM adds the processes' values in order of
    rank.  Not modelled: the output files except for the settings file, and the repetition of the symmetry function setup. *)
From Coq Require Import Reals List Arith Bool String.
From Coq Require Import List.
From Verif Require Import Base.Vec3 Base.SumR Model.Strings Model.Settings Model.SymFunctions Model.Units.
Import ListNotations.
Local Open Scope R_scope.

(** src/libnnptrain/Training.cpp:486-495: the accumulators. *)
Record nacc := mkNAcc { na_atoms : nat; na_structures : nat; na_eRef : R; na_eNnp : R; na_fRef : R; na_fNnp : R }.
Definition nacc0 : nacc := mkNAcc 0 0 0 0 0 0.
(** Lines 521-531: first loop over the structures of a process. *)
Definition firstPass (ss : list qstructure) : nacc :=
  fold_left (fun c s =>
    let n := INR (qs_numAtoms s) in
    let c := mkNAcc (na_atoms c + qs_numAtoms s) (S (na_structures c)) (na_eRef c + qs_energyRef s / n) (na_eNnp c + qs_energy s / n)
                    (na_fRef c) (na_fNnp c) in
    fold_left (fun c a => mkNAcc (na_atoms c) (na_structures c) (na_eRef c) (na_eNnp c)
                                 (na_fRef c + (vx (q_fRef a) + vy (q_fRef a) + vz (q_fRef a)))
                                 (na_fNnp c + (vx (q_f a) + vy (q_f a) + vz (q_f a)))) (qs_atoms s) c) ss nacc0.
(** Lines 539-544: MPI_Allreduce. *)
Definition reduceFirst (l : list nacc) : nacc :=
  mkNAcc (list_sum (map na_atoms l)) (list_sum (map na_structures l))
         (rsum (map na_eRef l)) (rsum (map na_eNnp l)) (rsum (map na_fRef l)) (rsum (map na_fNnp l)).
(** Lines 545-548: the means. *)
Definition means (c : nacc) : nacc :=
  mkNAcc (na_atoms c) (na_structures c) (na_eRef c / INR (na_structures c)) (na_eNnp c / INR (na_structures c))
         (na_fRef c / INR (3 * na_atoms c)) (na_fNnp c / INR (3 * na_atoms c)).
(** Lines 549-571: second loop; only the last four members are used. *)
Definition secondPass (m : nacc) (ss : list qstructure) : nacc :=
  fold_left (fun c s =>
    let n := INR (qs_numAtoms s) in
    let ediffRef := qs_energyRef s / n - na_eRef m in
    let ediffNnp := qs_energy s / n - na_eNnp m in
    let c := mkNAcc 0 0 (na_eRef c + ediffRef * ediffRef) (na_eNnp c + ediffNnp * ediffNnp) (na_fRef c) (na_fNnp c) in
    fold_left (fun c a =>
      let dr0 := vx (q_fRef a) - na_fRef m in let dn0 := vx (q_f a) - na_fNnp m in
      let dr1 := vy (q_fRef a) - na_fRef m in let dn1 := vy (q_f a) - na_fNnp m in
      let dr2 := vz (q_fRef a) - na_fRef m in let dn2 := vz (q_f a) - na_fNnp m in
      mkNAcc 0 0 (na_eRef c) (na_eNnp c)
        (na_fRef c + dr0 * dr0 + dr1 * dr1 + dr2 * dr2) (na_fNnp c + dn0 * dn0 + dn1 * dn1 + dn2 * dn2)) (qs_atoms s) c) ss nacc0.
(** Lines 576-579; the unsigned differences do not wrap as long as there is a structure with an atom. *)
Definition sigmas (m : nacc) (c : nacc) : nacc :=
  mkNAcc (na_atoms m) (na_structures m)
         (sqrt (na_eRef c / INR (na_structures m - 1))) (sqrt (na_eNnp c / INR (na_structures m - 1)))
         (sqrt (na_fRef c / INR (3 * na_atoms m - 1))) (sqrt (na_fNnp c / INR (3 * na_atoms m - 1))).
(** Lines 486-579: means and standard deviations. *)
Definition statistics (procs : list (list qstructure)) : nacc * nacc :=
  let m := means (reduceFirst (map firstPass procs)) in
  (m, sigmas m (reduceFirst (map (secondPass m) procs))).

(** Lines 604-650: outcome by keyword normalize_data_set. *)
Inductive conversion := Throws | StatsOnly | Convert (meanEnergy convEnergy convLength : R).
Definition dataSetNormalization (mode : str) (useForces : bool) (procs : list (list qstructure)) : conversion :=
  let '(m, s) := statistics procs in
  if str_eqb mode (lit "stats-only") then StatsOnly
  else if str_eqb mode (lit "ref") then
    Convert (na_eRef m) (1 / na_eRef s) (if useForces then na_fRef s / na_eRef s else 1)
  else if str_eqb mode (lit "force") then
    if negb useForces then Throws
    else Convert (na_eRef m) (na_fNnp s / na_fRef s) (na_fNnp s)
  else Throws.

(** src/libnnptrain/Dataset.cpp:952-961, for the structures of one process. *)
Definition datasetToNormalized (mean cE cL cQ : R) (ss : list qstructure) : option (list qstructure) :=
  omap (toNormalizedUnits mean cE cL cQ) ss.

(** src/libnnptrain/Training.cpp:674-695: line numbers to be replaced; sl.at(0) of split(line). *)
Definition firstWord (line : str) : option str := match split line ch_space with [] => None | w :: _ => Some w end.
Definition replacement (n1 n2 n3 line : str) : option str :=
  match firstWord line with
  | None => None
  | Some w =>
      if str_eqb w (lit "conv_length") then Some n3
      else if str_eqb w (lit "conv_energy") then Some n2
      else if str_eqb w (lit "mean_energy") then Some n1
      else None
  end.
(** Lines 697-717 and src/libnnp/Settings.cpp:301-321: lines of the new input.nn (n1, n2, n3 without the end of line). *)
Definition hashes : str := repeat ch_hash 79.
Definition writeNormalized (n1 n2 n3 : str) (lines : list str) : list str :=
  let rep := replacement n1 n2 n3 in
  let body := map (fun l => match rep l with Some r => r | None => l end) lines in
  if forallb (fun l => match rep l with Some _ => false | None => true end) lines
  then [hashes; lit "# DATA SET NORMALIZATION"; hashes; n1; n2; n3; hashes; []] ++ body
  else body.
