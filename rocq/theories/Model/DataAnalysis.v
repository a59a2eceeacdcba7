(** Model of the data set analysis of nnp-scaling and nnp-atomenv
    (src/libnnptrain/Dataset.cpp): symmetry function histograms, neighbor
    histogram, neighbor list file and atomic environment file.

    The GNU Scientific Library is not part of the repository; the four functions
    used are written down from its documentation (first part).  A file is the
    list of its rows; the number formats are those of Model/Printf.v and are not
    applied here.  Files of several processes are joined by combineFiles
    (Model/Dataset.v), i.e. in the order of the ranks. *)
From Coq Require Import Reals ZArith Bool Arith List.
From Verif Require Import Model.Scaling Model.NeighborList Model.SymLines.
Import ListNotations.
Local Open Scope R_scope.

(** ** gsl_histogram *)
(** gsl_histogram: n + 1 limits, n bins. *)
Record histogram := mkHist { h_range : list R; h_bin : list R }.
(** gsl_histogram_alloc(n), gsl_histogram_set_ranges_uniform(h, xmin, xmax):
    range[i] = (n - i) / n * xmin + i / n * xmax, all bins zero. *)
Definition uniform (n : nat) (xmin xmax : R) : histogram :=
  mkHist (map (fun i => INR (n - i) / INR n * xmin + INR i / INR n * xmax) (seq 0 (n + 1))) (repeat 0 n).
(** The bin with range[i] <= x < range[i+1], if there is one. *)
Fixpoint find_bin (range : list R) (x : R) : option nat :=
  match range with
  | a :: ((b :: _) as r) =>
      if Rle_dec a x then (if Rlt_dec x b then Some 0%nat else option_map S (find_bin r x)) else option_map S (find_bin r x)
  | _ => None
  end.
Fixpoint add_one (l : list R) (i : nat) : list R :=
  match l, i with
  | [], _ => []
  | x :: l, O => x + 1 :: l
  | x :: l, S i => x :: add_one l i
  end.
(** gsl_histogram_increment(h, x): a value outside all bins changes nothing (the
    returned GSL_EDOM is ignored by the callers). *)
Definition increment (h : histogram) (x : R) : histogram :=
  match find_bin (h_range h) x with
  | Some i => mkHist (h_range h) (add_one (h_bin h) i)
  | None => h
  end.
(** gsl_histogram_fprintf: one row range[i], range[i+1], bin[i] for each bin. *)
Definition rows (h : histogram) : list (R * R * R) := combine (combine (h_range h) (tl (h_range h))) (h_bin h).
(** MPI_Allreduce(MPI_IN_PLACE, bin, n, MPI_DOUBLE, MPI_SUM): [bins] are those of
    the processes. *)
Definition add_bins (a b : list R) : list R := map (fun p => fst p + snd p) (combine a b).
Definition allreduce_bins (n : nat) (bins : list (list R)) : list R := fold_right add_bins (repeat 0 n) bins.

(** ** writeSymmetryFunctionHistograms *)
(** Atoms as seen here: element and symmetry function values; one list for each
    process, all its structures one after the other. *)
Definition sf_atom := (nat * list R)%type.
(** The statistics gathered while the symmetry functions were calculated
    (Element.cpp:485-488) and collected afterwards (Dataset.cpp:974-1002), for
    symmetry function [s] of element [e]: minimum and maximum. *)
Definition values_on (e s : nat) (atoms : list sf_atom) : list R :=
  flat_map (fun a => if Nat.eqb (fst a) e then match nth_error (snd a) s with Some g => [g] | None => [] end else []) atoms.
Definition limits (e s : nat) (procs : list (list sf_atom)) : R * R :=
  let '(_, mn, mx, _, _) := allreduce_stats (map (fun atoms => fold_left c_addValue (values_on e s atoms) container_init) procs) in
  (mn, mx).
(** Dataset.cpp:1110-1142: [None] is the null pointer.  [numBins] is the argument
    of the function; 1 gives a division by zero and 0 wraps around. *)
Definition new_histogram (numBins : nat) (lh : R * R) : outcome (option histogram) :=
  let (l, h) := lh in
  if Rlt_dec l h then
    if Nat.ltb numBins 2 then Undefined
    else let n := (numBins - 1)%nat in
         Done (Some (uniform (n + 1) l (h + (h - l) / INR n)))
  else Done None.
(** Dataset.cpp:1144-1160, for one histogram: the value of this symmetry function
    is added for every atom of its element; histograms.at and h.at throw if an
    atom has an unknown element or more values than its element. *)
Definition fill_one (s : nat) (h : histogram) (e : nat) (a : sf_atom) : histogram :=
  if Nat.eqb (fst a) e then match nth_error (snd a) s with Some g => increment h g | None => h end else h.
Definition fits_elements (numSF : list nat) (a : sf_atom) : bool :=
  match nth_error numSF (fst a) with Some n => Nat.leb (length (snd a)) n | None => false end.
(** Dataset.cpp:1103-1253: the files written, labelled by element and number of
    the symmetry function; [numSF] gives the number of symmetry functions of each
    element.  Every process builds the histograms, they are added, rank 0
    writes. *)
Definition histogram_file (numBins : nat) (procs : list (list sf_atom)) (es : nat * nat)
  : outcome (list (nat * nat * list (R * R * R))) :=
  let (e, s) := es in
  h0 <- new_histogram numBins (limits e s procs);
  match h0 with
  | None => Done []
  | Some h0 =>
      let local := map (fun atoms => fold_left (fun h a => fill_one s h e a) atoms h0) procs in
      Done [(e, s, rows (mkHist (h_range h0) (allreduce_bins numBins (map h_bin local))))]
  end.
Definition writeSymmetryFunctionHistograms (numBins : nat) (numSF : list nat) (procs : list (list sf_atom))
  : outcome (list (nat * nat * list (R * R * R))) :=
  if forallb (forallb (fits_elements numSF)) procs then
    files <- mapo (histogram_file numBins procs)
               (flat_map (fun e => map (fun s => (e, s)) (seq 0 (nth e numSF 0%nat))) (seq 0 (length numSF)));
    Done (concat files)
  else Thrown.

(** ** writeNeighborHistogram *)
(** A structure as seen here: its index and the number of neighbors of each atom. *)
Definition nb_structure := (nat * list nat)%type.
(** numeric_limits<size_t>::max(). *)
Definition size_max : Z := (2 ^ 64 - 1)%Z.
(** Dataset.cpp:1369-1378. *)
Definition min_neighbors (l : list nat) : Z := fold_left (fun m n => Z.min m (Z.of_nat n)) l size_max.
Definition max_neighbors (l : list nat) : nat := fold_left (fun m n => Nat.max m n) l 0%nat.
Definition sum_neighbors (l : list nat) : R := fold_left (fun m n => m + INR n) l 0.
(** Dataset.cpp:1383-1388: index, number of atoms, minimum, maximum, mean; a
    structure without atoms gives 0 / 0. *)
Record stat_row := mkRow { r_index : nat; r_natoms : nat; r_min : Z; r_max : nat; r_mean : R }.
Definition statistics_row (s : nb_structure) : stat_row :=
  mkRow (fst s + 1) (length (snd s)) (min_neighbors (snd s)) (max_neighbors (snd s))
        (sum_neighbors (snd s) / INR (length (snd s))).
(** Dataset.cpp:1361-1365, 1379-1382: the numbers of one process. *)
Definition global (structures : list nb_structure) : nat * Z * nat * R :=
  fold_left (fun g s => let '(n, mn, mx, m) := g in
     ((n + length (snd s))%nat, Z.min mn (min_neighbors (snd s)), Nat.max mx (max_neighbors (snd s)), m + sum_neighbors (snd s)))
    structures (0%nat, size_max, 0%nat, 0).
(** Dataset.cpp:1392-1395: MPI_Allreduce. *)
Definition reduce_global (l : list (nat * Z * nat * R)) : nat * Z * nat * R :=
  fold_right (fun a b => let '(n, mn, mx, m) := a in let '(n', mn', mx', m') := b in
     ((n + n')%nat, Z.min mn mn', Nat.max mx mx', m + m')) (0%nat, size_max, 0%nat, 0) l.
(** Dataset.cpp:1320-1464: returned maximum, logged minimum and mean, rows of the
    histogram file, rows of the file of the structures. *)
Record neighbor_report := mkReport {
  nr_max : nat; nr_min : Z; nr_mean : R; nr_histogram : list (R * R * R); nr_rows : list stat_row
}.
Definition writeNeighborHistogram (procs : list (list nb_structure)) : neighbor_report :=
  let '(n, mn, mx, m) := reduce_global (map global procs) in
  let h0 := uniform (mx + 1) (- (1 / 2)) (INR mx + 1 / 2) in
  let local := map (fun p => fold_left (fun h (s : nb_structure) => fold_left (fun h k => increment h (INR k)) (snd s) h) p h0) procs in
  mkReport mx mn (m / INR n) (rows (mkHist (h_range h0) (allreduce_bins (mx + 1) (map h_bin local))))
           (flat_map (map statistics_row) procs).

(** ** Neighbor lists and atomic environments *)
(** An atom with its symmetry function values. *)
Record env_atom := mkEnv { ea_atom : atom; ea_G : list R }.
(** Dataset.cpp:1466-1489 sortNeighborLists; [nsort] is std::sort. *)
Definition sort_lists (nsort : list neighbor -> list neighbor) (structures : list (list env_atom)) : list (list env_atom) :=
  map (map (fun a =>
    let x := ea_atom a in
    mkEnv (mkAtom (a_element x) (a_r x) (a_hasNL x) (a_sorted x) (a_numN x) (a_numU x) (a_perEl x)
                  (a_unique x) (nsort (a_nbs x)) (a_cutoffs x)) (ea_G a))) structures.
(** Dataset.cpp:1501-1520 writeNeighborLists: the lines of one process as lists of
    numbers; [z] is elementMap.atomicNumber. *)
Definition neighbor_line (z : nat -> nat) (numElements : nat) (a : atom) : outcome (list nat) :=
  counts <- mapo (fun i => throwing (nth_error (a_perEl a) i)) (seq 0 numElements);
  Done (z (a_element a) :: counts ++ map nb_index (a_nbs a)).
Definition writeNeighborLists (z : nat -> nat) (numElements : nat) (structures : list (list env_atom)) : outcome (list (list nat)) :=
  blocks <- mapo (fun s => ls <- mapo (fun a => neighbor_line z numElements (ea_atom a)) s; Done ([length s] :: ls)) structures;
  Done (concat blocks).

(** neighCount.at(en)++. *)
Fixpoint incr (l : list nat) (i : nat) : list nat :=
  match l, i with [], _ => [] | x :: l, O => S x :: l | x :: l, S i => x :: incr l i end.
(** Dataset.cpp:1595-1606: enough neighbors of element [i]? *)
Definition enough (cut : list (list nat)) (a : atom) (i : nat) : outcome unit :=
  n <- throwing (nth_error (a_perEl a) i); cs <- throwing (nth_error cut (a_element a)); c <- throwing (nth_error cs i);
  if Nat.ltb n c then Thrown else Done tt.
(** Dataset.cpp:1627-1667, one neighbor; state: counters and the columns written
    so far. *)
Definition env_neighbor (cut : list (list nat)) (atoms : list env_atom) (ea : nat) (n : neighbor) (st : list nat * list R)
  : outcome (list nat * list R) :=
  let (count, out) := st in
  k <- throwing (nth_error count (nb_element n)); cs <- throwing (nth_error cut ea); c <- throwing (nth_error cs (nb_element n));
  if Nat.ltb k c then
    a <- throwing (nth_error atoms (nb_index n)); Done (incr count (nb_element n), out ++ ea_G a)
  else Done st.
(** Dataset.cpp:1589-1679: the line of one atom: its element and the columns.
    The counters start at zero for every atom. *)
Definition env_line (numElements : nat) (cut : list (list nat)) (atoms : list env_atom) (a : env_atom) : outcome (nat * list R) :=
  _ <- mapo (enough cut (ea_atom a)) (seq 0 numElements);
  st <- foldo (env_neighbor cut atoms (a_element (ea_atom a))) (a_nbs (ea_atom a)) (repeat 0%nat numElements, ea_G a);
  Done (a_element (ea_atom a), snd st).
(** Dataset.cpp:1536-1710 writeAtomicEnvironmentFile, the file of the symmetry
    functions of one process.  The derivative files and the log output are left
    out. *)
Definition writeAtomicEnvironmentFile (numElements : nat) (cut : list (list nat)) (structures : list (list env_atom))
  : outcome (list (nat * list R)) :=
  ls <- mapo (fun s => mapo (env_line numElements cut s) s) structures; Done (concat ls).
