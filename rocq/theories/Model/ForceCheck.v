(** Model of nnp-checkf (src/application/nnp-checkf.cpp): comparison of analytic
    with numeric forces for one structure, on all processes.  The copies come from
    prepareNumericForces (Dataset.v); energies and forces of a structure (neighbor
    list, symmetry functions, networks, units) are functions of the positions,
    modelled in other files. *)
From Coq Require Import Reals ZArith Bool Arith Ascii String.
From Coq Require Import List.
From Verif Require Import Base.Loop Base.Vec3 Model.Strings Model.Printf Model.SymLines Model.StructureFile Model.DataFiles Model.Dataset.
From Coq Require Import List.
Import ListNotations.
Local Open Scope R_scope.

(** printf %d of an int. *)
Definition print_int (z : Z) : str := if Z.ltb z 0 then ascii_of_nat 45 :: print_d (Z.to_nat (- z)) else print_d (Z.to_nat z).
(** Dataset.cpp:918 and 940: text of the comment. *)
Definition copy_comment (c : unit + (nat * nat * nat * Z)) : str :=
  match c with
  | inl _ => lit "original"
  | inr (count, iAtom, ixyz, sign) => print_d count ++ lit " " ++ print_d iAtom ++ lit " " ++ print_d ixyz ++ lit " " ++ print_int sign
  end.

(** nnp-checkf.cpp:187-190 allEnergies, allAtoms, allXYZ, allSigns of a process. *)
Record collected := mkColl { cl_energy : nat -> R; cl_atom : nat -> nat; cl_xyz : nat -> nat; cl_sign : nat -> Z }.
Definition no_data : collected := mkColl (fun _ => 0) (fun _ => O) (fun _ => O) (fun _ => 0%Z).
(** (size_t)atoi(lsplit.at(i).c_str()); negative numbers (not written by
    prepareNumericForces) would become huge and make a later at() throw: thrown
    at once here. *)
Definition size_at (l : list str) (i : nat) : outcome nat := w <- at_ l i; z <- atoi w; if Z.ltb z 0 then Thrown else Done (Z.to_nat z).
(** nnp-checkf.cpp:213-229, one structure; the arrays have [n] entries. *)
Definition collect_one (energy : list vec -> R) (n : nat) (s : nstruct) (c : collected) : outcome collected :=
  let comment := copy_comment (n_comment s) in
  if str_eqb comment (lit "original") then Done c
  else
    let l := Strings.split comment ch_space in
    count <- size_at l 0; iAtom <- size_at l 1; ixyz <- size_at l 2; w <- at_ l 3; sign <- atoi w;
    if Nat.ltb count n
    then Done (mkColl (Base.Loop.upd (cl_energy c) count (energy (n_pos s))) (Base.Loop.upd (cl_atom c) count iAtom)
                      (Base.Loop.upd (cl_xyz c) count ixyz) (Base.Loop.upd (cl_sign c) count sign))
    else Thrown.
Definition collect_all (energy : list vec -> R) (n : nat) (structures : list nstruct) : outcome collected :=
  foldo (collect_one energy n) structures no_data.
(** nnp-checkf.cpp:231-246 MPI_Reduce with MPI_SUM, result on process 0. *)
Definition sum_data (a b : collected) : collected :=
  mkColl (fun i => cl_energy a i + cl_energy b i) (fun i => cl_atom a i + cl_atom b i)%nat
         (fun i => cl_xyz a i + cl_xyz b i)%nat (fun i => cl_sign a i + cl_sign b i)%Z.
Definition reduce_data (l : list collected) : collected := fold_left sum_data l no_data.

(** Force components of the atoms, by atom and coordinate. *)
Definition components := nat -> nat -> R.
Definition set_component (f : components) (a x : nat) (v : R) : components := Base.Loop.upd f a (Base.Loop.upd (f a) x v).
(** nnp-checkf.cpp:250-263: energies in fRef and f of the original; a coordinate
    beyond 2 is outside of the array. *)
Definition assign_energies (numAtoms : nat) (c : collected) (i : nat) (s : components * components) : outcome (components * components) :=
  if negb (Nat.ltb (cl_atom c i) numAtoms) then Thrown
  else if Z.eqb (cl_sign c i) 1 then
    (if Nat.ltb (cl_xyz c i) 3 then Done (set_component (fst s) (cl_atom c i) (cl_xyz c i) (cl_energy c i), snd s) else Undefined)
  else if Z.eqb (cl_sign c i) (-1) then
    (if Nat.ltb (cl_xyz c i) 3 then Done (fst s, set_component (snd s) (cl_atom c i) (cl_xyz c i) (cl_energy c i)) else Undefined)
  else Done s.

(** One line of checkf-forces.out: atom, coordinate, analytic and numeric force. *)
Record check_row := mkCheckRow { cr_atom : nat; cr_xyz : nat; cr_analytic : R; cr_numeric : R }.
(** What is reported for a structure. *)
Record check := mkCheck { ck_rows : list check_row; ck_numForces : nat; ck_mean : R; ck_max : R; ck_warning : bool }.
(** nnp-checkf.cpp:265-288: the rows in the order of the loops. *)
Definition check_rows (numAtoms : nat) (delta : R) (plus minus : components) (force : components) : list check_row :=
  flat_map (fun i => map (fun j => mkCheckRow i j (force i j) (- (plus i j - minus i j) / (2 * delta))) (seq 0 3)) (seq 0 numAtoms).
(** max(error, maxAbsError). *)
Definition std_max (a b : R) : R := if Rlt_dec a b then b else a.
(** nnp-checkf.cpp:265-310. *)
Definition summarise (delta : R) (numAtoms : nat) (rows : list check_row) : check :=
  let '(mean, mx) := fold_left (fun s r => let error := Rabs (cr_numeric r - cr_analytic r) in (fst s + error, std_max error (snd s))) rows (0, 0) in
  let numForces := (3 * numAtoms)%nat in
  mkCheck rows numForces (mean / INR numForces) mx (if Rlt_dec (10 * delta * delta) mx then true else false).
(** nnp-checkf.cpp:176-311 for one structure with positions [pos]; [f0], [fRef0]
    are the forces in the data file. *)
Definition check_structure (energy : list vec -> R) (force : list vec -> components) (remap : vec -> vec) (numProcs : nat) (delta : R)
    (pos : list vec) (f0 fRef0 : components) : outcome check :=
  let structures p := prepareNumericForces remap numProcs p delta pos in
  let n := (1 + 6 * List.length pos - 1)%nat in
  data <- mapo (fun p => collect_all energy n (structures p)) (seq 0 numProcs);
  let all := reduce_data data in
  pm <- foldo (assign_energies (List.length pos) all) (seq 0 n) (fRef0, f0);
  ref <- throwing (nth_error (structures 0%nat) 0);
  Done (summarise delta (List.length pos) (check_rows (List.length pos) delta (fst pm) (snd pm) (force (n_pos ref)))).
(** nnp-checkf.cpp:277-283: line of checkf-forces.out; structure [is]. *)
Definition check_line (is : nat) (r : check_row) : outcome str :=
  undefined_if_long (line (fmt_d 10 (is + 1) ++ lit " " ++ fmt_d 10 (cr_atom r + 1) ++ lit " " ++ fmt_d 3 (cr_xyz r) ++ lit " " ++ fmt24 (cr_analytic r)
    ++ lit " " ++ fmt24 (cr_numeric r))).
