(** Model of the conversion tool (src/application/nnp-convert.cpp) and of the two
    output formats and reset() of src/libnnp/Structure.cpp.

    Reading is Model/StructureFile.v; a file is its text, [None] = an exception is
    thrown or the behaviour is undefined.  Opening of files always succeeds (and
    where it fails the program constructs an exception without throwing it).  Log
    output is left out. *)
From Coq Require Import Reals ZArith List Ascii String Bool Arith.
From Verif Require Import Base.Vec3 Model.Strings Model.Printf Model.ElementMap Model.Geometry Model.NeighborList Model.Units Model.Errors Model.StructureFile Model.DataFiles.
From Coq Require Import List.
Import ListNotations.
Local Open Scope R_scope.

Definition ch_quote : ascii := """"%char.
(** Conversion "%24.16E %24.16E %24.16E". *)
Definition triple (v : vec) : str := fmt24 (vx v) ++ lit " " ++ fmt24 (vy v) ++ lit " " ++ fmt24 (vz v).
(** The results of consecutive output operations. *)
Fixpoint outputs (l : list (option str)) : option str :=
  match l with
  | [] => Some []
  | x :: r => obind x (fun t => obind (outputs r) (fun u => Some (t ++ u)))
  end.

(** Structure.cpp:1319-1354 reset (the members of StructureFile.v); [n] is
    elementMap.size(). *)
Definition reset (n : nat) (s : fstruct) : fstruct :=
  mkFS false false 0 0 n 0 0 0 0 0 0 ST_UNKNOWN [] zero_mat zero_mat (repeat 0%nat n) [].

(** Structure.cpp:1533-1566 writeToFileXyz.  Conversion "%-2s" (1559). *)
Definition writeXyzAtom (em : element_map) (a : fatom) : option str :=
  obind (em_symbol em (fa_element a)) (fun s =>
    line (pad (c_str s) 2 ch_space true ++ lit " " ++ triple (fa_r a))).
Definition writeToFileXyz (em : element_map) (s : fstruct) : option str :=
  outputs (
    line (print_d (fs_numAtoms s)) ::
    (if fs_periodic s then
       [Some (lit "Lattice=" ++ [ch_quote]); strpr (triple (m0 (fs_box s)) ++ lit " "); strpr (triple (m1 (fs_box s)) ++ lit " ");
        line (triple (m2 (fs_box s)) ++ [ch_quote])]
     else [Some [ch_lf]]) ++
    map (writeXyzAtom em) (fs_atoms s)).

(** Structure.cpp:1575-1639 writeToFilePoscar.  The two checks 1588-1591 and
    1611-1615 construct an exception which is not thrown. *)
Definition writePoscarAtom (a : fatom) : option str := line (triple (fa_r a)).
Definition writeToFilePoscar (em : element_map) (elements : str) (s : fstruct) : option str :=
  obind (omap (em_index em) (Strings.split elements ch_space)) (fun order =>
  let symbol i := obind (nth_error order i) (em_symbol em) in
  let count i := obind (nth_error order i) (nth_error (fs_perElement s)) in
  outputs (
    strpr (c_str (fs_comment s) ++ lit ", ") ::
    obind (symbol 0%nat) (fun x => strpr (lit "ATOM=" ++ c_str x)) ::
    map (fun i => obind (symbol i) (fun x => strpr (lit " " ++ c_str x))) (seq 1 (List.length order - 1)) ++
    [Some [ch_lf]; Some (lit "1.0" ++ [ch_lf])] ++
    (if fs_periodic s then [line (triple (m0 (fs_box s))); line (triple (m1 (fs_box s))); line (triple (m2 (fs_box s)))] else []) ++
    obind (count 0%nat) (fun x => strpr (print_d x)) ::
    map (fun i => obind (count i) (fun x => strpr (lit " " ++ print_d x))) (seq 1 (List.length (fs_perElement s) - 1)) ++
    [Some [ch_lf]; Some (lit "Cartesian" ++ [ch_lf])] ++
    List.concat (map (fun o => map writePoscarAtom (filter (fun a => Nat.eqb (fa_element a) o) (fs_atoms s))) order))).

(** nnp-convert.cpp:77-84: the arguments joined by blanks. *)
Fixpoint join_args (first : str) (args : list str) : str :=
  match args with [] => first | a :: r => join_args (first ++ lit " " ++ a) r end.
(** nnp-convert.cpp:103-127, format "xyz": everything goes to one file. *)
Fixpoint convertXyz (fuel : nat) (em : element_map) (stream : list str) (s : fstruct) : option str :=
  match fuel, stream with
  | _, [] => Some []
  | O, _ => None
  | S k, _ =>
    obind (readFromFile em stream s) (fun '(s, rest) =>
    obind (writeToFileXyz em s) (fun t =>
    obind (convertXyz k em rest (reset (em_size em) s)) (fun u => Some (t ++ u))))
  end.
(** Format "poscar": one file for each structure; names and texts in the order of
    writing; [count] is countStructures.  The number is a size_t printed with "%d". *)
Fixpoint convertPoscar (fuel : nat) (em : element_map) (elements : str) (count : nat) (stream : list str) (s : fstruct) : option (list (str * str)) :=
  match fuel, stream with
  | _, [] => Some []
  | O, _ => None
  | S k, _ =>
    obind (readFromFile em stream s) (fun '(s, rest) =>
    obind (strpr (lit "POSCAR_" ++ print_d (count + 1))) (fun name =>
    obind (writeToFilePoscar em elements s) (fun t =>
    obind (convertPoscar k em elements (count + 1) rest (reset (em_size em) s)) (fun l => Some ((name, t) :: l)))))
  end.
(** nnp-convert.cpp:34-149 main with [format] and the element symbols
    [arg], [args]: names and texts of the files written (none if an exception is
    thrown in between, simplified). *)
Definition convert (fuel : nat) (format arg : str) (args : list str) (stream : list str) : option (list (str * str)) :=
  let elements := join_args arg args in
  let known := orb (str_eqb format (lit "xyz")) (str_eqb format (lit "poscar")) in
  if negb known then Some []
  else obind (registerElements em_init elements) (fun '(em, n) =>
    if str_eqb format (lit "xyz") then
      obind (convertXyz fuel em stream (newStructure (em_size em))) (fun t => Some [(lit "input.xyz", t)])
    else convertPoscar fuel em elements 0 stream (newStructure (em_size em))).
