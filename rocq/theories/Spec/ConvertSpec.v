(** The XYZ and POSCAR formats (C93). *)
From Coq Require Import Reals ZArith List Ascii String Bool Arith.
From Verif Require Import Base.Vec3 Model.Strings Model.Printf Model.SymLines Model.ElementMap Model.NeighborList Model.Geometry Model.StructureFile Spec.StringSpec Spec.ElementSpec Spec.StructureFileSpec.
From Coq Require Import List.
Import ListNotations.
Local Open Scope R_scope.

(** Words read as the coordinates of a vector. *)
Definition reads_vec (ws : list str) (v : vec) : Prop := map atof ws = [vx v; vy v; vz v].
(** A line with three numbers. *)
Definition vec_line (l : str) (v : vec) : Prop := exists ws, is_words l ws /\ reads_vec ws v.
(** A text read as number n. *)
Definition reads_nat (w : str) (n : nat) : Prop := atoi w = Done (Z.of_nat n).

(** ** XYZ: any number of frames; a frame is the number of sites, a line with the
    lattice vectors or an empty one, and for each site a line with symbol and
    position. *)
Record frame := mkFrame { fr_lattice : option mat; fr_sites : list (str * vec) }.
Definition site_line (l : str) (p : str * vec) : Prop := exists ws, is_words l (fst p :: ws) /\ reads_vec ws (snd p).
Definition lattice_line (l : str) (b : option mat) : Prop :=
  match b with
  | None => l = []
  | Some b => exists text ws0 ws1 ws2, l = lit "Lattice=""" ++ text ++ lit """" /\ is_words text (ws0 ++ ws1 ++ ws2) /\
      reads_vec ws0 (m0 b) /\ reads_vec ws1 (m1 b) /\ reads_vec ws2 (m2 b)
  end.
Inductive xyz : list str -> list frame -> Prop :=
| xyz_end : xyz [] []
| xyz_frame n l sites rest f fs :
    reads_nat n (List.length (fr_sites f)) -> lattice_line l (fr_lattice f) -> Forall2 site_line sites (fr_sites f) -> xyz rest fs ->
    xyz (n :: l :: sites ++ rest) (f :: fs).

(** ** POSCAR (version 4, symbols in the comment): comment, scale, lattice
    vectors, number of atoms of each symbol, and the positions of the atoms of the
    first symbol, of the second symbol, ... *)
Definition poscar (lines : list str) (comment : str) (symbols : list str) (b : mat) (groups : list (list vec)) : Prop :=
  exists r0 r1 r2 counts ws bodies,
    lines = (comment ++ lit ", ATOM=" ++ join (lit " ") symbols) :: lit "1.0" :: r0 :: r1 :: r2 :: counts :: lit "Cartesian" :: List.concat bodies /\
    vec_line r0 (m0 b) /\ vec_line r1 (m1 b) /\ vec_line r2 (m2 b) /\
    is_words counts ws /\ Forall2 (fun w g => reads_nat w (List.length g)) ws groups /\ Forall2 (Forall2 vec_line) bodies groups.

(** ** What the files should contain *)
(** The frame of a structure: lattice if periodic, symbols and positions in order. *)
Definition frame_of (em : element_map) (s : fstruct) (f : frame) : Prop :=
  fr_lattice f = (if fs_periodic s then Some (fs_box s) else None) /\
  Forall2 (fun a p => em_symbol em (fa_element a) = Some (fst p) /\ snd p = fa_r a) (fs_atoms s) (fr_sites f).
(** The positions of the atoms with the symbol, in order. *)
Definition positions_of (em : element_map) (s : fstruct) (symbol : str) : list vec :=
  map fa_r (filter (fun a => match em_symbol em (fa_element a) with Some t => str_eqb t symbol | None => false end) (fs_atoms s)).
(** Numbers which fit into the formats used. *)
Definition printable (s : fstruct) : Prop :=
  (Z.of_nat (List.length (fs_atoms s)) < 2 ^ 31)%Z /\
  (fs_periodic s = true -> double_vec (m0 (fs_box s)) /\ double_vec (m1 (fs_box s)) /\ double_vec (m2 (fs_box s))) /\
  forall a, In a (fs_atoms s) -> double_vec (fa_r a).
(** Structures read from the lines of a file, one after the other. *)
Inductive read_all (em : element_map) (n : nat) : list str -> list fstruct -> Prop :=
| read_none : read_all em n [] []
| read_more stream s rest l : stream <> [] -> readFromFile em stream (newStructure n) = Some (s, rest) -> read_all em n rest l -> read_all em n stream (s :: l).
(** The lines of a text. *)
Definition text_lines (text : str) (lines : list str) : Prop :=
  text = List.concat (map (fun l => l ++ [ch_lf]) lines) /\ Forall (fun l => ~ In ch_lf l) lines.
(** Different symbols of chemical elements. *)
Definition chemical (symbols : list str) : Prop := NoDup symbols /\ forall s, In s symbols -> exists z, element_Z s z.
