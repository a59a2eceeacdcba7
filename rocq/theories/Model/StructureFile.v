(** Model of reading and writing structures (configuration files, "input.data"):
    src/libnnp/Structure.cpp.  A file is its text (a list of characters); numbers
    are written and read as in Printf.v.  [None] = an exception is thrown or the
    behaviour is undefined. *)
From Coq Require Import Reals ZArith List Ascii String Bool Arith.
From Verif Require Import Base.Vec3 Model.Strings Model.Printf Model.ElementMap Model.Geometry Model.NeighborList Model.Units Model.Errors.
From Coq Require Import List.
Import ListNotations.
Local Open Scope R_scope.

(** Structure.h:42-56 (the values set by readFromLines, and unknown). *)
Inductive sample := ST_UNKNOWN | ST_TRAINING | ST_TEST.
(** Atom.h: the members written to or read from a file. *)
Record fatom := mkFA {
  fa_index : nat; fa_indexStructure : nat; fa_tag : Z; fa_element : nat; fa_r : vec;
  fa_charge : R; fa_chargeRef : R; fa_f : vec; fa_fRef : vec; fa_perEl : list nat
}.
(** Structure.h: the members written to or read from a file, and those updated
    while reading. *)
Record fstruct := mkFS {
  fs_periodic : bool; fs_triclinic : bool; fs_index : nat; fs_numAtoms : nat; fs_numElements : nat; fs_present : nat;
  fs_energy : R; fs_energyRef : R; fs_charge : R; fs_chargeRef : R; fs_volume : R;
  fs_sample : sample; fs_comment : str; fs_box : mat; fs_invbox : mat; fs_perElement : list nat; fs_atoms : list fatom
}.
Definition zero_mat : mat := mkMat vzero vzero vzero.
(** Structure.cpp:35-69, 71-78: Structure() and setElementMap. *)
Definition newStructure (n : nat) : fstruct :=
  mkFS false false 0 0 n 0 0 0 0 0 0 ST_UNKNOWN [] zero_mat zero_mat (repeat 0%nat n) [].

(** ** Writing *)
Definition line (text : str) : option str := strpr (text ++ [ch_lf]).
Definition numbers (l : list R) : str := List.concat (map (fun v => lit " " ++ fmt24 v) l).
Definition coords (v : vec) : list R := [vx v; vy v; vz v].
(** Structure.cpp:1493-1524, one atom. *)
Definition writeAtom (em : element_map) (ref : bool) (a : fatom) : option str :=
  match em_symbol em (fa_element a) with
  | None => None
  | Some s =>
    line (lit "atom" ++ numbers (coords (fa_r a)) ++ lit " " ++ fmt2s (c_str s) ++
          numbers ((if ref then fa_chargeRef a else fa_charge a) :: 0 :: coords (if ref then fa_fRef a else fa_f a)))
  end.
Definition writeRow (v : vec) : option str := line (lit "lattice" ++ numbers (coords v)).
(** Structure.cpp:1474-1531 writeToFile: the text appended to the file. *)
Definition writeToFile (em : element_map) (ref : bool) (s : fstruct) : option str :=
  match strpr (lit "begin" ++ [ch_lf]), line (lit "comment " ++ c_str (fs_comment s)),
        (if fs_periodic s then omap writeRow [m0 (fs_box s); m1 (fs_box s); m2 (fs_box s)] else Some []),
        omap (writeAtom em ref) (fs_atoms s),
        line (lit "energy" ++ numbers [if ref then fs_energyRef s else fs_energy s]),
        line (lit "charge" ++ numbers [if ref then fs_chargeRef s else fs_charge s]), line (lit "end") with
  | Some b, Some c, Some ls, Some ats, Some e, Some q, Some z => Some (b ++ c ++ List.concat ls ++ List.concat ats ++ e ++ q ++ z)
  | _, _, _, _, _, _, _ => None
  end.

(** ** Reading *)
Definition words_of (l : str) : list str := Strings.split (reduce l) ch_space.
(** atof(splitLine.at(i).c_str()). *)
Definition number_at (w : list str) (i : nat) : option R :=
  match nth_error w i with None => None | Some s => Some (atof s) end.
Definition vector_at (w : list str) (i : nat) : option vec :=
  match number_at w i, number_at w (i + 1), number_at w (i + 2) with
  | Some a, Some b, Some c => Some (mkVec a b c)
  | _, _, _ => None
  end.

Definition set_sample (s : fstruct) (t : sample) : fstruct :=
  mkFS (fs_periodic s) (fs_triclinic s) (fs_index s) (fs_numAtoms s) (fs_numElements s) (fs_present s) (fs_energy s) (fs_energyRef s)
       (fs_charge s) (fs_chargeRef s) (fs_volume s) t (fs_comment s) (fs_box s) (fs_invbox s) (fs_perElement s) (fs_atoms s).
Definition set_comment (s : fstruct) (c : str) : fstruct :=
  mkFS (fs_periodic s) (fs_triclinic s) (fs_index s) (fs_numAtoms s) (fs_numElements s) (fs_present s) (fs_energy s) (fs_energyRef s)
       (fs_charge s) (fs_chargeRef s) (fs_volume s) (fs_sample s) c (fs_box s) (fs_invbox s) (fs_perElement s) (fs_atoms s).
Definition set_cell (s : fstruct) (periodic triclinic : bool) (volume : R) (box invbox : mat) : fstruct :=
  mkFS periodic triclinic (fs_index s) (fs_numAtoms s) (fs_numElements s) (fs_present s) (fs_energy s) (fs_energyRef s)
       (fs_charge s) (fs_chargeRef s) volume (fs_sample s) (fs_comment s) box invbox (fs_perElement s) (fs_atoms s).
Definition set_refs (s : fstruct) (e q : R) : fstruct :=
  mkFS (fs_periodic s) (fs_triclinic s) (fs_index s) (fs_numAtoms s) (fs_numElements s) (fs_present s) (fs_energy s) e
       (fs_charge s) q (fs_volume s) (fs_sample s) (fs_comment s) (fs_box s) (fs_invbox s) (fs_perElement s) (fs_atoms s).
Definition set_fatoms (s : fstruct) (n : nat) (per : list nat) (l : list fatom) : fstruct :=
  mkFS (fs_periodic s) (fs_triclinic s) (fs_index s) n (fs_numElements s) (fs_present s) (fs_energy s) (fs_energyRef s)
       (fs_charge s) (fs_chargeRef s) (fs_volume s) (fs_sample s) (fs_comment s) (fs_box s) (fs_invbox s) per l.
Definition set_present (s : fstruct) (n : nat) : fstruct :=
  mkFS (fs_periodic s) (fs_triclinic s) (fs_index s) (fs_numAtoms s) (fs_numElements s) n (fs_energy s) (fs_energyRef s)
       (fs_charge s) (fs_chargeRef s) (fs_volume s) (fs_sample s) (fs_comment s) (fs_box s) (fs_invbox s) (fs_perElement s) (fs_atoms s).

(** Structure.cpp:159-175: arguments of "begin". *)
Fixpoint readBegin (words : list str) (s : fstruct) : option fstruct :=
  match words with
  | [] => Some s
  | w :: r => if str_eqb w (lit "set=train") then readBegin r (set_sample s ST_TRAINING)
              else if str_eqb w (lit "set=test") then readBegin r (set_sample s ST_TEST)
              else None
  end.
(** std::string::find for a substring. *)
Fixpoint starts_with (p s : str) : bool :=
  match p, s with
  | [], _ => true
  | a :: p, b :: s => ch_eqb a b && starts_with p s
  | _, [] => false
  end.
Fixpoint find_sub (p s : str) (i : nat) : option nat :=
  if starts_with p s then Some i else match s with [] => None | _ :: r => find_sub p r (S i) end.
(** Structure.cpp:176-181: erase(position, 8). *)
Definition readComment (l : str) : option str :=
  match find_sub (lit "comment") l 0 with
  | None => None
  | Some p => Some (firstn p l ++ skipn (p + 8) l)
  end.
(** numeric_limits<double>::min() and epsilon(). *)
Definition dbl_min : R := powerRZ 2 (-1022).
Definition dbl_eps : R := powerRZ 2 (-52).
Definition gtR (a b : R) : bool := if Rlt_dec b a then true else false.
(** Structure.cpp:196-203. *)
Definition off_diagonal (b : mat) : bool :=
  (gtR (vy (m0 b)) dbl_min || gtR (vz (m0 b)) dbl_min || gtR (vx (m1 b)) dbl_min || gtR (vz (m1 b)) dbl_min ||
   gtR (vx (m2 b)) dbl_min || gtR (vy (m2 b)) dbl_min)%bool.
Definition set_row (b : mat) (i : nat) (v : vec) : mat :=
  match i with 0%nat => mkMat v (m1 b) (m2 b) | 1%nat => mkMat (m0 b) v (m2 b) | _ => mkMat (m0 b) (m1 b) v end.
(** Structure.cpp:182-208.  (For a singular box calculateInverseBox divides by
    zero; the theorems exclude this case.) *)
Definition readLattice (w : list str) (ib : nat) (s : fstruct) : option (nat * fstruct) :=
  if Nat.ltb 2 ib then None
  else match vector_at w 1 with
       | None => None
       | Some v =>
         let box := set_row (fs_box s) ib v in
         if Nat.eqb (S ib) 3 then
           Some (S ib, set_cell s true (off_diagonal box || fs_triclinic s)%bool (calculateVolume box) box (calculateInverseBox box))
         else Some (S ib, set_cell s (fs_periodic s) (fs_triclinic s) (fs_volume s) box (fs_invbox s))
       end.
(** Structure.cpp:209-226. *)
Definition readAtom (em : element_map) (w : list str) (s : fstruct) : option fstruct :=
  match vector_at w 1, nth_error w 4, number_at w 5, vector_at w 7 with
  | Some r, Some sym, Some q, Some f =>
    match em_index em sym with
    | None => None
    | Some el =>
      match incr_at (fs_perElement s) el with
      | None => None
      | Some per => Some (set_fatoms s (S (fs_numAtoms s)) per
          (fs_atoms s ++ [mkFA (fs_numAtoms s) (fs_index s) (Z.of_nat (fs_numAtoms s)) el r 0 q vzero f (repeat 0%nat (fs_numElements s))]))
      end
    end
  | _, _, _, _ => None
  end.
(** Structure.cpp:235-250. *)
Definition readEnd (ib : nat) (s : fstruct) : option fstruct :=
  if (Nat.eqb ib 0 || Nat.eqb ib 3)%bool then
    if (fs_periodic s && gtR (Rabs (fs_chargeRef s)) (10 * dbl_eps))%bool then None else Some s
  else None.
(** Structure.cpp:155-257: the loop over the lines, until "end". *)
Fixpoint readLoop (em : element_map) (lines : list str) (ib : nat) (s : fstruct) : option fstruct :=
  match lines with
  | [] => Some s
  | l :: rest =>
    match words_of l with
    | [] => None
    | k :: args =>
      let w := k :: args in
      if str_eqb k (lit "begin") then obind (readBegin args s) (readLoop em rest ib)
      else if str_eqb k (lit "comment") then obind (readComment l) (fun c => readLoop em rest ib (set_comment s c))
      else if str_eqb k (lit "lattice") then match readLattice w ib s with None => None | Some (ib', s') => readLoop em rest ib' s' end
      else if str_eqb k (lit "atom") then obind (readAtom em w s) (readLoop em rest ib)
      else if str_eqb k (lit "energy") then obind (number_at w 1) (fun e => readLoop em rest ib (set_refs s e (fs_chargeRef s)))
      else if str_eqb k (lit "charge") then obind (number_at w 1) (fun q => readLoop em rest ib (set_refs s (fs_energyRef s) q))
      else if str_eqb k (lit "end") then readEnd ib s
      else None
    end
  end.
(** Structure.cpp:259-265. *)
Definition countPresent (s : fstruct) : fstruct :=
  set_present s (fs_present s + List.length (filter (fun e => Nat.ltb 0 (nth e (fs_perElement s) 0%nat)) (seq 0 (fs_numElements s)))).
(** Structure.cpp:1214-1222 remap() over the atoms. *)
Definition remapAtom (box invbox : mat) (a : fatom) : option fatom :=
  match remap box invbox (fa_r a) with
  | None => None
  | Some r => Some (mkFA (fa_index a) (fa_indexStructure a) (fa_tag a) (fa_element a) r (fa_charge a) (fa_chargeRef a) (fa_f a) (fa_fRef a) (fa_perEl a))
  end.
(** Structure.cpp:142-271 readFromLines. *)
Definition readFromLines (em : element_map) (lines : list str) (s : fstruct) : option fstruct :=
  match lines with
  | [] => None
  | l :: _ =>
    match words_of l with
    | [] => None
    | k :: _ =>
      if str_eqb k (lit "begin") then
        match readLoop em lines 0 s with
        | None => None
        | Some s =>
          let s := countPresent s in
          if fs_periodic s then
            match omap (remapAtom (fs_box s) (fs_invbox s)) (fs_atoms s) with
            | None => None
            | Some l => Some (set_fatoms s (fs_numAtoms s) (fs_perElement s) l)
            end
          else Some s
        end
      else None
    end
  end.
(** Structure.cpp:130-136: lines up to and including "end", and the rest of the
    file. *)
Fixpoint collect (stream : list str) : option (list str * list str) :=
  match stream with
  | [] => Some ([], [])
  | l :: rest =>
    match words_of l with
    | [] => None
    | k :: _ => if str_eqb k (lit "end") then Some ([l], rest)
                else match collect rest with None => None | Some (ls, r) => Some (l :: ls, r) end
    end
  end.
(** Structure.cpp:113-140 readFromFile; [stream] are the lines not yet read. *)
Definition readFromFile (em : element_map) (stream : list str) (s : fstruct) : option (fstruct * list str) :=
  match stream with
  | [] => None
  | l :: rest =>
    match words_of l with
    | [] => None
    | k :: _ =>
      if str_eqb k (lit "begin") then
        match collect rest with
        | None => None
        | Some (ls, r) => match readFromLines em (l :: ls) s with None => None | Some s' => Some (s', r) end
        end
      else None
    end
  end.
(** Structures read one after the other until the end of the file, as in
    nnp-dist.cpp:146-165 (each into a structure just reset). *)
Fixpoint readStructures (fuel : nat) (em : element_map) (n : nat) (stream : list str) : option (list fstruct) :=
  match fuel, stream with
  | _, [] => Some []
  | O, _ => None
  | S k, _ => match readFromFile em stream (newStructure n) with
              | None => None
              | Some (s, rest) => match readStructures k em n rest with None => None | Some l => Some (s :: l) end
              end
  end.
