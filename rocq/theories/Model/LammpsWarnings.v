(** Model of the collection of extrapolation warnings by the LAMMPS interface: src/libnnpif/LAMMPS/InterfaceLammps.cpp (getEWBufferSize,
    fillEWBuffer, extractEWBuffer, writeExtrapolationWarnings), SymFncStatistics.cpp (getExtrapolationWarningLines) and
    src/interface/LAMMPS/src/ML-HDNNP/pair_hdnnp.cpp (handleExtrapolationWarnings).

    Statistics of one process: one map per element (Scaling.v).  Buffers are lists of typed items, see Transfer.v.  Not modelled: the conversion of
    the buffer size from long to int, and the formatting of the lines. *)
From Coq Require Import Reals List Arith Bool ZArith Ascii.
From Verif Require Import Base.AssocMap Model.Strings Model.Scaling Model.Transfer Model.SymFunctions.
From Coq Require Import List.
Import ListNotations.

Section Buffer.
Variable size : ty -> nat.

(** InterfaceLammps.cpp:638-673 getEWBufferSize. *)
Definition ewEntrySize (c : container) : nat :=
  size TSize + size TSize + size TSize + size TDouble + size TDouble + size TSize + (length (c_element c) + 1) * size TChar
  + c_countEW c * size TSize + c_countEW c * size TSize + c_countEW c * size TDouble.
Definition getEWBufferSize (stats : list stat_data) : nat :=
  fold_left (fun bs d => fold_left (fun bs p => bs + ewEntrySize (snd p)) d (bs + size TSize)) stats 0.

(** The first n entries of a vector; reading past its end is undefined ([None]). *)
Definition take {A} (n : nat) (l : list A) : option (list A) := if Nat.leb n (length l) then Some (firstn n l) else None.
(** Lines 686-703: one symmetry function; every list of items is one call of MPI_Pack. *)
Definition packEntry (p : nat * container) : option (list (list item)) :=
  let c := snd p in
  match take (c_countEW c) (c_structureEW c), take (c_countEW c) (c_atomEW c), take (c_countEW c) (c_valueEW c) with
  | Some s, Some a, Some v =>
      Some [[cN (fst p)]; [cN (c_countEW c)]; [cN (c_type c)]; [ID (c_Gmin c)]; [ID (c_Gmax c)]; [cN (length (c_element c) + 1)];
            map cChar (c_element c ++ [zero]); map cN s; map cN a; map ID v]
  | _, _, _ => None
  end.
(** Lines 675-706 fillEWBuffer into a buffer of bs bytes: final position and items. *)
Definition fillElement (bs : nat) (d : stat_data) (pb : nat * list item) : option (nat * list item) :=
  match mpiPack size bs [cN (length d)] pb with
  | None => None
  | Some pb => ofold (fun p pb => match packEntry p with None => None | Some calls => packAll size bs calls pb end) d pb
  end.
Definition fillEWBuffer (bs : nat) (stats : list stat_data) : option (nat * list item) := ofold (fillElement bs) stats (0, []).

(** resize(off + n) followed by overwriting the last n entries. *)
Definition appendAt {A} (dflt : A) (off : nat) (old new : list A) : list A := firstn off (old ++ repeat dflt (off - length old)) ++ new.
Notation "x <- r ;; k" := (bindr r (fun x => k)) (at level 100, r at next level, right associativity).
(** Lines 717-745: one symmetry function. *)
Definition extractEntry (d : stat_data) : reader stat_data :=
  index <- rN ;; countEW <- rN ;; type <- rN ;; gmin <- rD ;; gmax <- rD ;; ts <- rN ;; chars <- rRep ts rChar ;;
  match cstring chars with
  | None => fun _ => None
  | Some el =>
      s <- rRep countEW rN ;; a <- rRep countEW rN ;; v <- rRep countEW rD ;;
      let c := sd_get d index in
      ret (mset Nat.eqb index
             (mkContainer (c_count c) (c_countEW c + countEW) type (c_min c) (c_max c) gmin gmax (c_sum c) (c_sum2 c) el
                (appendAt 0 (c_countEW c) (c_structureEW c) s) (appendAt 0 (c_countEW c) (c_atomEW c) a)
                (appendAt 0%R (c_countEW c) (c_valueEW c) v)) d)
  end.
Fixpoint extractEntries (n : nat) (d : stat_data) : reader stat_data :=
  match n with O => ret d | S n => d <- extractEntry d ;; extractEntries n d end.
(** Lines 708-749 extractEWBuffer. *)
Fixpoint extractEWBuffer (stats : list stat_data) : reader (list stat_data) :=
  match stats with
  | [] => ret []
  | d :: stats => n <- rN ;; d <- extractEntries n d ;; stats <- extractEWBuffer stats ;; ret (d :: stats)
  end.

(** SymFncStatistics.cpp:112-137 getExtrapolationWarningLines: the values in a line; the map is traversed in the order of its keys. *)
Record ewline := mkLine { l_structure : nat; l_atom : nat; l_element : str; l_symfunc : nat; l_type : nat; l_value : R; l_min : R; l_max : R }.
Fixpoint insertEntry (p : nat * container) (d : stat_data) : stat_data :=
  match d with [] => [p] | q :: d' => if Nat.leb (fst p) (fst q) then p :: d else q :: insertEntry p d' end.
Definition inOrder (d : stat_data) : stat_data := fold_right insertEntry [] d.
Definition lineOf (p : nat * container) (i : nat) : option ewline :=
  let c := snd p in
  match nth_error (c_structureEW c) i, nth_error (c_atomEW c) i, nth_error (c_valueEW c) i with
  | Some s, Some a, Some v => Some (mkLine s a (c_element c) (fst p + 1) (c_type c) v (c_Gmin c) (c_Gmax c))
  | _, _, _ => None
  end.
Definition getExtrapolationWarningLines (d : stat_data) : option (list ewline) :=
  ofold (fun p vs => ofold (fun i vs => match lineOf p i with None => None | Some l => Some (vs ++ [l]) end)
                       (seq 0 (length (c_valueEW (snd p)))) vs) (inOrder d) [].
(** InterfaceLammps.cpp:751-765 writeExtrapolationWarnings: the lines of every element. *)
Definition writeExtrapolationWarnings (stats : list stat_data) : option (list (list ewline)) :=
  ofold (fun d vs => match getExtrapolationWarningLines d with None => None | Some l => Some (vs ++ [l]) end) stats [].

(** Mode.cpp:2164-2176 getNumExtrapolationWarnings. *)
Definition getNumExtrapolationWarnings (stats : list stat_data) : nat := fold_left (fun n d => n + countExtrapolationWarnings d) stats 0.
(** pair_hdnnp.cpp:310-341: rank 0 receives the buffers of the others in order and writes the lines. *)
Definition collectFrom (stats : list stat_data) (mine : list stat_data) : option (list stat_data) :=
  if Nat.ltb 0 (getNumExtrapolationWarnings stats) then
    let bs := getEWBufferSize stats in
    match fillEWBuffer bs stats with
    | None => None
    | Some (_, buf) => match extractEWBuffer mine buf with None => None | Some (mine, _) => Some mine end
    end
  else Some mine.
Definition handleExtrapolationWarnings (ranks : list (list stat_data)) : option (list (list ewline)) :=
  match ranks with
  | [] => None
  | mine :: others => match ofold collectFrom others mine with None => None | Some mine => writeExtrapolationWarnings mine end
  end.
End Buffer.

(** Recording of a warning for an element (Element.cpp:494-504); what belongs to the symmetry function comes from the set-up. *)
Record ewheader := mkHeader { h_type : nat; h_min : R; h_max : R; h_symbol : str }.
Record ewevent := mkEw { v_element : nat; v_symfunc : nat; v_value : R; v_structure : nat; v_atom : nat }.
Fixpoint onElement (e : nat) (f : stat_data -> stat_data) (stats : list stat_data) : list stat_data :=
  match stats with [] => [] | d :: stats => match e with O => f d :: stats | S e => d :: onElement e f stats end end.
Definition recordWarning (hdr : nat -> nat -> ewheader) (stats : list stat_data) (w : ewevent) : list stat_data :=
  let h := hdr (v_element w) (v_symfunc w) in
  onElement (v_element w) (fun d => addExtrapolationWarning d (v_symfunc w) (h_type h) (v_value w) (h_min h) (h_max h) (h_symbol h)
                                      (v_structure w) (v_atom w)) stats.
(** A process with E elements, from cleared statistics (pair_hdnnp.cpp:364, InterfaceLammps.cpp:767-776) through the warnings ws. *)
Definition recordWarnings (hdr : nat -> nat -> ewheader) (E : nat) (ws : list ewevent) : list stat_data :=
  fold_left (recordWarning hdr) ws (repeat [] E).
