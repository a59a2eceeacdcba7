(** Model of sending structures between MPI processes (src/libnnptrain/Dataset.cpp: calculateBufferSize,
    sendStructure, recvStructure).

    The send buffer is the list of the packed items, every item with its MPI type; an item of type t occupies
    [size t] bytes (MPI_Pack_size(1, t)), so that n items packed by one call advance the position by n * size t.
    Unpacking an item with another type than it was packed with, reading past the end of the buffer or packing past
    its end is an error ([None]).  The two MPI_Send/MPI_Recv calls transfer bs and the buffer unchanged.
    [int ts] is packed and unpacked as MPI_SIZE_T (lines 281-307, 499-530): on a little-endian machine the low half of the item is ts and
    the high half is whatever follows ts in memory; the receiver finds ts in the low half.  That the receiver also
    overwrites the four bytes after its ts is not modelled.

    Fields of Structure and Atom that are neither transferred nor needed here are left out (elementMap, energyShort,
    energyElec, hasCharges, maxCutoffRadiusOverall, lambda, A, hasAMatrix; dEelecdQ, fElec, pEelecpr, dChidG, dQdr,
    dAdrQ); NeighborListIsSorted and neighborCutoffs of atoms are kept to show what becomes of fields that are not
    transferred. *)
From Coq Require Import List Arith ZArith Reals Bool Ascii.
From Verif Require Import Base.Vec3 Model.Strings.
Import ListNotations.

Inductive ty := TChar | TInt | TInt64 | TSize | TDouble.
Inductive item := IZ (t : ty) (z : Z) | ID (x : R).
Definition ty_of (i : item) : ty := match i with IZ t _ => t | ID _ => TDouble end.
Definition ty_eqb (a b : ty) : bool :=
  match a, b with TChar, TChar | TInt, TInt | TInt64, TInt64 | TSize, TSize | TDouble, TDouble => true | _, _ => false end.

(** src/libnnp/Atom.h:35-61. *)
Record tnb := mkTN { n_index : nat; n_tag : Z; n_element : nat; n_d : R; n_dr : vec; n_cache : list R; n_dGdr : list vec }.
(** src/libnnp/Atom.h:90-165; [ta_sorted] is NeighborListIsSorted. *)
Record tatom := mkTA {
  ta_hasNL : bool; ta_hasSF : bool; ta_hasSFD : bool; ta_useChargeNeuron : bool;
  ta_index : nat; ta_indexStructure : nat; ta_tag : Z; ta_element : nat;
  ta_numNeighbors : nat; ta_numNeighborsUnique : nat; ta_numSF : nat;
  ta_energy : R; ta_chi : R; ta_charge : R; ta_chargeRef : R;
  ta_r : vec; ta_f : vec; ta_fRef : vec;
  ta_neighborsUnique : list nat; ta_numNeighborsPerElement : list nat; ta_numSFD : list nat; ta_cacheSizes : list nat;
  ta_G : list R; ta_dEdG : list R; ta_dQdG : list R; ta_dGdxia : list R; ta_dGdr : list vec;
  ta_neighbors : list tnb;
  ta_sorted : bool; ta_neighborCutoffs : list (R * nat) }.
(** src/libnnp/Structure.h:59-122; [ts_sampleType] is the value of the enum. *)
Record tstruct := mkTS {
  ts_isPeriodic : bool; ts_isTriclinic : bool; ts_hasNL : bool; ts_hasSF : bool; ts_hasSFD : bool;
  ts_index : nat; ts_numAtoms : nat; ts_numElements : nat; ts_numElementsPresent : nat;
  ts_pbc : Z * Z * Z;
  ts_energy : R; ts_energyRef : R; ts_charge : R; ts_chargeRef : R; ts_volume : R;
  ts_sampleType : Z; ts_comment : str;
  ts_box : vec * vec * vec; ts_invbox : vec * vec * vec;
  ts_numAtomsPerElement : list nat; ts_atoms : list tatom }.

Section Transfer.
(** Compile-time switches: cacheOn unless N2P2_NO_SF_CACHE is defined; fullSfd if N2P2_FULL_SFD_MEMORY is. *)
Variables (cacheOn fullSfd : bool).
Variable size : ty -> nat.

Fixpoint sumOver {A} (f : A -> nat) (l : list A) : nat := match l with [] => 0 | x :: r => f x + sumOver f r end.

(** src/libnnptrain/Dataset.cpp:235-246: one neighbor. *)
Definition bufNeighbor (n : tnb) : nat :=
  2 * size TSize + size TInt64 + size TDouble + 3 * size TDouble
  + (if cacheOn then size TSize + length (n_cache n) * size TDouble else 0)
  + size TSize + length (n_dGdr n) * 3 * size TDouble.
(** Lines 199-247: one atom. *)
Definition bufAtom (a : tatom) : nat :=
  size TSize + length (ta_neighborsUnique a) * size TSize
  + size TSize + length (ta_numNeighborsPerElement a) * size TSize
  + size TSize + length (ta_numSFD a) * size TSize
  + (if cacheOn then size TSize + length (ta_cacheSizes a) * size TSize else 0)
  + size TSize + length (ta_G a) * size TDouble
  + size TSize + length (ta_dEdG a) * size TDouble
  + size TSize + length (ta_dQdG a) * size TDouble
  + (if fullSfd then size TSize + length (ta_dGdxia a) * size TDouble else 0)
  + size TSize + length (ta_dGdr a) * 3 * size TDouble
  + size TSize + sumOver bufNeighbor (ta_neighbors a).
(** src/libnnptrain/Dataset.cpp:165-249. *)
Definition calculateBufferSize (s : tstruct) : nat :=
  5 * size TChar + 4 * size TSize + 4 * size TInt + 5 * size TDouble
  + size TSize + (length (ts_comment s) + 1) * size TChar
  + 9 * size TDouble
  + 9 * size TDouble
  + size TSize + length (ts_numAtomsPerElement s) * size TSize
  + size TSize
  + length (ts_atoms s) * (4 * size TChar + 6 * size TSize + size TInt64 + 4 * size TDouble + 3 * 3 * size TDouble)
  + sumOver bufAtom (ts_atoms s).

(** * Packing *)
Definition cB (b : bool) : item := IZ TChar (if b then 1 else 0).
Definition cN (n : nat) : item := IZ TSize (Z.of_nat n).
Definition cChar (c : ascii) : item := IZ TChar (Z.of_nat (nat_of_ascii c)).
Definition cV (v : vec) : list item := [ID (vx v); ID (vy v); ID (vz v)].
(** [int ts] packed as MPI_SIZE_T; [hi] is what follows it in memory. *)
Definition cTs (hi : Z) (n : nat) : item := IZ TSize (Z.of_nat n + 4294967296 * hi).

(** Every function below returns the MPI_Pack calls in the order in which they are made: one list of items per call. *)
Definition packVec {A} (f : A -> item) (l : list A) : list (list item) :=
  [cN (length l)] :: (if Nat.ltb 0 (length l) then [map f l] else []).
Definition packVecs (l : list vec) : list (list item) :=
  [cN (length l)] :: (if Nat.ltb 0 (length l) then map cV l else []).
(** Lines 421-449. *)
Definition packNeighbor (n : tnb) : list (list item) :=
  [[cN (n_index n)]; [IZ TInt64 (n_tag n)]; [cN (n_element n)]; [ID (n_d n)]; cV (n_dr n)]
  ++ (if cacheOn then packVec ID (n_cache n) else [])
  ++ packVecs (n_dGdr n).
(** Lines 313-451. *)
Definition packAtom (a : tatom) : list (list item) :=
  [[cB (ta_hasNL a)]; [cB (ta_hasSF a)]; [cB (ta_hasSFD a)]; [cB (ta_useChargeNeuron a)];
   [cN (ta_index a)]; [cN (ta_indexStructure a)]; [IZ TInt64 (ta_tag a)]; [cN (ta_element a)];
   [cN (ta_numNeighbors a)]; [cN (ta_numNeighborsUnique a)]; [cN (ta_numSF a)];
   [ID (ta_energy a)]; [ID (ta_chi a)]; [ID (ta_charge a)]; [ID (ta_chargeRef a)];
   cV (ta_r a); cV (ta_f a); cV (ta_fRef a)]
  ++ packVec cN (ta_neighborsUnique a)
  ++ packVec cN (ta_numNeighborsPerElement a)
  ++ packVec cN (ta_numSFD a)
  ++ (if cacheOn then packVec cN (ta_cacheSizes a) else [])
  ++ packVec ID (ta_G a)
  ++ packVec ID (ta_dEdG a)
  ++ packVec ID (ta_dQdG a)
  ++ (if fullSfd then packVec ID (ta_dGdxia a) else [])
  ++ packVecs (ta_dGdr a)
  ++ [cN (length (ta_neighbors a))] :: (if Nat.ltb 0 (length (ta_neighbors a)) then flat_map packNeighbor (ta_neighbors a) else []).
(** src/libnnptrain/Dataset.cpp:262-453. *)
Definition packStructure (hi : Z * Z * Z) (s : tstruct) : list (list item) :=
  let '(hi1, hi2, hi3) := hi in
  [[cB (ts_isPeriodic s)]; [cB (ts_isTriclinic s)]; [cB (ts_hasNL s)]; [cB (ts_hasSF s)]; [cB (ts_hasSFD s)];
   [cN (ts_index s)]; [cN (ts_numAtoms s)]; [cN (ts_numElements s)]; [cN (ts_numElementsPresent s)];
   (let '(p0, p1, p2) := ts_pbc s in [IZ TInt p0; IZ TInt p1; IZ TInt p2]);
   [ID (ts_energy s)]; [ID (ts_energyRef s)]; [ID (ts_charge s)]; [ID (ts_chargeRef s)]; [ID (ts_volume s)];
   [IZ TInt (ts_sampleType s)];
   [cTs hi1 (length (ts_comment s) + 1)];
   map cChar (ts_comment s ++ [zero])]
  ++ (let '(b0, b1, b2) := ts_box s in [cV b0; cV b1; cV b2])
  ++ (let '(b0, b1, b2) := ts_invbox s in [cV b0; cV b1; cV b2])
  ++ [cTs hi2 (length (ts_numAtomsPerElement s))]
     :: (if Nat.ltb 0 (length (ts_numAtomsPerElement s)) then [map cN (ts_numAtomsPerElement s)] else [])
  ++ [cTs hi3 (length (ts_atoms s))]
     :: (if Nat.ltb 0 (length (ts_atoms s)) then flat_map packAtom (ts_atoms s) else []).

(** MPI_Pack into a buffer of bs bytes at position p. *)
Definition bytes (l : list item) : nat := sumOver (fun i => size (ty_of i)) l.
Definition mpiPack (bs : nat) (call : list item) (pb : nat * list item) : option (nat * list item) :=
  let (p, buf) := pb in
  if Nat.leb (p + bytes call) bs then Some (p + bytes call, buf ++ call) else None.
Fixpoint packAll (bs : nat) (calls : list (list item)) (pb : nat * list item) : option (nat * list item) :=
  match calls with
  | [] => Some pb
  | c :: calls => match mpiPack bs c pb with None => None | Some pb => packAll bs calls pb end
  end.
(** src/libnnptrain/Dataset.cpp:251-461: buffer size, final position and packed items. *)
Definition sendStructure (hi : Z * Z * Z) (s : tstruct) : option (nat * nat * list item) :=
  let bs := calculateBufferSize s in
  match packAll bs (packStructure hi s) (0, []) with None => None | Some (p, buf) => Some (bs, p, buf) end.

(** * Unpacking *)
Definition reader (A : Type) := list item -> option (A * list item).
Definition bindr {A B} (r : reader A) (k : A -> reader B) : reader B :=
  fun b => match r b with None => None | Some (a, b) => k a b end.
Definition ret {A} (a : A) : reader A := fun b => Some (a, b).
Definition unpackZ (t : ty) : reader Z :=
  fun b => match b with IZ t' z :: b => if ty_eqb t t' then Some (z, b) else None | _ => None end.
Definition rD : reader R := fun b => match b with ID x :: b => Some (x, b) | _ => None end.
(** A bool must receive the value 0 or 1. *)
Definition rB : reader bool :=
  bindr (unpackZ TChar) (fun z => if Z.eqb z 0 then ret false else if Z.eqb z 1 then ret true else fun _ => None).
Definition rN : reader nat := bindr (unpackZ TSize) (fun z => if Z.ltb z 0 then (fun _ => None) else ret (Z.to_nat z)).
Definition rChar : reader ascii := bindr (unpackZ TChar) (fun z => ret (ascii_of_nat (Z.to_nat z))).
(** The low half of a size_t, read as an int. *)
Definition rTs : reader Z :=
  bindr (unpackZ TSize) (fun z => let m := (z mod 4294967296)%Z in ret (if Z.ltb m 2147483648 then m else m - 4294967296)%Z).
Fixpoint rRep {A} (n : nat) (r : reader A) : reader (list A) :=
  match n with O => ret [] | S n => bindr r (fun x => bindr (rRep n r) (fun l => ret (x :: l))) end.
Notation "x <- r ;; k" := (bindr r (fun x => k)) (at level 100, r at next level, right associativity).
Definition rV : reader vec := x <- rD ;; y <- rD ;; z <- rD ;; ret (mkVec x y z).
(** Vector of unknown length: old content stays if the length is 0. *)
Definition unpackVec {A} (r : reader A) (old : list A) : reader (list A) :=
  n <- rN ;; if Nat.ltb 0 n then rRep n r else ret old.

(** Lines 666-697. *)
Definition unpackNeighbor : reader tnb :=
  index <- rN ;; tag <- unpackZ TInt64 ;; element <- rN ;; d <- rD ;; dr <- rV ;;
  cache <- (if cacheOn then unpackVec rD [] else ret []) ;;
  dGdr <- unpackVec rV [] ;;
  ret (mkTN index tag element d dr cache dGdr).
(** Lines 538-700, into an atom made by the default constructor (Atom.cpp:27-45). *)
Definition unpackAtom : reader tatom :=
  hasNL <- rB ;; hasSF <- rB ;; hasSFD <- rB ;; ucn <- rB ;;
  index <- rN ;; indexStructure <- rN ;; tag <- unpackZ TInt64 ;; element <- rN ;;
  nn <- rN ;; nnu <- rN ;; nsf <- rN ;;
  energy <- rD ;; chi <- rD ;; charge <- rD ;; chargeRef <- rD ;;
  r <- rV ;; f <- rV ;; fRef <- rV ;;
  nu <- unpackVec rN [] ;; npe <- unpackVec rN [] ;; nsfd <- unpackVec rN [] ;;
  cs <- (if cacheOn then unpackVec rN [] else ret []) ;;
  G <- unpackVec rD [] ;; dEdG <- unpackVec rD [] ;; dQdG <- unpackVec rD [] ;;
  dGdxia <- (if fullSfd then unpackVec rD [] else ret []) ;;
  dGdr <- unpackVec rV [] ;;
  nbs <- unpackVec unpackNeighbor [] ;;
  ret (mkTA hasNL hasSF hasSFD ucn index indexStructure tag element nn nnu nsf energy chi charge chargeRef r f fRef
         nu npe nsfd cs G dEdG dQdG dGdxia dGdr nbs false []).
(** [s->comment = comment]: the characters up to the first NUL; without NUL the end is not found ([None]). *)
Fixpoint cstring (l : list ascii) : option str :=
  match l with
  | [] => None
  | c :: l => if Ascii.eqb c zero then Some [] else match cstring l with None => None | Some s => Some (c :: s) end
  end.
Definition rBox : reader (vec * vec * vec) := a <- rV ;; b <- rV ;; c <- rV ;; ret (a, b, c).
(** [int ts] elements, the old content stays if ts is not positive. *)
Definition unpackVecTs {A} (r : reader A) (old : list A) : reader (list A) :=
  n <- rTs ;; if Z.ltb 0 n then rRep (Z.to_nat n) r else ret old.
(** src/libnnptrain/Dataset.cpp:480-702; [s0] is the structure received into. *)
Definition unpackStructure (s0 : tstruct) : reader tstruct :=
  isPeriodic <- rB ;; isTriclinic <- rB ;; hasNL <- rB ;; hasSF <- rB ;; hasSFD <- rB ;;
  index <- rN ;; numAtoms <- rN ;; numElements <- rN ;; numElementsPresent <- rN ;;
  p0 <- unpackZ TInt ;; p1 <- unpackZ TInt ;; p2 <- unpackZ TInt ;;
  energy <- rD ;; energyRef <- rD ;; charge <- rD ;; chargeRef <- rD ;; volume <- rD ;;
  sampleType <- unpackZ TInt ;;
  n <- rTs ;;
  if Z.ltb n 0 then (fun _ => None) else
  chars <- rRep (Z.to_nat n) rChar ;;
  match cstring chars with
  | None => fun _ => None
  | Some comment =>
      box <- rBox ;; invbox <- rBox ;;
      nape <- unpackVecTs rN (ts_numAtomsPerElement s0) ;;
      atoms <- unpackVecTs unpackAtom (ts_atoms s0) ;;
      ret (mkTS isPeriodic isTriclinic hasNL hasSF hasSFD index numAtoms numElements numElementsPresent (p0, p1, p2)
             energy energyRef charge chargeRef volume sampleType comment box invbox nape atoms)
  end.
(** src/libnnptrain/Dataset.cpp:463-707: the structure and what is left of the buffer. *)
Definition recvStructure (s0 : tstruct) (buf : list item) : option (tstruct * list item) := unpackStructure s0 buf.
End Transfer.
