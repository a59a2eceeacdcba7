(** Model of the tool nnp-comp2 (src/application/nnp-comp2.cpp): comparison of two
    potentials and selection of structures.

    The predictions of the two potentials are given (see Prediction.v).  Not
    modelled: the text of diff.out, comp.data and select.out, and the log. *)
From Coq Require Import Reals ZArith List Arith Bool.
From Coq Require Import String.
From Coq Require Import List.
From Verif Require Import Base.Vec3 Base.SumR Model.Strings Model.Settings Model.SymLines.
Import ListNotations.
Local Open Scope R_scope.

(** ** Pairs of processes *)
(** Rank after MPI_Comm_split with the rank as key: number of lower ranks with
    the same color. *)
Definition split_rank (color : nat -> nat) (r : nat) : nat :=
  List.length (filter (fun r' => Nat.eqb (color r') (color r)) (seq 0 r)).
(** nnp-comp2.cpp:118: myNNP. *)
Definition myNNP (w r : nat) : nat := (r / w)%nat.
(** nnp-comp2.cpp:119-121: myRankNNP. *)
Definition myRankNNP (w r : nat) : nat := split_rank (myNNP w) r.
(** nnp-comp2.cpp:124: myData. *)
Definition myData (w r : nat) : nat := (myRankNNP w r mod w)%nat.
(** nnp-comp2.cpp:125-127: myRankData. *)
Definition myRankData (w r : nat) : nat := split_rank (myData w) r.

(** ** Comparison of one structure *)
(** What a process knows after the prediction: energy, number of extrapolation
    warnings, forces f and reference forces fRef of the atoms. *)
Record result := mkResult { re_energy : R; re_ew : nat; re_atoms : list (vec * vec) }.
(** nnp-comp2.cpp:311-325: buffer sent for NNP 2. *)
Definition sendBuffer (useForces : bool) (s : result) : list R :=
  re_energy s :: INR (re_ew s) ::
  if useForces then flat_map (fun a => [vx (fst a); vy (fst a); vz (fst a)]) (re_atoms s) else [].
(** nnp-comp2.cpp:260-264: MPI_Recv; a longer message is an error, after a
    shorter one the rest of the buffer keeps its zeros. *)
Definition receiveBuffer (useForces : bool) (numAtoms : nat) (message : list R) : outcome (list R) :=
  let size := (2 + if useForces then 3 * numAtoms else 0)%nat in
  if Nat.ltb size (length message) then Thrown
  else Done (message ++ repeat 0 (size - length message)).
(** What is written to diff.out and comp.data. *)
Record difference := mkDiff { di_ew1 : nat; di_ew2 : nat; di_e1 : R; di_e2 : R; di_mean : R; di_max : R;
                              di_energyRef : R; di_fRef : list vec; di_ewSum : nat }.
(** (size_t) of a double that is not negative. *)
Definition to_size (x : R) : nat := Z.to_nat (Int_part x).
(** nnp-comp2.cpp:273-283: loop over the atoms; state: remaining buffer, fRef so
    far, meanForceDiff, maxForceDiff. *)
Definition diffAtom (a : vec * vec) (c : list R * list vec * R * R) : outcome (list R * list vec * R * R) :=
  let '(buf, fs, sum, mx) := c in
  match buf with
  | b0 :: b1 :: b2 :: buf =>
    let d := mkVec (vx (fst a) - b0) (vy (fst a) - b1) (vz (fst a) - b2) in
    Done (buf, fs ++ [d], sum + Rabs (vx d) + Rabs (vy d) + Rabs (vz d), Rmax (Rmax (Rmax mx (Rabs (vx d))) (Rabs (vy d))) (Rabs (vz d)))
  | _ => Thrown
  end.
(** nnp-comp2.cpp:257-300 for one structure on the process of NNP 1. *)
Definition compareStructure (useForces : bool) (s : result) (message : list R) : outcome difference :=
  buf <- receiveBuffer useForces (List.length (re_atoms s)) message;
  match buf with
  | e2 :: x :: buf =>
    let ew2 := to_size x in
    c <- (if useForces
          then c <- foldo diffAtom (re_atoms s) (buf, [], 0, 0);
               Done (snd (fst (fst c)), snd (fst c) / INR (3 * List.length (re_atoms s)), snd c)
          else Done (map snd (re_atoms s), 0, 0));
    Done (mkDiff (re_ew s) ew2 (re_energy s) e2 (snd (fst c)) (snd c) (re_energy s - e2) (fst (fst c)) (re_ew s + ew2))
  | _ => Thrown
  end.

(** ** Selection *)
(** A structure of comp.data: second word of the comment (number of warnings),
    energyRef, fRef. *)
Record centry := mkCE { ce_ew : nat; ce_energy : R; ce_forces : list vec }.
(** Counters of the summary, indices of the structures selected (in order) and
    structures written to comp-selection.data. *)
Record selection := mkSel { se_ewHit : nat; se_enHit : nat; se_fHit : nat; se_total : nat; se_selected : nat;
                            se_indices : list nat; se_written : list centry }.
(** Comparison a > b of doubles. *)
Definition larger (a b : R) : bool := if Rlt_dec b a then true else false.
(** nnp-comp2.cpp:437-442. *)
Definition ewFlag (t : nat) (s : centry) : bool := (Nat.ltb 0 t && Nat.leb t (ce_ew s))%bool.
(** nnp-comp2.cpp:443-448.  A structure without atoms gives 0/0 or infinity
    there and 0 here. *)
Definition energyFlag (t : R) (s : centry) : bool := (larger t 0 && larger (Rabs (ce_energy s) / INR (List.length (ce_forces s))) t)%bool.
(** nnp-comp2.cpp:449-468: flagForce. *)
Definition forceFlag (t : R) (s : centry) : bool :=
  (larger t 0 && existsb (fun v => larger (Rabs (vx v)) t || larger (Rabs (vy v)) t || larger (Rabs (vz v)) t) (ce_forces s))%bool.
(** nnp-comp2.cpp:428-488, one pass of the loop. *)
Definition selectOne (tW : nat) (tE tF : R) (c : selection) (s : centry) : selection :=
  let count (b : bool) (n : nat) := if b then S n else n in
  let fW := ewFlag tW s in let fE := energyFlag tE s in let fF := forceFlag tF s in
  let any := (fW || fE || fF)%bool in
  mkSel (count fW (se_ewHit c)) (count fE (se_enHit c)) (count fF (se_fHit c)) (S (se_total c)) (count any (se_selected c))
        (if any then se_indices c ++ [se_total c] else se_indices c)
        (if any then se_written c ++ [s] else se_written c).
(** nnp-comp2.cpp:421-489: all structures of comp.data. *)
Definition selectAll (tW : nat) (tE tF : R) (l : list centry) : selection :=
  fold_left (selectOne tW tE tF) l (mkSel 0 0 0 0 0 [] []).

(** ** Weights *)
(** Mode.cpp:1451-1479 setupNeuralNetworkWeights(directoryPrefix, fileNameFormats)
    for the network [k] with format [own] (Mode.cpp:1174-1194): format of the
    names of the weights files. *)
Fixpoint format_of (formats : list (str * str)) (k : str) : option str :=
  match formats with [] => None | (k', f) :: r => if str_eqb k k' then Some f else format_of r k end.
Definition weightsFormat (prefix : str) (formats : list (str * str)) (k own : str) : str :=
  prefix ++ match format_of formats k with Some f => f | None => own end.
(** nnp-comp2.cpp:136 and 171: the call for NNP number [i] (1 or 2). *)
Definition comp2Format (i : nat) (k own : str) : str :=
  let dirNNP := lit "nnp-data-" ++ (if Nat.eqb i 1 then lit "1" else lit "2") in
  weightsFormat (dirNNP ++ lit "/weights.%03d.data") [] k own.
