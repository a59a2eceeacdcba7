(** Model of the distribution of structures over MPI processes and of collective file output
    (src/libnnptrain/Dataset.cpp).

    Processes are numbered 0 .. numProcs-1.  A data file is the list of the structures it contains (the
    parser of a structure is modelled elsewhere); the number of "begin" lines counted by getNumStructures
    (709-722) is the length of that list.  What is transferred by sendStructure/recvStructure is the value
    itself (Model/Transfer.v models the packing). *)
From Coq Require Import List Arith ZArith Reals Bool.
From Verif Require Import Base.Loop Base.Vec3.
Import ListNotations.

(** src/libnnptrain/Dataset.cpp:765-780: number of structures of every process. *)
Definition perProc (numProcs : nat) (excludeRank0 : bool) (numStructures : nat) : nat -> nat :=
  let numReceivers := if excludeRank0 then numProcs - 1 else numProcs in
  let quotient := numStructures / numReceivers in
  let remainder := numStructures mod numReceivers in
  for_up numProcs (fun i a =>
    if negb (Nat.eqb i 0) || negb excludeRank0
    then let a := upd a i quotient in
         if Nat.ltb 0 remainder && Nat.ltb 0 i && Nat.leb i remainder then upd a i (a i + 1) else a
    else a) (fun _ => 0).

Section Distribute.
Context {A : Type}.
(** removeEnergyOffset (Mode.cpp), applied to every structure after reading it. *)
Variable removeOffset : A -> A.

(** State of rank 0 while it distributes: remaining file, countStructures, countStructuresPerProc, and for
    every rank the structures given to it so far, oldest first ([structures] of rank 0, the messages sent to
    the other ranks; MPI keeps the order of messages between two ranks). *)
Record dstate := mkD { d_file : list A; d_count : nat; d_perProc : nat -> nat; d_out : nat -> list (nat * A) }.

(** Lines 813-830 and 841-858: read the next structure, set its index, store or send it.  Reading past the end
    of the file is an exception. *)
Definition giveTo (proc : nat) (s : dstate) : option dstate :=
  match d_file s with
  | [] => None
  | x :: file =>
      Some (mkD file (d_count s + 1) (upd (d_perProc s) proc (d_perProc s proc + 1))
                (upd (d_out s) proc (d_out s proc ++ [(d_count s, removeOffset x)])))
  end.

(** Lines 806-835: one number per draw of gsl_rng_uniform_int(rng, numProcs); [None] if the given sequence of random numbers is
    used up before the loop ends. *)
Fixpoint randomLoop (numStructures : nat) (quota : nat -> nat) (draws : list nat) (s : dstate) : option dstate :=
  if Nat.ltb (d_count s) numStructures
  then match draws with
       | [] => None
       | proc :: draws =>
           if Nat.ltb (d_perProc s proc) (quota proc)
           then match giveTo proc s with None => None | Some s => randomLoop numStructures quota draws s end
           else randomLoop numStructures quota draws s
       end
  else Some s.

Fixpoint repeatGive (n proc : nat) (s : dstate) : option dstate :=
  match n with
  | O => Some s
  | S n => match giveTo proc s with None => None | Some s => repeatGive n proc s end
  end.
(** Lines 836-863. *)
Fixpoint sequentialLoop (procs : list nat) (quota : nat -> nat) (s : dstate) : option dstate :=
  match procs with
  | [] => Some s
  | p :: procs => match repeatGive (quota p) p s with None => None | Some s => sequentialLoop procs quota s end
  end.

(** Lines 866-874: rank p receives [quota p] structures; waiting for a message that is never sent is a deadlock ([None]). *)
Definition receive (quota : nat -> nat) (out : nat -> list (nat * A)) (p : nat) : option (list (nat * A)) :=
  if Nat.eqb p 0 then Some (out 0)
  else if Nat.ltb (length (out p)) (quota p) then None else Some (firstn (quota p) (out p)).

Fixpoint receiveAll (quota : nat -> nat) (out : nat -> list (nat * A)) (ps : list nat) : option (list (list (nat * A))) :=
  match ps with
  | [] => Some []
  | p :: ps => match receive quota out p, receiveAll quota out ps with
               | Some x, Some xs => Some (x :: xs)
               | _, _ => None
               end
  end.

(** src/libnnptrain/Dataset.cpp:724-886.  The result is the list of local structures of every rank; [None] is an exception (or a random
    sequence that is too short). *)
Definition distributeStructures (numProcs : nat) (randomize excludeRank0 : bool) (draws : list nat) (file : list A)
  : option (list (list (nat * A))) :=
  if excludeRank0 && Nat.eqb numProcs 1 then None
  else
    let numReceivers := if excludeRank0 then numProcs - 1 else numProcs in
    let numStructures := length file in
    if Nat.ltb numStructures numReceivers then None
    else
      let quota := perProc numProcs excludeRank0 numStructures in
      let s := mkD file 0 (fun _ => 0) (fun _ => []) in
      match (if randomize then randomLoop numStructures quota draws s
             else sequentialLoop (seq 0 numProcs) quota s) with
      | None => None
      | Some s => receiveAll quota (d_out s) (seq 0 numProcs)
      end.
End Distribute.

(** * Numeric forces *)
(** A structure as far as prepareNumericForces changes it: positions and comment; [inl] is the comment
    "original", [inr] the numbers (count, iAtom, ixyz, sign) of the comment line 935. *)
Record nstruct := mkN { n_pos : list vec; n_comment : unit + (nat * nat * nat * Z) }.
(** r[i] += x *)
Definition addComponent (v : vec) (i : nat) (x : R) : vec :=
  match i with
  | O => mkVec (vx v + x) (vy v) (vz v)
  | S O => mkVec (vx v) (vy v + x) (vz v)
  | _ => mkVec (vx v) (vy v) (vz v + x)
  end.
Definition updateNth {B} (l : list B) (i : nat) (f : B -> B) : list B :=
  firstn i l ++ match skipn i l with [] => [] | x :: r => f x :: r end.

(** src/libnnptrain/Dataset.cpp:888-950 on process [myRank]; [remap] is Structure::remap of one position
    (identity if the structure is not periodic). *)
Definition prepareNumericForces (remap : vec -> vec) (numProcs myRank : nat) (delta : R) (pos : list vec) : list nstruct :=
  let numStructures := 1 + 6 * length pos in
  let quotient := numStructures / numProcs in
  let remainder := numStructures mod numProcs in
  let quota := for_up numProcs (fun i a =>
     let a := upd a i quotient in
     if Nat.ltb 0 remainder && Nat.ltb i remainder then upd a i (a i + 1) else a) (fun _ => 0) in
  let structures := if Nat.eqb myRank 0 then [mkN pos (inl tt)] else [] in
  snd (for_up numProcs (fun p =>
    for_range (if Nat.eqb p 0 then 1 else 0) (quota p) (fun _ cs =>
      let '(count, structures) := cs in
      let iAtom := count / 6 in
      let ixyz := count mod 3 in
      let sign := (2 * Z.of_nat ((count mod 6) / 3) - 1)%Z in
      (count + 1,
       if Nat.eqb p myRank
       then structures ++ [mkN (updateNth pos iAtom (fun r => remap (addComponent r ixyz (IZR sign * delta)))) (inr (count, iAtom, ixyz, sign))]
       else structures))) (0, structures)).

(** What the comment line 935 says about the displacement: nothing for the unaltered structure, otherwise atom, coordinate and
    sign (src/libnnptrain/Dataset.cpp:935-941; the running number is left out). *)
Definition comment_label (s : nstruct) : option (nat * nat * Z) :=
  match n_comment s with inl _ => None | inr (_, a, c, sg) => Some (a, c, sg) end.

(** * Collective output *)
Section Output.
Context {Line : Type}.

(** What a process does to the shared file. *)
Inductive action := Truncate | Append (l : Line).
Definition act (a : action) (file : list Line) : list Line := match a with Truncate => [] | Append l => file ++ [l] end.

(** A process inside writeSymmetryFunctionFile: the phase it is in (number of barriers passed), the actions
    left before the next barrier, whether it waits at the barrier, and the structures not yet written
    (iterator [it]): index and lines of the block. *)
Record proc := mkP { p_phase : nat; p_todo : list action; p_waits : bool; p_it : list (nat * list Line) }.
Record world := mkWorld { w_file : list Line; w_procs : list proc }.

(** src/libnnptrain/Dataset.cpp:1264-1269: before the first barrier rank 0 creates an empty file. *)
Definition startProc (rank : nat) (structures : list (nat * list Line)) : proc :=
  mkP 0 (if Nat.eqb rank 0 then [Truncate] else []) false structures.
(** Lines 1276-1310: loop iteration i; phase i+1 of the process. *)
Definition enterPhase (i : nat) (it : list (nat * list Line)) : list action * list (nat * list Line) :=
  match it with
  | (index, block) :: rest => if Nat.eqb i index then (map Append block, rest) else ([], it)
  | [] => ([], [])
  end.
(** After a barrier: start the next loop iteration, or leave the loop (then nothing is left to be done). *)
Definition passBarrier (numStructures : nat) (p : proc) : proc :=
  if Nat.ltb (p_phase p) numStructures
  then let '(todo, it) := enterPhase (p_phase p) (p_it p) in mkP (p_phase p + 1) todo false it
  else mkP (p_phase p + 1) [] false (p_it p).
Definition updProc (ps : list proc) (k : nat) (p : proc) : list proc := firstn k ps ++ p :: skipn (S k) ps.

(** One step of the whole program: some process performs its next action, arrives at the barrier (MPI_Barrier,
    lines 1270 and 1311), or all processes have arrived and go on. *)
Inductive step (numStructures : nat) : world -> world -> Prop :=
| step_act file ps k p a todo : nth_error ps k = Some p -> p_todo p = a :: todo -> p_waits p = false ->
    step numStructures (mkWorld file ps) (mkWorld (act a file) (updProc ps k (mkP (p_phase p) todo false (p_it p))))
| step_arrive file ps k p : nth_error ps k = Some p -> p_todo p = [] -> p_waits p = false -> p_phase p <= numStructures ->
    step numStructures (mkWorld file ps) (mkWorld file (updProc ps k (mkP (p_phase p) [] true (p_it p))))
| step_release file ps : (forall p, In p ps -> p_waits p = true) -> ps <> [] ->
    step numStructures (mkWorld file ps) (mkWorld file (map (passBarrier numStructures) ps)).

Inductive steps (numStructures : nat) : world -> world -> Prop :=
| steps_refl w : steps numStructures w w
| steps_cons w w' w'' : step numStructures w w' -> steps numStructures w' w'' -> steps numStructures w w''.

Fixpoint startProcs (rank : nat) (loads : list (list (nat * list Line))) : list proc :=
  match loads with [] => [] | l :: r => startProc rank l :: startProcs (S rank) r end.
(** [file] is what the file contained before. *)
Definition startWorld (file : list Line) (loads : list (list (nat * list Line))) : world := mkWorld file (startProcs 0 loads).
(** All processes have passed the barrier of the last iteration. *)
Definition finished (numStructures : nat) (w : world) : Prop := forall p, In p (w_procs w) -> p_phase p = S numStructures.
End Output.
Arguments action : clear implicits.

(** * combineFiles *)
Section Combine.
Context {Byte : Type}.
(** Files of the processes ("prefix.0000", ...) and the combined file with the state of its stream. *)
Record files := mkF { f_proc : nat -> option (list Byte); f_combined : list Byte; f_failed : bool }.
(** [combinedFile << procFile.rdbuf()]: inserting nothing sets the failbit, and a failed stream ignores
    further output. *)
Definition insertBuf (c : list Byte) (f : files) : files :=
  if f_failed f then f
  else mkF (f_proc f) (f_combined f ++ c) (match c with [] => true | _ => false end).
(** src/libnnptrain/Dataset.cpp:1744-1773.  The result tells whether the function returned normally. *)
Fixpoint combineLoop (is : list nat) (f : files) : bool * files :=
  match is with
  | [] => (true, f)
  | i :: is =>
      match f_proc f i with
      | None => (false, f)
      | Some c =>
          let f := match c with [] => f | _ => insertBuf c f end in
          combineLoop is (mkF (upd (f_proc f) i None) (f_combined f) (f_failed f))
      end
  end.
Definition combineFiles (numProcs : nat) (proc : nat -> option (list Byte)) : bool * files :=
  combineLoop (seq 0 numProcs) (mkF proc [] false).
End Combine.
