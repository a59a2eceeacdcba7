(** Model of the layout of error vector and Jacobian in src/libnnptrain/Training.cpp: initializeWeightsMemory,
    setupUpdatePlan, allocateArrays, the accumulation in update and the communication between processes.

    What is modelled is where the numbers go, not how they are calculated: the derivatives of the networks and the
    errors enter as a list of contributions per process.  int arithmetic of MPI counts does not overflow. *)
From Coq Require Import List Arith Reals Bool.
From Verif Require Import Model.SymFunctions.
Import ListNotations.

(** src/libnnptrain/Training.h:44-78. *)
Inductive parallelMode := PM_TRAIN_RK0 | PM_TRAIN_ALL.
Inductive jacobianMode := JM_SUM | JM_TASK | JM_FULL.
Inductive updateStrategy := US_COMBINED | US_ELEMENT.

Record layout := mkLayout {
  l_par : parallelMode; l_jac : jacobianMode; l_strat : updateStrategy;
  l_hardness : bool;                     (* nnpType == HDNNP_4G && stage == 1 *)
  l_conn : list nat;                     (* getNumConnections() of the elements' networks *)
  l_batch : list nat }.                  (* patternsPerUpdate of the processes *)

Definition natAt (l : list nat) (i : nat) : option nat := nth_error l i.

Section Layout.
Variable y : layout.
Definition numProcs : nat := length (l_batch y).
Definition numElements : nat := length (l_conn y).

(** src/libnnptrain/Training.cpp:330-377: (numWeightsPerUpdater, weightsOffset). *)
Definition weightsMemory : list nat * list nat :=
  match l_strat y with
  | US_COMBINED =>
      let '(numWeights, off) :=
        fold_left (fun (st : nat * list nat) n =>
                     let '(numWeights, off) := st in
                     let off := off ++ [numWeights] in
                     let numWeights := numWeights + n in
                     ((if l_hardness y then S numWeights else numWeights), off))
                  (l_conn y) (0, []) in
      ([numWeights], off)
  | US_ELEMENT => (fold_left (fun acc n => acc ++ [n]) (l_conn y) [], [])
  end.
Definition numWeightsPerUpdater : list nat := fst weightsMemory.
Definition weightsOffset : list nat := snd weightsMemory.
Definition numUpdaters : nat := match l_strat y with US_COMBINED => 1 | US_ELEMENT => numElements end.

(** src/libnnptrain/Training.cpp:3891-3929, after the exchange of errorsPerTask. *)
Definition errorsPerTask : list nat := map (fun n => match l_jac y with JM_FULL => n | _ => 1 end) (l_batch y).
Definition offsets : nat * list nat :=
  fold_left (fun (st : nat * list nat) e => let '(g, off) := st in (g + e, off ++ [g])) errorsPerTask (0, []).
Definition numErrorsGlobal : nat := fst offsets.
Definition offsetPerTask : list nat := snd offsets.
Definition weightsPerTask (W : nat) : list nat := map (fun e => e * W) errorsPerTask.
Definition offsetJacobian (W : nat) : list nat := map (fun o => o * W) offsetPerTask.

(** src/libnnptrain/Training.cpp:3963-3976: number of errors for which process [r] has memory. *)
Definition arraySize (r : nat) : option nat :=
  match l_jac y with
  | JM_SUM => Some 1
  | _ =>
      match l_par y with
      | PM_TRAIN_ALL => Some numErrorsGlobal
      | PM_TRAIN_RK0 => if Nat.eqb r 0 then Some numErrorsGlobal else natAt errorsPerTask r
      end
  end.

(** Lines 2530-2560: offset of element i in the Jacobian, for batch element b of process r; [None]: at() throws. *)
Definition jacobianOffset (r b i : nat) : option nat :=
  let iu := match l_strat y with US_ELEMENT => i | US_COMBINED => 0 end in
  match natAt numWeightsPerUpdater iu with
  | None => None
  | Some W =>
      match (match l_par y, l_jac y with
             | PM_TRAIN_ALL, JM_TASK | PM_TRAIN_ALL, JM_FULL => match natAt offsetPerTask r with None => None | Some o => Some (o * W) end
             | _, _ => Some 0
             end) with
      | None => None
      | Some o =>
          let o := match l_jac y with JM_FULL => o + b * W | _ => o end in
          match l_strat y with
          | US_COMBINED => match natAt weightsOffset i with None => None | Some w => Some (o + w) end
          | US_ELEMENT => Some o
          end
      end
  end.
(** Lines 2819-2830: position in the error vector. *)
Definition errorOffset (r b : nat) : option nat :=
  match (match l_par y, l_jac y with
         | PM_TRAIN_ALL, JM_TASK | PM_TRAIN_ALL, JM_FULL => natAt offsetPerTask r
         | _, _ => Some 0
         end) with
  | None => None
  | Some o => Some (match l_jac y with JM_FULL => o + b | _ => o end)
  end.
End Layout.

(** v.at(p) += x, or v.at(p) = x. *)
Definition storeAt {B} (f : B -> option B) (p : nat) (v : list B) : option (list B) :=
  match nth_error v p with
  | None => None
  | Some z => match f z with None => None | Some z => Some (firstn p v ++ z :: skipn (S p) v) end
  end.
Definition addAt (p : nat) (x : R) (v : list R) : option (list R) := storeAt (fun z => Some (z + x)%R) p v.
Definition setAt (p : nat) (x : R) (v : list R) : option (list R) := storeAt (fun _ => Some x) p v.

(** A derivative: batch element b, element i, connection j (or hardness), value. *)
Record jentry := mkJ { j_b : nat; j_i : nat; j_j : nat; j_v : R }.
(** An error: batch element b, updater u, value; [e_set]: = instead of += (charges with HDNNP_4G, line 2849). *)
Record eentry := mkE { e_b : nat; e_u : nat; e_set : bool; e_v : R }.

(** Lines 2293-2297 and 2562-2785 for process r: start from zeros, add all contributions. *)
Definition zeros (y : layout) (r : nat) (per : nat -> nat) : option (list (list R)) :=
  match arraySize y r with
  | None => None
  | Some size => Some (map (fun u => repeat 0%R (size * per u)) (seq 0 (numUpdaters y)))
  end.
Definition localJacobian (y : layout) (r : nat) (js : list jentry) : option (list (list R)) :=
  match zeros y r (fun u => nth u (numWeightsPerUpdater y) 0) with
  | None => None
  | Some z =>
      ofold (fun j jac =>
               match jacobianOffset y r (j_b j) (j_i j) with
               | None => None
               | Some o =>
                   let iu := match l_strat y with US_ELEMENT => j_i j | US_COMBINED => 0 end in
                   storeAt (addAt (o + j_j j) (j_v j)) iu jac
               end) js z
  end.
(** Lines 2833-2886. *)
Definition localError (y : layout) (r : nat) (es : list eentry) : option (list (list R)) :=
  match zeros y r (fun _ => 1) with
  | None => None
  | Some z =>
      ofold (fun e err =>
               match errorOffset y r (e_b e) with
               | None => None
               | Some o => storeAt (if e_set e then setAt o (e_v e) else addAt o (e_v e)) (e_u e) err
               end) es z
  end.
(** Lines 2888-2902 (force weight; 1 for the other properties). *)
Definition weighted (w : R) (a : list (list R)) : list (list R) := map (map (fun x => (x * w)%R)) a.

(** * Communication (lines 2904-2975).  [arrs]: the array of one updater in every process. *)
(** Received data overwrite the buffer from position d on; [None]: outside of the buffer. *)
Definition paste (d : nat) (seg v : list R) : option (list R) :=
  if Nat.leb (d + length seg) (length v) then Some (firstn d v ++ seg ++ skipn (d + length seg) v) else None.
Definition segment (d n : nat) (v : list R) : option (list R) :=
  if Nat.leb (d + n) (length v) then Some (firstn n (skipn d v)) else None.
(** MPI_Reduce / MPI_Allreduce of the first n numbers. *)
Definition reduceSum (n : nat) (arrs : list (list R)) : option (list R) :=
  ofold (fun a s => match segment 0 n a with None => None | Some a => Some (map (fun xy => (fst xy + snd xy)%R) (combine s a)) end)
        arrs (repeat 0%R n).
(** MPI_Gather(v) at process 0, own data in place: counts and displacements per process. *)
Definition gather0 (counts displs : list nat) (arrs : list (list R)) : option (list R) :=
  match arrs with
  | [] => None
  | a0 :: _ =>
      ofold (fun r v =>
               match nth_error arrs r, natAt counts r, natAt displs r with
               | Some a, Some n, Some d => match segment 0 n a with None => None | Some s => paste d s v end
               | _, _, _ => None
               end) (seq 1 (length arrs - 1)) a0
  end.
(** MPI_Allgather(v) in place at process q. *)
Definition gatherAll (counts displs : list nat) (arrs : list (list R)) (q : nat) : option (list R) :=
  match nth_error arrs q with
  | None => None
  | Some aq =>
      ofold (fun r v =>
               match nth_error arrs r, natAt counts r, natAt displs r with
               | Some a, Some n, Some d => match segment d n a with None => None | Some s => paste d s v end
               | _, _, _ => None
               end) (seq 0 (length arrs)) aq
  end.
(** The array of one updater with W numbers per error in process q afterwards (q = 0 unless PM_TRAIN_ALL). *)
Definition communicate (y : layout) (W : nat) (arrs : list (list R)) (q : nat) : option (list R) :=
  let uniform := map (fun _ => W) arrs in
  let blocks := map (fun r => r * W) (seq 0 (length arrs)) in
  match l_jac y, l_par y with
  | JM_SUM, _ =>
      match reduceSum W arrs, nth_error arrs q with
      | Some s, Some a => paste 0 s a
      | _, _ => None
      end
  | JM_TASK, PM_TRAIN_RK0 => gather0 uniform blocks arrs
  | JM_TASK, PM_TRAIN_ALL => gatherAll uniform blocks arrs q
  | JM_FULL, PM_TRAIN_RK0 => gather0 (weightsPerTask y W) (offsetJacobian y W) arrs
  | JM_FULL, PM_TRAIN_ALL => gatherAll (weightsPerTask y W) (offsetJacobian y W) arrs q
  end.

(** All processes: local arrays, weight, communication; the result of updater u in process q. *)
Definition allLocal {C} (f : nat -> C -> option (list (list R))) (w : R) (contribs : list C) : option (list (list (list R))) :=
  ofold (fun rc acc => match f (fst rc) (snd rc) with None => None | Some a => Some (acc ++ [weighted w a]) end)
        (combine (seq 0 (length contribs)) contribs) [].
Definition column {C} (locals : list (list C)) (u : nat) : option (list C) :=
  ofold (fun (l : list C) acc => match nth_error l u with None => None | Some a => Some (acc ++ [a]) end) locals [].
Definition updateJacobian (y : layout) (w : R) (js : list (list jentry)) (q u : nat) : option (list R) :=
  match allLocal (localJacobian y) w js with
  | None => None
  | Some locals =>
      match column locals u, natAt (numWeightsPerUpdater y) u with
      | Some arrs, Some W => communicate y W arrs q
      | _, _ => None
      end
  end.
Definition updateError (y : layout) (w : R) (es : list (list eentry)) (q u : nat) : option (list R) :=
  match allLocal (localError y) w es with
  | None => None
  | Some locals =>
      match column locals u with
      | Some arrs => communicate y 1 arrs q
      | None => None
      end
  end.
