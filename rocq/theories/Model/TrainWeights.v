(** Model of the transfer of weights between networks and updaters in src/libnnptrain/Training.cpp: initializeWeightsMemory,
    getWeights, setWeights, getNumConnectionsPerElement, getConnectionOffsets, dPdcN.

    One network per element is modelled, the one with id nnId.  The vector of weights of an updater is its size and its
    entries.  at() outside the size throws, transferring a network's connections to or from a place with too little room
    behind it is undefined; both are [None]. *)
From Coq Require Import List Arith Reals Bool.
From Verif Require Import Model.SymFunctions Model.NeuralNetwork Model.UpdatePlan.
Import ListNotations.
Local Open Scope R_scope.

(** An element: its network and its hardness (Element.h getHardness, setHardness). *)
Record telement := mkTElement { te_nn : network; te_hardness : R }.
(** weights.at(k): size and entries. *)
Record wvector := mkWVector { wv_size : nat; wv_at : nat -> R }.
Record trainer := mkTrainer {
  tr_strat : updateStrategy;
  tr_hardness : bool;                    (* nnpType == HDNNP_4G && stage == 1 *)
  tr_elements : list telement;
  tr_weights : list wvector }.
Definition with_elements (t : trainer) (es : list telement) : trainer :=
  mkTrainer (tr_strat t) (tr_hardness t) es (tr_weights t).
Definition with_weights (t : trainer) (ws : list wvector) : trainer :=
  mkTrainer (tr_strat t) (tr_hardness t) (tr_elements t) ws.

(** src/libnnptrain/Training.cpp:330-377: sizes as in [weightsMemory] of UpdatePlan.v, entries 0. *)
Definition layoutOf (strat : updateStrategy) (h : bool) (es : list telement) : layout :=
  mkLayout PM_TRAIN_ALL JM_SUM strat h (map (fun e => numConnections (te_nn e)) es) [].
Definition initializeWeightsMemory (strat : updateStrategy) (h : bool) (es : list telement) : trainer :=
  mkTrainer strat h es (map (fun n => mkWVector n (fun _ => 0)) (numWeightsPerUpdater (layoutOf strat h es))).

(** weights.at(0).at(p) *)
Definition wv_get (w : wvector) (p : nat) : option R := if Nat.ltb p (wv_size w) then Some (wv_at w p) else None.
(** weights.at(0).at(p) = x *)
Definition wv_set (w : wvector) (p : nat) (x : R) : option wvector :=
  if Nat.ltb p (wv_size w) then Some (mkWVector (wv_size w) (fun q => if Nat.eqb q p then x else wv_at w q)) else None.

(** nn.getConnections(&(w.at(pos))): writes the connections from position pos on. *)
Definition readNetwork (nn : network) (w : wvector) (pos : nat) : option wvector :=
  if Nat.ltb pos (wv_size w) then
    if Nat.leb (pos + numConnections nn) (wv_size w) then
      let c := getConnections nn (fun k => wv_at w (pos + k)%nat) in
      Some (mkWVector (wv_size w) (fun q => if Nat.leb pos q then c (q - pos)%nat else wv_at w q))
    else None
  else None.
(** nn.setConnections(&(w.at(pos))) *)
Definition writeNetwork (nn : network) (w : wvector) (pos : nat) : option network :=
  if Nat.ltb pos (wv_size w) then
    if Nat.leb (pos + numConnections nn) (wv_size w) then Some (setConnections (fun k => wv_at w (pos + k)%nat) nn) else None
  else None.

(** src/libnnptrain/Training.cpp:3471-3484: one round of the loop over the elements, US_COMBINED. *)
Definition getOne (h : bool) (e : telement) (st : nat * wvector) : option (nat * wvector) :=
  let '(pos, w) := st in
  match readNetwork (te_nn e) w pos with
  | None => None
  | Some w =>
      let pos := (pos + numConnections (te_nn e))%nat in
      if h then match wv_set w pos (sqrt (te_hardness e)) with None => None | Some w => Some (S pos, w) end
      else Some (pos, w)
  end.
(** src/libnnptrain/Training.cpp:3486-3492: US_ELEMENT, one vector per element. *)
Fixpoint getEach (es : list telement) (ws : list wvector) : option (list wvector) :=
  match es, ws with
  | [], ws => Some ws
  | _ :: _, [] => None
  | e :: es, w :: ws =>
      match readNetwork (te_nn e) w 0, getEach es ws with Some w, Some ws => Some (w :: ws) | _, _ => None end
  end.
(** src/libnnptrain/Training.cpp:3467-3496. *)
Definition getWeights (t : trainer) : option trainer :=
  match tr_strat t with
  | US_COMBINED =>
      match tr_elements t, tr_weights t with
      | [], _ => Some t
      | _ :: _, [] => None
      | es, w :: ws =>
          match ofold (getOne (tr_hardness t)) es (0%nat, w) with
          | None => None
          | Some (_, w) => Some (with_weights t (w :: ws))
          end
      end
  | US_ELEMENT => match getEach (tr_elements t) (tr_weights t) with None => None | Some ws => Some (with_weights t ws) end
  end.

(** src/libnnptrain/Training.cpp:3502-3515: one round of the loop, US_COMBINED; the state is pos and the elements done. *)
Definition setOne (h : bool) (w : wvector) (e : telement) (st : nat * list telement) : option (nat * list telement) :=
  let '(pos, done) := st in
  match writeNetwork (te_nn e) w pos with
  | None => None
  | Some nn =>
      let pos := (pos + numConnections nn)%nat in
      if h then match wv_get w pos with
                | None => None
                | Some x => Some (S pos, done ++ [mkTElement nn (x ^ 2)])
                end
      else Some (pos, done ++ [mkTElement nn (te_hardness e)])
  end.
Fixpoint setEach (es : list telement) (ws : list wvector) : option (list telement) :=
  match es, ws with
  | [], _ => Some []
  | _ :: _, [] => None
  | e :: es, w :: ws =>
      match writeNetwork (te_nn e) w 0, setEach es ws with
      | Some nn, Some es => Some (mkTElement nn (te_hardness e) :: es)
      | _, _ => None
      end
  end.
(** src/libnnptrain/Training.cpp:3498-3526. *)
Definition setWeights (t : trainer) : option trainer :=
  match tr_strat t with
  | US_COMBINED =>
      match tr_elements t, tr_weights t with
      | [], _ => Some t
      | _ :: _, [] => None
      | es, w :: ws =>
          match ofold (setOne (tr_hardness t) w) es (0%nat, []) with
          | None => None
          | Some (_, es) => Some (with_elements t es)
          end
      end
  | US_ELEMENT => match setEach (tr_elements t) (tr_weights t) with None => None | Some es => Some (with_elements t es) end
  end.

(** src/libnnptrain/Training.cpp:3283-3305. *)
Definition getNumConnectionsPerElement (t : trainer) : list nat := map (fun e => numConnections (te_nn e)) (tr_elements t).
Definition getConnectionOffsets (t : trainer) : list nat :=
  snd (fold_left (fun (st : nat * list nat) e => let '(offset, off) := st in
                    ((offset + numConnections (te_nn e))%nat, off ++ [offset])) (tr_elements t) (0%nat, [])).

(** weights.at(0).at(o) = f(weights.at(0).at(o)) *)
Definition changeWeight (t : trainer) (o : nat) (f : R -> R) : option trainer :=
  match tr_weights t with
  | [] => None
  | w :: ws =>
      match wv_get w o with
      | None => None
      | Some x => match wv_set w o (f x) with None => None | Some w => Some (with_weights t (w :: ws)) end
      end
  end.

Section Numeric.
(** [quantity k es]: value number k (k = 0: the energy of the structure; or force component k) calculated with the networks and
    hardnesses of the elements: calculateAtomicNeuralNetworks followed by calculateEnergy or calculateForces.  Simplification: the
    evaluation also overwrites the neurons' values and statistics, which is not modelled here. *)
Variable quantity : nat -> list telement -> R.
Variable delta : R.

(** src/libnnptrain/Training.cpp:3395-3413 (energy), 3428-3447 (force): one weight. *)
Definition dPdcNOne (k o : nat) (st : trainer * list R) : option (trainer * list R) :=
  let '(t, out) := st in
  match tr_weights t with
  | [] => None
  | w0 :: _ =>
      match wv_get w0 o with
      | None => None
      | Some w =>
          match changeWeight t o (fun x => x + delta) with
          | None => None
          | Some t =>
              match setWeights t with
              | None => None
              | Some t =>
                  let high := quantity k (tr_elements t) in
                  match changeWeight t o (fun x => x - 2 * delta) with
                  | None => None
                  | Some t =>
                      match setWeights t with
                      | None => None
                      | Some t =>
                          let low := quantity k (tr_elements t) in
                          match changeWeight t o (fun _ => w) with
                          | None => None
                          | Some t => Some (t, out ++ [(high - low) / (2 * delta)])
                          end
                      end
                  end
              end
          end
      end
  end.
(** The loops over elements ie and connections ic: o = off.at(ie) + ic. *)
Definition dPdcNIndices (t : trainer) : list nat :=
  flat_map (fun x => map (fun ic => (snd x + ic)%nat) (seq 0 (fst x)))
           (List.combine (getNumConnectionsPerElement t) (getConnectionOffsets t)).
(** Lines 3392-3415 (n = 1) and 3417-3451 (n = 3 numAtoms). *)
Definition dPdcN (n : nat) (t : trainer) : option (trainer * list (list R)) :=
  let os := dPdcNIndices t in
  ofold (fun k (st : trainer * list (list R)) =>
           let '(t, dPdc) := st in
           match ofold (dPdcNOne k) os (t, []) with
           | None => None
           | Some (t, row) => Some (t, dPdc ++ [row])
           end) (seq 0 n) (t, []).
End Numeric.
