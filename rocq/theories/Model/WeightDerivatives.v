(** Model of the derivatives of energies and forces with respect to weights and biases in src/libnnptrain/Training.cpp: collectDGdxia,
    dPdc, calculateWeightDerivatives and the Jacobian contributions calculated in update (short range potentials, HDNNP_2G; compiled
    without N2P2_FULL_SFD_MEMORY).

    The structure enters as its atoms with symmetry functions and their derivatives (Forces.v), the networks as one network object per
    element which keeps the state of the last evaluation.  Simplification: the energy and dEdG members of the atoms, which are
    overwritten on the way but not read, are left out; so are the dxdG members of the neurons, which calculateDFdc overwrites before
    reading them. *)
From Coq Require Import Reals String List Arith Bool.
From Verif Require Import Base.Vec3 Base.Loop Model.Strings Model.NeuralNetwork Model.NeighborList Model.SymFunctions Model.SymSetup
  Model.Forces Model.GroupEvaluation Model.UpdatePlan.
Import ListNotations.
Local Open Scope R_scope.

(** Neighbor list (src/libnnptrain/Training.cpp:1247-1290, src/application/nnp-checkdw.cpp:199) and symmetry functions with derivatives
    (Training.cpp:2337-2346, 3176-3181, 3218-3223, nnp-checkdw.cpp:200-204) of a structure; without groups (N2P2_NO_SF_GROUPS) and with.
    Simplification: for energies the code leaves out the derivatives, which are not read. *)
Definition prepared (nsort : list neighbor -> list neighbor) (fuel : nat) (Z : nat -> R) (elems : list elem) (maxrc : R) (s : structure)
  : option (list eatom) :=
  match calculateNeighborList nsort fuel maxrc false s with
  | None => None
  | Some s => calculateSymmetryFunctions Z elems (s_atoms s)
  end.
Definition preparedGroups (nsort : list neighbor -> list neighbor) (fuel : nat) (Z : nat -> R) (es : list gelem) (maxrc : R) (s : structure)
  : option (list eatom) :=
  match calculateNeighborList nsort fuel maxrc false s with
  | None => None
  | Some s => calculateSymmetryFunctionGroups Z es (s_atoms s)
  end.

(** src/libnnptrain/Training.cpp:3574-3613 collectDGdxia for the atom [x] with index [i]: derivatives of its symmetry functions with
    respect to component [ixyz] of the position of atom [ia].  The array has as many entries as the atom has symmetry functions; writing
    outside of it is undefined, at() throws: [None].  n.dGdr has numTable.at(n.element) entries (Atom.cpp:229). *)
Definition collectDGdxia (e : elem) (x : eatom) (i ia ixyz : nat) : option (nat -> R) :=
  let nsf := List.length (el_fs e) in
  match ofold (fun k g =>
          match nth_error (a_nbs (e_atom x)) k with
          | None => None
          | Some n =>
            if Nat.eqb (nb_index n) ia then
              match nth_error (el_nums e) (nb_element n) with
              | None => None
              | Some size =>
                ofold (fun j g =>
                  match nth_error (el_table e (nb_element n)) j with
                  | None => None
                  | Some t =>
                    match vget (st_D (e_store x) (LN k j)) ixyz with
                    | None => None
                    | Some d => if Nat.ltb t nsf then Some (upd g t (g t + d)) else None
                    end
                  end) (seq 0 size) g
              end
            else Some g
          end) (seq 0 (a_numN (e_atom x))) (fun _ => 0) with
  | None => None
  | Some g =>
    if Nat.eqb i ia
    then ofold (fun j g => match vget (st_D (e_store x) (LA j)) ixyz with None => None | Some d => Some (upd g j (g j + d)) end) (seq 0 nsf) g
    else Some g
  end.

(** src/libnnptrain/Training.cpp:3270-3281, 3283-3305: getNumConnections, getNumConnectionsPerElement and getConnectionOffsets for
    [N] elements. *)
Definition connectionsPerElement (N : nat) (nets : nat -> network) : list nat := map (fun e => numConnections (nets e)) (seq 0 N).
Definition connectionsTotal (N : nat) (nets : nat -> network) : nat :=
  fold_left (fun n e => (n + numConnections (nets e))%nat) (seq 0 N) 0%nat.
Definition connectionOffsets (N : nat) (nets : nat -> network) : list nat :=
  snd (fold_left (fun (st : nat * list nat) e => let '(n, off) := st in ((n + numConnections (nets e))%nat, off ++ [n])) (seq 0 N) (0%nat, [])).

(** row.at(o + j) += tmp.at(j) for all j below n. *)
Definition addFrom (o n : nat) (tmp : nat -> R) (row : list R) : option (list R) :=
  ofold (fun j row => addAt (o + j) (tmp j) row) (seq 0 n) row.

(** src/libnnptrain/Training.cpp:3319-3331: one atom's contribution to the derivatives of the energy; the state is (networks, row). *)
Definition dPdcEnergyAtom (npe off : list nat) (x : eatom) (st : (nat -> network) * list R) : option ((nat -> network) * list R) :=
  let '(nets, row) := st in
  let e := a_element (e_atom x) in
  match nth_error npe e, nth_error off e with
  | Some n, Some o =>
    let nn := propagate (setInput (st_G (e_store x)) (nets e)) in
    let tmp := calculateDEdc nn (fun _ => 0) in
    match addFrom o n tmp row with None => None | Some row => Some (upd nets e nn, row) end
  | _, _ => None
  end.
(** Lines 3341-3364: one atom's (index i) contribution to the derivatives of force component [ixyz] of atom [ia]. *)
Definition dPdcForceAtom (elems : list elem) (npe off : list nat) (ia ixyz : nat) (ix : nat * eatom) (st : (nat -> network) * list R)
  : option ((nat -> network) * list R) :=
  let '(nets, row) := st in
  let '(i, x) := ix in
  let e := a_element (e_atom x) in
  match nth_error elems e, nth_error npe e, nth_error off e with
  | Some el, Some n, Some o =>
    match collectDGdxia el x i ia ixyz with
    | None => None
    | Some dGdxia =>
      let nn := propagate (setInput (st_G (e_store x)) (nets e)) in
      let tmp := calculateDFdc nn dGdxia (fun _ => 0) in
      match addFrom o n tmp row with None => None | Some row => Some (upd nets e nn, row) end
    end
  | _, _, _ => None
  end.
Definition indexed {A} (l : list A) : list (nat * A) := List.combine (seq 0 (List.length l)) l.
(** src/libnnptrain/Training.cpp:3307-3377 dPdc; the result is (networks, dPdc). *)
Definition dPdc (property : str) (elems : list elem) (nets : nat -> network) (xs : list eatom)
  : option ((nat -> network) * list (list R)) :=
  let N := List.length elems in
  let npe := connectionsPerElement N nets in
  let off := connectionOffsets N nets in
  let zero := repeat 0 (connectionsTotal N nets) in
  if str_eqb property (lit "energy") then
    match ofold (dPdcEnergyAtom npe off) xs (nets, zero) with
    | None => None
    | Some (nets, row) => Some (nets, [row])
    end
  else if str_eqb property (lit "force") then
    ofold (fun ia (st : (nat -> network) * list (list R)) =>
      ofold (fun ixyz (st : (nat -> network) * list (list R)) =>
        let '(nets, rows) := st in
        match ofold (dPdcForceAtom elems npe off ia ixyz) (indexed xs) (nets, zero) with
        | None => None
        | Some (nets, row) => Some (nets, rows ++ [row])
        end) (seq 0 3) st) (seq 0 (List.length xs)) (nets, [])
  else None.

(** * One quantity of one structure *)
(** What is differentiated: the energy, or component [c] of the force on atom [a]. *)
Inductive quantity := Energy | Force (a c : nat).

(** The derivative of the network's part of the quantity, written into the array [buf] (calculateDEdc or calculateDFdc). *)
Definition derivative (q : quantity) (el : elem) (i : nat) (x : eatom) (nn : network) (buf : nat -> R) : option (nat -> R) :=
  match q with
  | Energy => Some (calculateDEdc nn buf)
  | Force a c => match collectDGdxia el x i a c with None => None | Some g => Some (calculateDFdc nn g buf) end
  end.

(** src/libnnptrain/Training.cpp:3174-3258 calculateWeightDerivatives, both overloads, after the calculation of the symmetry functions:
    one array per element; [dedc] is the temporary storage of each element. *)
Definition weightDerivativesAtom (q : quantity) (elems : list elem) (ix : nat * eatom) (st : (nat -> network) * (nat -> nat -> R) * list (list R))
  : option ((nat -> network) * (nat -> nat -> R) * list (list R)) :=
  let '(nets, dedc, dEdc) := st in
  let '(i, x) := ix in
  let e := a_element (e_atom x) in
  match nth_error elems e with
  | None => None
  | Some el =>
    let nn := propagate (setInput (st_G (e_store x)) (nets e)) in
    match derivative q el i x nn (dedc e) with
    | None => None
    | Some d =>
      match storeAt (addFrom 0 (numConnections nn) d) e dEdc with
      | None => None
      | Some dEdc => Some (upd nets e nn, upd dedc e d, dEdc)
      end
    end
  end.
Definition calculateWeightDerivatives (q : quantity) (elems : list elem) (nets : nat -> network) (xs : list eatom)
  : option ((nat -> network) * list (list R)) :=
  let zero := map (fun e => repeat 0 (numConnections (nets e))) (seq 0 (List.length elems)) in
  match ofold (weightDerivativesAtom q elems) (indexed xs) (nets, fun _ _ => 0, zero) with
  | None => None
  | Some (nets, _, dEdc) => Some (nets, dEdc)
  end.

(** src/libnnptrain/Training.cpp:2518-2528, 2562-2681: contributions of one update candidate (batch element [b]) to the Jacobian
    (UpdatePlan.v); the inputs of the network are set one by one (it->G has as many entries as the atom has symmetry functions).  The
    state is (networks, dXdc, contributions). *)
Definition jacobianAtom (q : quantity) (b : nat) (elems : list elem) (ix : nat * eatom) (st : (nat -> network) * (nat -> nat -> R) * list jentry)
  : option ((nat -> network) * (nat -> nat -> R) * list jentry) :=
  let '(nets, dXdc, js) := st in
  let '(i, x) := ix in
  let e := a_element (e_atom x) in
  match nth_error elems e with
  | None => None
  | Some el =>
    let nn := propagate (for_up (List.length (el_fs el)) (fun j s => setInput1 j (st_G (e_store x) j) s) (nets e)) in
    match derivative q el i x nn (dXdc e) with
    | None => None
    | Some d => Some (upd nets e nn, upd dXdc e d, js ++ map (fun j => mkJ b e j (d j)) (seq 0 (numConnections nn)))
    end
  end.
Definition jacobianCandidate (q : quantity) (b : nat) (elems : list elem) (nets : nat -> network) (xs : list eatom)
  : option ((nat -> network) * list jentry) :=
  match ofold (jacobianAtom q b elems) (indexed xs) (nets, fun _ _ => 0, []) with
  | None => None
  | Some (nets, _, js) => Some (nets, js)
  end.
(** Lines 2337-2786: all candidates of one process, one after the other. *)
Definition jacobianProcess (elems : list elem) (nets : nat -> network) (cands : list (quantity * list eatom)) : option (list jentry) :=
  match ofold (fun (bc : nat * (quantity * list eatom)) (st : (nat -> network) * list jentry) =>
          let '(nets, js) := st in
          match jacobianCandidate (fst (snd bc)) (fst bc) elems nets (snd (snd bc)) with
          | None => None
          | Some (nets, more) => Some (nets, js ++ more)
          end) (indexed cands) (nets, []) with
  | None => None
  | Some (_, js) => Some js
  end.
(** The same from the structures and quantities of the candidates; [prep] is [prepared] or [preparedGroups] (Lines 2337-2346 for each
    candidate).  Simplification: all structures are prepared first; the preparation does not depend on the networks. *)
Definition processContributions (prep : structure -> option (list eatom)) (elems : list elem) (nets : nat -> network)
  (cands : list (structure * quantity)) : option (list jentry) :=
  match sequence (map (fun sq => match prep (fst sq) with None => None | Some xs => Some (snd sq, xs) end) cands) with
  | None => None
  | Some cands => jacobianProcess elems nets cands
  end.
