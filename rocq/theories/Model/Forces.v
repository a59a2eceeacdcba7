(** Model of the evaluation of a 2G potential: Mode.cpp (src/libnnp)
    calculateSymmetryFunctions, calculateAtomicNeuralNetworks, calculateEnergy,
    calculateForces, evaluateNNP and Atom.cpp calculateSelfForceShort,
    calculatePairForceShort.

    Simplifications: the loops over atoms run in parallel with OpenMP but each
    iteration writes only to its own atom, hence they are maps; log output and
    the extrapolation statistics (Scaling.v) are left out; symmetry functions are
    evaluated one by one (compile time switch NNP_NO_SF_GROUPS). *)
From Coq Require Import Reals ZArith List Bool Arith.
From Verif Require Import Base.Vec3 Base.Loop Model.NeuralNetwork Model.NeighborList Model.SymFunctions Model.SymSetup.
Import ListNotations.
Local Open Scope R_scope.

(** Element.h: symmetryFunctions, symmetryFunctionTable and
    symmetryFunctionNumTable of one element. *)
Record elem := mkElem { el_fs : list symfnc; el_table : nat -> list nat; el_nums : list nat }.

(** Mode.cpp:894-903 setupSymmetryFunctionMemory (log output left out), for the
    symmetry functions of each element. *)
Definition setupMemoryAll (numElements : nat) (fss : list (list symfnc)) : list elem :=
  map (fun fs => let '(fs', table, nums) := setupMemory numElements fs in mkElem fs' table nums) fss.

(** Atom.h: the atom with its symmetry functions, their derivatives (the
    store), dEdG, energy and f. *)
Record eatom := mkEAtom { e_atom : atom; e_store : store; e_dEdG : nat -> R; e_energy : R; e_f : vec }.

(** Mode.cpp:1493-1539, one pass of the loop over the atoms: allocate and
    evaluate ([None] = exception: unknown element, or no symmetry functions,
    Atom.cpp:170-174, or one raised by calculate). *)
Definition sf_atom (Z : nat -> R) (elems : list elem) (a : atom) : option eatom :=
  match nth_error elems (a_element a) with
  | None => None
  | Some e =>
    if Nat.eqb (length (el_fs e)) 0 then None
    else match calculateAll Z (el_fs e) a true allocated with
         | None => None
         | Some st => Some (mkEAtom a st (fun _ => 0) 0 vzero)
         end
  end.
(** Mode.cpp:1480-1559 calculateSymmetryFunctions with derivatives, for a
    structure without stored results. *)
Definition calculateSymmetryFunctions (Z : nat -> R) (elems : list elem) (atoms : list atom) : option (list eatom) :=
  sequence (map (sf_atom Z elems) atoms).

(** Mode.cpp:1650-1663 calculateAtomicNeuralNetworks (HDNNP_2G, with
    derivatives): the network object of the atom's element is used, and keeps
    its state, for one atom after the other. *)
Fixpoint atomicNetworks (nets : nat -> network) (atoms : list eatom) : list eatom * (nat -> network) :=
  match atoms with
  | [] => ([], nets)
  | x :: r =>
    let el := a_element (e_atom x) in
    let net := propagate (setInput (st_G (e_store x)) (nets el)) in
    let x := mkEAtom (e_atom x) (e_store x) (calculateDEdG net) (getOutput net 0) (e_f x) in
    let (r, nets) := atomicNetworks (upd nets el net) r in
    (x :: r, nets)
  end.

(** Mode.cpp:1803-1813 calculateEnergy (energyElec is zero for 2G). *)
Definition calculateEnergy (atoms : list eatom) : R :=
  fold_left (fun s x => s + e_energy x) atoms 0 + 0.

(** Atom.cpp:371-379 calculateSelfForceShort. *)
Definition selfForce (n : nat) (x : eatom) : vec :=
  fold_left (fun f i => vsub f (smul (e_dEdG x i) (st_D (e_store x) (LA i)))) (seq 0 n) vzero.
(** Atom.cpp:381-401 calculatePairForceShort for the k-th neighbor [n] of the
    atom; neighbor.dGdr has numTable.at(element) entries (Atom.cpp:229);
    [None] = at() throws. *)
Definition pairForce (e : elem) (x : eatom) (k : nat) (n : neighbor) : option vec :=
  match nth_error (el_nums e) (nb_element n) with
  | None => None
  | Some size =>
    ofold (fun i f =>
      match nth_error (el_table e (nb_element n)) i with
      | None => None
      | Some t => if Nat.ltb t (length (el_fs e))
                  then Some (vsub f (smul (e_dEdG x t) (st_D (e_store x) (LN k i)))) else None
      end) (seq 0 size) vzero
  end.
(** Mode.cpp:1890-1918: contributions of unique neighbor j to the force on
    atom i. *)
Definition force_from (elems : list elem) (atoms : list eatom) (maxrc : R) (i : nat) (j : nat) (f : vec) : option vec :=
  match nth_error atoms j with
  | None => None
  | Some x =>
    match nth_error elems (a_element (e_atom x)) with
    | None => None
    | Some e =>
      ofold (fun k f =>
        match nth_error (a_nbs (e_atom x)) k with
        | None => None
        | Some n => if Nat.eqb (nb_index n) i
                    then match pairForce e x k n with Some p => Some (vadd f p) | None => None end
                    else Some f
        end) (seq 0 (getStoredMinNumNeighbors (e_atom x) maxrc)) f
    end
  end.
(** Mode.cpp:1863-1919, force on atom i (the index of the atom is its position);
    the loop starts at neighborsUnique.begin() + 1 (undefined if the vector is
    empty). *)
Definition force_atom (elems : list elem) (atoms : list eatom) (maxrc : R) (i : nat) (x : eatom) : option eatom :=
  match nth_error elems (a_element (e_atom x)) with
  | None => None
  | Some e =>
    let f := vadd vzero (selfForce (length (el_fs e)) x) in
    match a_unique (e_atom x) with
    | [] => None
    | _ :: U =>
      match ofold (force_from elems atoms maxrc i) U f with
      | None => None
      | Some f => Some (mkEAtom (e_atom x) (e_store x) (e_dEdG x) (e_energy x) f)
      end
    end
  end.
(** Mode.cpp:1849-1919 calculateForces (2G part). *)
Definition calculateForces (elems : list elem) (maxrc : R) (atoms : list eatom) : option (list eatom) :=
  sequence (mapi (force_atom elems atoms maxrc) atoms).

(** Mode.cpp:1967-2016 evaluateNNP with forces for a 2G potential: (energy,
    atoms). *)
Definition evaluateNNP (nsort : list neighbor -> list neighbor) (fuel : nat) (Z : nat -> R) (elems : list elem)
           (nets : nat -> network) (maxrc : R) (s : structure) : option (R * list eatom) :=
  match calculateNeighborList nsort fuel maxrc false s with
  | None => None
  | Some s =>
    match calculateSymmetryFunctions Z elems (s_atoms s) with
    | None => None
    | Some xs =>
      let (xs, _) := atomicNetworks nets xs in
      match calculateForces elems maxrc xs with
      | None => None
      | Some ys => Some (calculateEnergy xs, ys)
      end
    end
  end.
