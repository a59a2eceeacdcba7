(** Model of the LAMMPS interface for a 2G potential: InterfaceLammps.cpp
    (src/libnnpif/LAMMPS) and PairHDNNP::compute (src/interface/LAMMPS/src/
    ML-HDNNP/pair_hdnnp.cpp).

    The arrays passed by LAMMPS (positions, types, tags, forces) are functions of
    the LAMMPS index.  Extrapolation warnings are in LammpsWarnings.v.  Left out:
    virial, log output, box vectors (LammpsCell.v), the 4G part of process and getForces. *)
From Coq Require Import Reals ZArith List Bool Arith.
From Verif Require Import Base.Vec3 Base.Loop Model.NeuralNetwork Model.Geometry Model.NeighborList Model.SymFunctions Model.SymSetup
  Model.Forces Model.Units.
Import ListNotations.
Local Open Scope R_scope.

(** InterfaceLammps.h:228-250 and Mode.h: what the member functions read.
    ignoreType and mapTypeToElement are std::map accessed with operator[] (a
    missing key reads false and 0). *)
Record interface := mkInterface {
  if_ignore : nat -> bool; if_element : nat -> nat;
  if_numElements : nat; if_offsets : list R;
  if_normalize : bool; if_cflength : R; if_cfenergy : R;
  if_convLength : R; if_convEnergy : R; if_mean : R
}.
(** Atom.h members index and tag, and those of NeighborList.v. *)
Record latom := mkLAtom { la_index : nat; la_tag : Z; la_atom : atom }.
(** structure.numAtomsPerElement, indexMap (with [None] for
    numeric_limits<size_t>::max()) and structure.atoms; structure.numAtoms is the
    number of atoms. *)
Record lstate := mkLState { ls_perEl : list nat; ls_map : list (option nat); ls_atoms : list latom }.

(** v.at(i) = y. *)
Fixpoint set_at {A} (l : list A) (i : nat) (y : A) : option (list A) :=
  match l, i with
  | [], _ => None
  | _ :: r, O => Some (y :: r)
  | x :: r, S k => match set_at r k y with Some r' => Some (x :: r') | None => None end
  end.

(** InterfaceLammps.cpp:283-300, one pass of the loop ([None] = out of bounds). *)
Definition addLocal (I : interface) (types : nat -> nat) (i : nat) (s : lstate) : option lstate :=
  if if_ignore I (types i) then Some s
  else match set_at (ls_map s) i (Some (length (ls_atoms s))) with
       | None => None
       | Some m =>
         let el := if_element I (types i) in
         match incr_at (ls_perEl s) el with
         | None => None
         | Some per => Some (mkLState per m (ls_atoms s ++ [mkLAtom i 0 (fresh_atom el vzero (if_numElements I))]))
         end
       end.
(** InterfaceLammps.cpp:267-304 setLocalAtoms. *)
Definition setLocalAtoms (I : interface) (nlocal : nat) (types : nat -> nat) : option lstate :=
  ofold (addLocal I types) (seq 0 nlocal) (mkLState (repeat 0%nat (if_numElements I)) (repeat None nlocal) []).

(** InterfaceLammps.cpp:325-344 setLocalTags. *)
Definition setLocalTags (tags : nat -> Z) (s : lstate) : lstate :=
  mkLState (ls_perEl s) (ls_map s) (mapi (fun i a => mkLAtom (la_index a) (tags i) (la_atom a)) (ls_atoms s)).

(** InterfaceLammps.cpp:313-321: unit conversion of a coordinate. *)
Definition toModel (I : interface) (v : vec) : vec :=
  let v := smul (if_cflength I) v in if if_normalize I then smul (if_convLength I) v else v.
(** InterfaceLammps.cpp:306-323 setLocalAtomPositions. *)
Definition setLocalAtomPositions (I : interface) (x : nat -> vec) (s : lstate) : lstate :=
  mkLState (ls_perEl s) (ls_map s) (mapi (fun i a => let b := la_atom a in
    mkLAtom (la_index a) (la_tag a) (mkAtom (a_element b) (toModel I (x i)) (a_hasNL b) (a_sorted b) (a_numN b) (a_numU b)
                                       (a_perEl b) (a_unique b) (a_nbs b) (a_cutoffs b))) (ls_atoms s)).

(** InterfaceLammps.cpp:421-438: store a neighbor. *)
Definition pushNeighbor (I : interface) (j : nat) (tag : Z) (type : nat) (dr : vec) (d2 : R) (a : latom) : option latom :=
  let b := la_atom a in
  let el := if_element I type in
  match incr_at (a_perEl b) el with
  | None => None
  | Some per =>
    let d := sqrt d2 * if_cflength I in
    let n := mkNb j tag el (if if_normalize I then d * if_convLength I else d) (toModel I dr) in
    Some (mkLAtom (la_index a) (la_tag a)
            (mkAtom (a_element b) (a_r b) (a_hasNL b) (a_sorted b) (S (a_numN b)) (a_numU b) per (a_unique b) (a_nbs b ++ [n]) (a_cutoffs b)))
  end.
(** InterfaceLammps.cpp:410-441 addNeighbor. *)
Definition addNeighbor (I : interface) (i j : nat) (tag : Z) (type : nat) (dr : vec) (d2 : R) (s : lstate) : option lstate :=
  if if_ignore I type then Some s
  else match nth_error (ls_map s) i with
       | None => None
       | Some None => Some s
       | Some (Some p) =>
         match nth_error (ls_atoms s) p with
         | None => None
         | Some a => match pushNeighbor I j tag type dr d2 a with
                     | None => None
                     | Some a' => match set_at (ls_atoms s) p a' with
                                  | None => None
                                  | Some l => Some (mkLState (ls_perEl s) (ls_map s) l)
                                  end
                     end
         end
       end.
(** pair_hdnnp.cpp:275-290 transferNeighborList; [nlist] lists for each atom in
    ilist the neighbors in firstneigh. *)
Definition transferNeighborList (I : interface) (rc : R) (x : nat -> vec) (tags : nat -> Z) (types : nat -> nat)
           (nlist : list (nat * list nat)) (s : lstate) : option lstate :=
  ofold (fun il s => ofold (fun j s =>
    let dr := vsub (x (fst il)) (x j) in
    let d2 := norm2 dr in
    if leR d2 (rc * rc) then addNeighbor I (fst il) j (tags j) (types j) dr d2 s else Some s) (snd il) s) nlist s.

(** The structure of Units.v seen by physicalEnergy and addEnergyOffset. *)
Definition energyStructure (perEl : list nat) (numAtoms : nat) (e : R) : qstructure :=
  mkQS false numAtoms perEl e 0 0 0 0 (mkMat vzero vzero vzero) (mkMat vzero vzero vzero) [].

(** structure after process: the atoms (LAMMPS index, tag and results) and
    structure.energy. *)
Record lresult := mkLResult { lr_atoms : list (nat * Z * eatom); lr_energy : R }.
(** InterfaceLammps.cpp:463-487 process (2G; symmetry functions one by one as
    with N2P2_NO_SF_GROUPS). *)
Definition process (I : interface) (W : nat -> R) (elems : list elem) (nets : nat -> network) (s : lstate) : option lresult :=
  match calculateSymmetryFunctions W elems (map la_atom (ls_atoms s)) with
  | None => None
  | Some xs =>
    let (xs, _) := atomicNetworks nets xs in
    let q := energyStructure (ls_perEl s) (length (ls_atoms s)) (calculateEnergy xs) in
    let q := if if_normalize I then set_energies q (physicalEnergy (if_mean I) (if_convEnergy I) q false) (qs_energyRef q) else q in
    match addEnergyOffset (if_offsets I) false q with
    | None => None
    | Some q => Some (mkLResult (List.combine (map (fun a => (la_index a, la_tag a)) (ls_atoms s)) xs) (qs_energy q))
    end
  end.

(** InterfaceLammps.cpp:511-514 getEnergy. *)
Definition getEnergy (I : interface) (r : lresult) : R := lr_energy r / if_cfenergy I.
(** InterfaceLammps.cpp:516-531 getAtomicEnergy ([None] = at() throws);
    physical("energy", e) = e / convEnergy, Mode.cpp:2110. *)
Definition getAtomicEnergy (I : interface) (r : lresult) (index : nat) : option R :=
  match nth_error (lr_atoms r) index with
  | None => None
  | Some (_, x) =>
    match nth_error (if_offsets I) (a_element (e_atom x)) with
    | None => None
    | Some o => Some (if if_normalize I then (e_energy x / if_convEnergy I + if_mean I + o) / if_cfenergy I
                      else (e_energy x + o) / if_cfenergy I)
    end
  end.

(** InterfaceLammps.cpp:535-540: cfforce * convForce. *)
Definition forceFactor (I : interface) : R :=
  if_cflength I / if_cfenergy I * (if if_normalize I then if_convLength I / if_convEnergy I else 1).
(** add3DVecToArray(atomF[k], v). *)
Definition addTo (f : nat -> vec) (k : nat) (v : vec) : nat -> vec := upd f k (vadd (f k) v).
(** InterfaceLammps.cpp:546-583, one atom.  The loop over the neighbors runs in
    parallel in the code. *)
Definition forcesOf (I : interface) (elems : list elem) (maxrc : R) (ax : nat * Z * eatom) (f : nat -> vec) : option (nat -> vec) :=
  let '(ia, _, x) := ax in
  match nth_error elems (a_element (e_atom x)) with
  | None => None
  | Some e =>
    ofold (fun k f =>
      match nth_error (a_nbs (e_atom x)) k with
      | None => None
      | Some n => match pairForce e x k n with
                  | None => None
                  | Some p => Some (addTo f (nb_index n) (smul (forceFactor I) p))
                  end
      end) (seq 0 (getStoredMinNumNeighbors (e_atom x) maxrc))
      (addTo f ia (smul (forceFactor I) (selfForce (length (el_fs e)) x)))
  end.
(** InterfaceLammps.cpp:533-583 getForces (2G). *)
Definition getForces (I : interface) (elems : list elem) (maxrc : R) (r : lresult) (f : nat -> vec) : option (nat -> vec) :=
  ofold (forcesOf I elems maxrc) (lr_atoms r) f.

(** pair_hdnnp.cpp:109-110: eatom[i] = getAtomicEnergy(i) for the local atoms. *)
Definition atomEnergies (I : interface) (r : lresult) (nlocal : nat) : option (list R) :=
  sequence (map (getAtomicEnergy I r) (seq 0 nlocal)).

(** pair_hdnnp.cpp:82-107 compute with eflag_global: energy and forces ([rc] is
    the cutoff given in LAMMPS, [maxrc] that of the potential). *)
Definition compute (I : interface) (W : nat -> R) (elems : list elem) (nets : nat -> network) (maxrc rc : R)
           (nlocal : nat) (types : nat -> nat) (tags : nat -> Z) (x : nat -> vec) (nlist : list (nat * list nat))
           (f : nat -> vec) : option (lresult * R * (nat -> vec)) :=
  match setLocalAtoms I nlocal types with
  | None => None
  | Some s =>
    match transferNeighborList I rc x tags types nlist (setLocalTags tags s) with
    | None => None
    | Some s =>
      match process I W elems nets s with
      | None => None
      | Some r =>
        match getForces I elems maxrc r f with
        | None => None
        | Some f => Some (r, getEnergy I r, f)
        end
      end
    end
  end.
