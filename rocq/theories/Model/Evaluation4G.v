(** Model of the evaluation of a 4G potential: Mode.cpp (src/libnnp) evaluateNNP,
    calculateAtomicNeuralNetworks ("elec" and "short"), chargeEquilibration
    (Electrostatics.v), calculateEnergy, calculateCharge and calculateForces for
    nnpType HDNNP_4G, and Atom.cpp calculateDChidr.

    Simplifications: as in Forces.v and Electrostatics.v (loops over atoms as
    maps, symmetry functions evaluated one by one, log output left out). *)
From Coq Require Import Reals ZArith List Bool Arith.
From Verif Require Import Base.Vec3 Base.Loop Base.SumR Model.NeuralNetwork Model.CompactScreening Model.NeighborList Model.SymFunctions
  Model.Forces Model.Electrostatics.
Import ListNotations.
Local Open Scope R_scope.

(** Atom.h: the atom with chi, dChidG, charge and fElec. *)
Record fatom := mkFAtom { f_e : eatom; f_chi : R; f_dChidG : nat -> R; f_charge : R; f_fElec : vec }.

(** Structure.cpp:273-285 calculateMaxCutoffRadiusOverall: [W] holds the Ewald
    parameters calculateParameters returns. *)
Definition calculateMaxCutoffRadiusOverall (W : ewald) (rcutScreen maxrc : R) (s : structure) : structure :=
  let m := Rmax rcutScreen maxrc in
  let m := if s_periodic s then Rmax m (ew_rCut W) else m in
  mkStruct (s_periodic s) (s_box s) (s_atoms s) (s_numElements s) (s_hasNL s) (s_sorted s) m.
(** Structure.cpp:401-407 calculateNeighborList(cutoffRadius, cutoffs). *)
Definition calculateNeighborListCutoffs (nsort : list neighbor -> list neighbor) (fuel : nat) (rc : R) (cutoffs : list (list R))
           (s : structure) : option structure :=
  match calculateNeighborList nsort fuel rc true s with
  | None => None
  | Some s => setupNeighborCutoffMap cutoffs s
  end.

(** Mode.cpp:1668-1720: networks evaluated for one atom after the other, given
    element and input of each; the network object of an element keeps its state.
    The networks after propagate(), one per atom. *)
Fixpoint runNetworks (nets : nat -> network) (l : list (nat * (nat -> R))) : list network :=
  match l with
  | [] => []
  | (el, input) :: r => let net := propagate (setInput input (nets el)) in net :: runNetworks (upd nets el net) r
  end.
(** Mode.cpp:1676-1689, 2084-2094: normalized("negativity", x) if [normalize]. *)
Definition negativity (normalize : bool) (convEnergy convCharge x : R) : R :=
  if normalize then x * convEnergy / convCharge else x.
(** Mode.cpp:1666-1692 calculateAtomicNeuralNetworks for "elec" (with
    derivatives). *)
Definition elecNetworks (neg : R -> R) (nets : nat -> network) (xs : list eatom) : list fatom :=
  map (fun p => mkFAtom (fst p) (neg (getOutput (snd p) 0)) (fun k => neg (calculateDEdG (snd p) k)) 0 vzero)
      (List.combine xs (runNetworks nets (map (fun x => (a_element (e_atom x), st_G (e_store x))) xs))).
(** Number of symmetry functions of an atom (a.G.size()). *)
Definition numG (elems : list elem) (x : eatom) : nat :=
  match nth_error elems (a_element (e_atom x)) with Some e => length (el_fs e) | None => 0%nat end.
(** Mode.cpp:1703-1709: the symmetry functions, then the charge. *)
Definition with_charge (n : nat) (G : nat -> R) (q : R) : nat -> R := fun c => if Nat.ltb c n then G c else q.
(** Mode.cpp:1693-1720 calculateAtomicNeuralNetworks for "short" (with
    derivatives): energy and dEdG, whose last entry is the derivative with
    respect to the charge. *)
Definition shortNetworks (elems : list elem) (nets : nat -> network) (xs : list fatom) : list fatom :=
  map (fun p =>
         let x := f_e (fst p) in
         mkFAtom (mkEAtom (e_atom x) (e_store x) (calculateDEdG (snd p)) (getOutput (snd p) 0) (e_f x))
                 (f_chi (fst p)) (f_dChidG (fst p)) (f_charge (fst p)) (f_fElec (fst p)))
      (List.combine xs (runNetworks nets (map (fun x =>
         (a_element (e_atom (f_e x)), with_charge (numG elems (f_e x)) (st_G (e_store (f_e x))) (f_charge x))) xs))).

(** The structure handed to chargeEquilibration. *)
Definition charged_structure (s : structure) (chargeRef : R) (xs : list fatom) : cstruct :=
  mkCStruct (s_periodic s) (s_box s) (s_sorted s) (map (fun x => mkCAtom (e_atom (f_e x)) (f_chi x)) xs) chargeRef.
(** Structure.cpp:718-722: the charges of the atoms. *)
Definition set_charges (Q : nat -> R) (xs : list fatom) : list fatom :=
  mapi (fun i x => mkFAtom (f_e x) (f_chi x) (f_dChidG x) (Q i) (f_fElec x)) xs.

(** Mode.cpp:1803-1828 calculateEnergy. *)
Definition calculateEnergy4G (energyElec : R) (xs : list fatom) : R :=
  fold_left (fun s x => s + e_energy (f_e x)) xs 0 + energyElec.
(** Mode.cpp:1830-1847 calculateCharge. *)
Definition calculateCharge (xs : list fatom) : R := fold_left (fun s x => s + f_charge x) xs 0.

(** Atom.cpp:403-444 calculateDChidr of atom [index] for the coordinates of atom
    [k]; [None] = at() throws. *)
Definition calculateDChidr (e : elem) (maxrc : R) (index : nat) (x : fatom) (k : nat) : option vec :=
  let st := e_store (f_e x) in
  let a := e_atom (f_e x) in
  let self := if Nat.eqb k index
              then fold_left (fun v i => vadd v (smul (f_dChidG x i) (st_D st (LA i)))) (seq 0 (length (el_fs e))) vzero
              else vzero in
  ofold (fun m v =>
    match nth_error (a_nbs a) m with
    | None => None
    | Some n =>
      if Z.eqb (nb_tag n) (Z.of_nat k)
      then match nth_error (el_nums e) (nb_element n) with
           | None => None
           | Some size =>
             ofold (fun i v =>
               match nth_error (el_table e (nb_element n)) i with
               | None => None
               | Some t => if Nat.ltb t (length (el_fs e))
                           then Some (vadd v (smul (f_dChidG x t) (st_D st (LN m i)))) else None
               end) (seq 0 size) v
           end
      else Some v
    end) (seq 0 (getStoredMinNumNeighbors a maxrc)) self.
(** The derivatives used at Mode.cpp:1938-1946: row j holds those of atom j. *)
Definition dChidr_rows (elems : list elem) (maxrc : R) (xs : list fatom) : option (list (list vec)) :=
  sequence (mapi (fun j x =>
    match nth_error elems (a_element (e_atom (f_e x))) with
    | None => None
    | Some e => sequence (map (calculateDChidr e maxrc j x) (seq 0 (length xs)))
    end) xs).
Definition row_entry (T : list (list vec)) (j i : nat) : vec := nth i (nth j T []) vzero.
(** dEdG.back() of atom i. *)
Definition dEdQ (elems : list elem) (xs : list fatom) (i : nat) : R :=
  match nth_error xs i with Some x => e_dEdG (f_e x) (numG elems (f_e x)) | None => 0 end.
(** Mode.cpp:1849-1964 calculateForces (4G): f and fElec of all atoms. *)
Definition calculateForces4G (solve : solver) (elems : list elem) (maxrc : R) (cs : cstruct) (r : eresult) (D : vmatrix) (d : pd)
           (xs : list fatom) : option (list fatom) :=
  match calculateForces elems maxrc (map f_e xs) with
  | None => None
  | Some ys =>
    match dChidr_rows elems maxrc xs with
    | None => None
    | Some T =>
      let lambdaTotal := calculateForceLambdaTotal solve cs (er_A r) (snd d) (dEdQ elems xs) in
      let lambdaElec := calculateForceLambdaElec solve cs (er_A r) (snd d) in
      let fshort := fun i => match nth_error ys i with Some y => e_f y | None => vzero end in
      let F := forces4G (length xs) lambdaTotal lambdaElec (fst d) D (row_entry T) fshort in
      Some (mapi (fun i x => let e := f_e x in
              mkFAtom (mkEAtom (e_atom e) (e_store e) (e_dEdG e) (e_energy e) (fst (F i)))
                      (f_chi x) (f_dChidG x) (f_charge x) (snd (F i))) xs)
    end
  end.

(** Results: energy, energyElec, charge of the structure and the atoms. *)
Record result4G := mkResult4G { r4_energy : R; r4_energyElec : R; r4_charge : R; r4_atoms : list fatom }.
(** Mode.cpp:1967-2016 evaluateNNP with forces for a 4G potential. *)
Definition evaluateNNP4G (nsort : list neighbor -> list neighbor) (solve : solver) (fuel : nat) (W : ewald) (E : epar)
           (Z : nat -> R) (elems : list elem) (elec short : nat -> network) (neg : R -> R) (maxrc : R) (cutoffs : list (list R))
           (chargeRef : R) (s : structure) : option result4G :=
  match calculateNeighborListCutoffs nsort fuel maxrc cutoffs (calculateMaxCutoffRadiusOverall W (sc_outer (ep_fs E)) maxrc s) with
  | None => None
  | Some s =>
    match calculateSymmetryFunctions Z elems (s_atoms s) with
    | None => None
    | Some xs =>
      let xs := elecNetworks neg elec xs in
      let cs := charged_structure s chargeRef xs in
      match chargeEquilibration solve fuel W E cs with
      | None => None
      | Some (r, D, d) =>
        let xs := shortNetworks elems short (set_charges (er_Q r) xs) in
        match calculateForces4G solve elems maxrc cs r D d xs with
        | None => None
        | Some ys => Some (mkResult4G (calculateEnergy4G (er_energy r) xs) (er_energy r) (calculateCharge xs) ys)
        end
      end
    end
  end.
