(** Model of the unit conversions: Structure.cpp (src/libnnp) toNormalizedUnits,
    toPhysicalUnits, Atom.cpp toNormalizedUnits, toPhysicalUnits, Mode.cpp
    normalized, physical, normalizedEnergy, physicalEnergy, addEnergyOffset,
    removeEnergyOffset, getEnergyOffset, getEnergyWithOffset.

    Only members which carry a unit (or decide about the conversion) are kept.
    The memory layout is that of N2P2_FULL_SFD_MEMORY switched off (no dGdxia). *)
From Coq Require Import Reals List Bool Arith String.
From Coq Require Import List.
From Verif Require Import Base.Vec3 Model.Strings Model.SymFunctions.
Import ListNotations.
Local Open Scope R_scope.

(** Atom.h: struct Neighbor, members d, dr, dGdr. *)
Record qneighbor := mkQN { qn_d : R; qn_dr : vec; qn_dGdr : list vec }.
(** Atom.h: struct Atom. *)
Record qatom := mkQA {
  q_hasNL : bool; q_hasSFD : bool; q_chargeNeuron : bool; q_numSF : nat;
  q_energy : R; q_r : vec; q_f : vec; q_fRef : vec; q_charge : R; q_chargeRef : R;
  q_dEdG : list R; q_dGdr : list vec; q_nbs : list qneighbor
}.
(** Structure.h: struct Structure. *)
Record qstructure := mkQS {
  qs_periodic : bool; qs_numAtoms : nat; qs_perElement : list nat;
  qs_energy : R; qs_energyRef : R; qs_charge : R; qs_chargeRef : R; qs_volume : R;
  qs_box : mat; qs_invbox : mat; qs_atoms : list qatom
}.

(** v.at(i) = f(v.at(i)); [None] = out_of_range. *)
Fixpoint at_apply {A} (f : A -> A) (l : list A) (i : nat) : option (list A) :=
  match l, i with
  | [], _ => None
  | x :: r, O => Some (f x :: r)
  | x :: r, S i => match at_apply f r i with None => None | Some r' => Some (x :: r') end
  end.

(** Atom.cpp:88-101 and 133-146: the entries of the atom's own derivative
    arrays. *)
Definition convert_own (fE : R -> R) (fG : vec -> vec) (fN : R -> R) (a : qatom) : option (list R * list vec) :=
  if q_hasSFD a then
    match ofold (fun i st => match at_apply fE (fst st) i with
                             | None => None
                             | Some e => match at_apply fG (snd st) i with None => None | Some g => Some (e, g) end
                             end) (seq 0 (q_numSF a)) (q_dEdG a, q_dGdr a) with
    | None => None
    | Some (e, g) => if q_chargeNeuron a
                     then match at_apply fN e (q_numSF a) with None => None | Some e' => Some (e', g) end
                     else Some (e, g)
    end
  else Some (q_dEdG a, q_dGdr a).
(** Atom.cpp:104-118 and 149-163: for each neighbor convert distance and
    difference vector; the inner loop over the derivatives runs over the atom's
    own array. *)
Definition convert_nbs (fd : R -> R) (fr : vec -> vec) (fG : vec -> vec) (a : qatom) (g : list vec) : list vec * list qneighbor :=
  if q_hasNL a then
    fold_left (fun st n => (if q_hasSFD a then map fG (fst st) else fst st,
                            snd st ++ [mkQN (fd (qn_d n)) (fr (qn_dr n)) (qn_dGdr n)])) (q_nbs a) (g, [])
  else (g, q_nbs a).

(** Atom.cpp:78-121 toNormalizedUnits. *)
Definition atom_toNormalized (cE cL cQ : R) (a : qatom) : option qatom :=
  match convert_own (fun x => x * cE) (fun v => vdiv v cL) (fun x => x * (cE / cQ)) a with
  | None => None
  | Some (e, g) =>
    let (g, nbs) := convert_nbs (fun d => d * cL) (smul cL) (fun v => vdiv v cL) a g in
    Some (mkQA (q_hasNL a) (q_hasSFD a) (q_chargeNeuron a) (q_numSF a)
            (q_energy a * cE) (smul cL (q_r a)) (smul (cE / cL) (q_f a)) (smul (cE / cL) (q_fRef a))
            (q_charge a * cQ) (q_chargeRef a * cQ) e g nbs)
  end.
(** Atom.cpp:123-166 toPhysicalUnits. *)
Definition atom_toPhysical (cE cL cQ : R) (a : qatom) : option qatom :=
  match convert_own (fun x => x / cE) (smul cL) (fun x => x / (cE / cQ)) a with
  | None => None
  | Some (e, g) =>
    let (g, nbs) := convert_nbs (fun d => d / cL) (fun v => vdiv v cL) (smul cL) a g in
    Some (mkQA (q_hasNL a) (q_hasSFD a) (q_chargeNeuron a) (q_numSF a)
            (q_energy a / cE) (vdiv (q_r a) cL) (vdiv (q_f a) (cE / cL)) (vdiv (q_fRef a) (cE / cL))
            (q_charge a / cQ) (q_chargeRef a / cQ) e g nbs)
  end.

Definition omap {A B} (f : A -> option B) : list A -> option (list B) :=
  fix go l := match l with
              | [] => Some []
              | x :: r => match f x with None => None | Some y => match go r with None => None | Some ys => Some (y :: ys) end end
              end.
Definition mmap (f : vec -> vec) (m : mat) : mat := mkMat (f (m0 m)) (f (m1 m)) (f (m2 m)).

(** Structure.cpp:1249-1276 toNormalizedUnits. *)
Definition toNormalizedUnits (mean cE cL cQ : R) (s : qstructure) : option qstructure :=
  match omap (atom_toNormalized cE cL cQ) (qs_atoms s) with
  | None => None
  | Some atoms => Some (mkQS (qs_periodic s) (qs_numAtoms s) (qs_perElement s)
      ((qs_energy s - INR (qs_numAtoms s) * mean) * cE) ((qs_energyRef s - INR (qs_numAtoms s) * mean) * cE)
      (qs_charge s * cQ) (qs_chargeRef s * cQ) (qs_volume s * (cL * cL * cL))
      (if qs_periodic s then mmap (smul cL) (qs_box s) else qs_box s)
      (if qs_periodic s then mmap (fun v => vdiv v cL) (qs_invbox s) else qs_invbox s) atoms)
  end.
(** Structure.cpp:1278-1305 toPhysicalUnits. *)
Definition toPhysicalUnits (mean cE cL cQ : R) (s : qstructure) : option qstructure :=
  match omap (atom_toPhysical cE cL cQ) (qs_atoms s) with
  | None => None
  | Some atoms => Some (mkQS (qs_periodic s) (qs_numAtoms s) (qs_perElement s)
      (qs_energy s / cE + INR (qs_numAtoms s) * mean) (qs_energyRef s / cE + INR (qs_numAtoms s) * mean)
      (qs_charge s / cQ) (qs_chargeRef s / cQ) (qs_volume s / (cL * cL * cL))
      (if qs_periodic s then mmap (fun v => vdiv v cL) (qs_box s) else qs_box s)
      (if qs_periodic s then mmap (smul cL) (qs_invbox s) else qs_invbox s) atoms)
  end.

(** Mode.cpp:2084-2094 normalized; [None] = exception. *)
Definition normalized (cE cL cQ : R) (property : str) (value : R) : option R :=
  if str_eqb property (lit "energy") then Some (value * cE)
  else if str_eqb property (lit "force") then Some (value * cE / cL)
  else if str_eqb property (lit "charge") then Some (value * cQ)
  else if str_eqb property (lit "hardness") then Some (value * cE / cQ ^ 2)
  else if str_eqb property (lit "negativity") then Some (value * cE / cQ)
  else None.
(** Mode.cpp:2110-2120 physical. *)
Definition physical (cE cL cQ : R) (property : str) (value : R) : option R :=
  if str_eqb property (lit "energy") then Some (value / cE)
  else if str_eqb property (lit "force") then Some (value * cL / cE)
  else if str_eqb property (lit "charge") then Some (value / cQ)
  else if str_eqb property (lit "hardness") then Some (value / (cE / cQ ^ 2))
  else if str_eqb property (lit "negativity") then Some (value * cQ / cE)
  else None.
(** Mode.cpp:2096-2108 normalizedEnergy, 2122-2133 physicalEnergy. *)
Definition normalizedEnergy (mean cE : R) (s : qstructure) (ref : bool) : R :=
  if ref then (qs_energyRef s - INR (qs_numAtoms s) * mean) * cE else (qs_energy s - INR (qs_numAtoms s) * mean) * cE.
Definition physicalEnergy (mean cE : R) (s : qstructure) (ref : bool) : R :=
  if ref then qs_energyRef s / cE + INR (qs_numAtoms s) * mean else qs_energy s / cE + INR (qs_numAtoms s) * mean.

(** ** Energy offsets *)
Definition set_energies (s : qstructure) (e eref : R) : qstructure :=
  mkQS (qs_periodic s) (qs_numAtoms s) (qs_perElement s) e eref (qs_charge s) (qs_chargeRef s) (qs_volume s)
       (qs_box s) (qs_invbox s) (qs_atoms s).
(** One pass of the loops: [offsets] are elements.at(i).getAtomicEnergyOffset(),
    numElements = length of elements; [None] = out_of_range. *)
Definition offset_loop (op : R -> R -> R) (offsets : list R) (s : qstructure) (e0 : R) : option R :=
  ofold (fun i e => match nth_error (qs_perElement s) i, nth_error offsets i with
                    | Some n, Some o => Some (op e (INR n * o))
                    | _, _ => None
                    end) (seq 0 (List.length offsets)) e0.
(** Mode.cpp:2018-2035 addEnergyOffset, 2037-2054 removeEnergyOffset. *)
Definition shift_energy (op : R -> R -> R) (offsets : list R) (ref : bool) (s : qstructure) : option qstructure :=
  if ref then match offset_loop op offsets s (qs_energyRef s) with None => None | Some e => Some (set_energies s (qs_energy s) e) end
  else match offset_loop op offsets s (qs_energy s) with None => None | Some e => Some (set_energies s e (qs_energyRef s)) end.
Definition addEnergyOffset := shift_energy Rplus.
Definition removeEnergyOffset := shift_energy Rminus.
(** Mode.cpp:2056-2067 getEnergyOffset, 2069-2082 getEnergyWithOffset. *)
Definition getEnergyOffset (offsets : list R) (s : qstructure) : option R := offset_loop Rplus offsets s 0.
Definition getEnergyWithOffset (offsets : list R) (s : qstructure) (ref : bool) : option R :=
  offset_loop Rplus offsets s (if ref then qs_energyRef s else qs_energy s).
