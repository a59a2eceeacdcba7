(** Model of class Prediction (src/libnnp/Prediction.cpp) and of the tables written by src/application/nnp-predict.cpp, for 2G
    potentials.

    [eval] is the evaluation of a structure in model units, Mode::evaluateNNP (Forces.v, or GroupEvaluation.v for the default build).
    Left out: Prediction::setup, column headers, log, output.data (StructureFile.v), and the neighbor lists and derivative arrays
    attached to the atoms by the evaluation, which are converted by toPhysicalUnits too (Units.v) but never written. *)
From Coq Require Import Reals ZArith Bool Arith.
From Coq Require Import List.
From Verif Require Import Base.Vec3 Model.Strings Model.ElementMap Model.NeighborList Model.SymFunctions Model.Forces Model.Units Model.StructureFile.
Import ListNotations.
Local Open Scope R_scope.

(** Mode.h: what is read from the settings: numElements, atomic energy offsets, normalize, meanEnergy, convEnergy, convLength,
    convCharge. *)
Record pmode := mkPMode {
  pm_N : nat; pm_offsets : list R; pm_normalize : bool; pm_mean : R; pm_cE : R; pm_cL : R; pm_cQ : R
}.

(** The structure just read, with the members of Units.v; Atom.cpp:25-45: energy = 0, no neighbor list, no symmetry functions. *)
Definition q_of_atom (a : fatom) : qatom :=
  mkQA false false false 0 0 (fa_r a) (fa_f a) (fa_fRef a) (fa_charge a) (fa_chargeRef a) [] [] [].
Definition q_of (fs : fstruct) : qstructure :=
  mkQS (fs_periodic fs) (fs_numAtoms fs) (fs_perElement fs) (fs_energy fs) (fs_energyRef fs) (fs_charge fs) (fs_chargeRef fs) (fs_volume fs)
       (fs_box fs) (fs_invbox fs) (map q_of_atom (fs_atoms fs)).

(** Prediction.cpp:55-60: after reading, remove the offset of the reference energy (Mode.h:401, ref = true by default), then normalize. *)
Definition prepare (M : pmode) (fs : fstruct) : option qstructure :=
  match removeEnergyOffset (pm_offsets M) true (q_of fs) with
  | None => None
  | Some q => if pm_normalize M then toNormalizedUnits (pm_mean M) (pm_cE M) (pm_cL M) (pm_cQ M) q else Some q
  end.

(** The members of the structure evaluateNNP works on. *)
Definition evaluated (N : nat) (elements : list nat) (q : qstructure) : structure :=
  mkStruct (qs_periodic q) (qs_box q) (map (fun p => fresh_atom (fst p) (q_r (snd p)) N) (List.combine elements (qs_atoms q))) N false false 0.
(** The results of evaluateNNP: structure.energy and the atoms' energies and forces. *)
Definition with_results (q : qstructure) (E : R) (ys : list eatom) : qstructure :=
  mkQS (qs_periodic q) (qs_numAtoms q) (qs_perElement q) E (qs_energyRef q) (qs_charge q) (qs_chargeRef q) (qs_volume q)
       (qs_box q) (qs_invbox q)
       (map (fun p => let a := fst p in let y := snd p in
               mkQA (q_hasNL a) (q_hasSFD a) (q_chargeNeuron a) (q_numSF a) (e_energy y) (q_r a) (e_f y) (q_fRef a) (q_charge a) (q_chargeRef a)
                    (q_dEdG a) (q_dGdr a) (q_nbs a)) (List.combine (qs_atoms q) ys)).
(** Prediction.cpp:65-77 predict, applied to the structure read. *)
Definition predict (M : pmode) (eval : structure -> option (R * list eatom)) (fs : fstruct) : option qstructure :=
  match prepare M fs with
  | None => None
  | Some q =>
    match eval (evaluated (pm_N M) (map fa_element (fs_atoms fs)) q) with
    | None => None
    | Some (E, ys) =>
      let q := with_results q E ys in
      match (if pm_normalize M then toPhysicalUnits (pm_mean M) (pm_cE M) (pm_cL M) (pm_cQ M) q else Some q) with
      | None => None
      | Some q =>
        match addEnergyOffset (pm_offsets M) false q with
        | None => None
        | Some q => addEnergyOffset (pm_offsets M) true q
        end
      end
    end
  end.
(** Prediction.cpp:48-77: readStructureFromFile and predict; [lines] = lines of the file. *)
Definition predictFile (em : element_map) (M : pmode) (eval : structure -> option (R * list eatom)) (lines : list str) : option (fstruct * qstructure) :=
  match readFromFile em lines (newStructure (pm_N M)) with
  | None => None
  | Some (fs, _) => match predict M eval fs with None => None | Some q => Some (fs, q) end
  end.

(** nnp-predict.cpp:136-144: the line of energy.out: number of atoms, Eref, Ennp, Ediff, E_offset (the index is left out). *)
Definition energyRow (M : pmode) (q : qstructure) : option (nat * R * R * R * R) :=
  match getEnergyOffset (pm_offsets M) q with
  | None => None
  | Some o => Some (qs_numAtoms q, qs_energyRef q, qs_energy q, (qs_energyRef q - qs_energy q) / INR (qs_numAtoms q), o)
  end.
(** nnp-predict.cpp:181-193: the lines of nnatoms.out (Qref, Qnnp, 0, Ennp_atom), 228-242: of nnforces.out (reference, prediction). *)
Definition atomRows (q : qstructure) : list (R * R * R * R) := map (fun a => (q_chargeRef a, q_charge a, 0, q_energy a)) (qs_atoms q).
Definition forceRows (q : qstructure) : list (vec * vec) := map (fun a => (q_fRef a, q_f a)) (qs_atoms q).
