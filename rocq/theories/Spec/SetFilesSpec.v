(** Training and test set files (C94). *)
From Coq Require Import Reals List Arith.
From Verif Require Import Base.SumR Model.StructureFile.
From Coq Require Import List.
Import ListNotations.
Local Open Scope R_scope.

(** Sum of the energy offsets of the atoms. *)
Definition offset_sum (offsets : list R) (s : fstruct) : R := rsum (map (fun a => nth (fa_element a) offsets 0) (fs_atoms s)).
(** [m] is structure [s] of the data set as kept in memory: the reference energy
    without offsets. *)
Definition in_memory (offsets : list R) (s m : fstruct) : Prop :=
  m = set_refs s (fs_energyRef s - offset_sum offsets s) (fs_chargeRef s).
Definition training (s : fstruct) : bool := match fs_sample s with ST_TRAINING => true | _ => false end.
Definition test (s : fstruct) : bool := match fs_sample s with ST_TEST => true | _ => false end.
