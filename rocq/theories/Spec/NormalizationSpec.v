(** Specification of the data set normalization. *)
From Coq Require Import Reals List Arith Bool String.
From Coq Require Import List.
From Verif Require Import Base.Vec3 Base.SumR Model.Strings Model.Units.
Import ListNotations.
Local Open Scope R_scope.

(** Arithmetic mean and (sample) standard deviation of a list of numbers. *)
Definition mean (l : list R) : R := rsum l / INR (length l).
Definition deviation (l : list R) : R := sqrt (rsum (map (fun x => (x - mean l) ^ 2) l) / (INR (length l) - 1)).

(** Energies per atom and all force components of a set of structures: reference and prediction. *)
Definition energies_ref (ss : list qstructure) : list R := map (fun s => qs_energyRef s / INR (length (qs_atoms s))) ss.
Definition energies_nnp (ss : list qstructure) : list R := map (fun s => qs_energy s / INR (length (qs_atoms s))) ss.
Definition components (v : vec) : list R := [vx v; vy v; vz v].
Definition forces_ref (ss : list qstructure) : list R := flat_map (fun s => flat_map (fun a => components (q_fRef a)) (qs_atoms s)) ss.
Definition forces_nnp (ss : list qstructure) : list R := flat_map (fun s => flat_map (fun a => components (q_f a)) (qs_atoms s)) ss.

(** Structures as they are read: the number of atoms is that of the list, and not zero. *)
Definition counted (s : qstructure) : Prop := qs_numAtoms s = length (qs_atoms s) /\ qs_atoms s <> [].

(** A line of the settings file that sets the keyword (as the program looks for it: at the beginning, followed by a blank or nothing). *)
Definition sets_keyword (k line : str) : Prop := line = k \/ exists rest, line = k ++ ch_space :: rest.
(** The keywords of the normalization. *)
Definition kME := lit "mean_energy".
Definition kCE := lit "conv_energy".
Definition kCL := lit "conv_length".
