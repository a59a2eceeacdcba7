(** Error metrics of a data set (C39). *)
From Coq Require Import Reals List Bool Arith String.
From Coq Require Import List.
From Verif Require Import Base.Vec3 Base.SumR Model.Strings Model.Units Model.Errors.
Import ListNotations.
Local Open Scope R_scope.

Definition mean (xs : list R) : R := rsum xs / INR (length xs).
Definition rmse (xs : list R) : R := sqrt (mean (map (fun x => x * x) xs)).
Definition mae (xs : list R) : R := mean (map Rabs xs).

(** The individual deviations of a set of structures. *)
Definition energy_deviations (D : list qstructure) : list R := map (fun s => qs_energyRef s - qs_energy s) D.
Definition energy_per_atom_deviations (D : list qstructure) : list R :=
  map (fun s => (qs_energyRef s - qs_energy s) / INR (qs_numAtoms s)) D.
Definition force_deviations (D : list qstructure) : list R :=
  flat_map (fun s => flat_map (fun a => [vx (q_fRef a) - vx (q_f a); vy (q_fRef a) - vy (q_f a); vz (q_fRef a) - vz (q_f a)]) (qs_atoms s)) D.
Definition charge_deviations (D : list qstructure) : list R :=
  flat_map (fun s => map (fun a => q_chargeRef a - q_charge a) (qs_atoms s)) D.

(** The metrics a property should report. *)
Definition metrics (property : str) (D : list qstructure) : emap :=
  if str_eqb property (lit "energy") then
    [(lit "RMSEpa", rmse (energy_per_atom_deviations D)); (lit "RMSE", rmse (energy_deviations D));
     (lit "MAEpa", mae (energy_per_atom_deviations D)); (lit "MAE", mae (energy_deviations D))]
  else if str_eqb property (lit "force") then
    [(lit "RMSE", rmse (force_deviations D)); (lit "MAE", mae (force_deviations D))]
  else [(lit "RMSE", rmse (charge_deviations D)); (lit "MAE", mae (charge_deviations D))].
(** How many deviations enter. *)
Definition samples (property : str) (D : list qstructure) : nat :=
  if str_eqb property (lit "energy") then length D
  else if str_eqb property (lit "force") then length (force_deviations D) else length (charge_deviations D).

Definition error_property (p : str) : Prop := In p [lit "energy"; lit "force"; lit "charge"].
Definition part (t : sample_type) (D : list (sample_type * qstructure)) : list qstructure :=
  map snd (filter (fun ts => match fst ts, t with ST_TRAINING, ST_TRAINING | ST_TEST, ST_TEST => true | _, _ => false end) D).
