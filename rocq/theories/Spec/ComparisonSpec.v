(** Comparison files (C98). *)
From Coq Require Import Reals List Arith Ascii String.
From Verif Require Import Base.Vec3 Model.Strings Model.Printf Model.DataFiles Model.Units Model.Errors Model.Comparison.
From Coq Require Import List.
Import ListNotations.
Local Open Scope R_scope.

(** A line: indices, reference and prediction. *)
Record entry_row := mkEntry { er_ids : list nat; er_ref : R; er_nnp : R }.
Definition entries (k : str) (s : cstructure) : list entry_row :=
  if str_eqb k (lit "energy") then [mkEntry [ct_index s] (ct_energyRef s / INR (ct_numAtoms s)) (ct_energy s / INR (ct_numAtoms s))]
  else flat_map (fun a =>
    let ids := [ca_structure a; ca_index a] in let q := ca_atom a in
    if str_eqb k (lit "force")
    then [mkEntry ids (vx (q_fRef q)) (vx (q_f q)); mkEntry ids (vy (q_fRef q)) (vy (q_f q)); mkEntry ids (vz (q_fRef q)) (vz (q_f q))]
    else [mkEntry ids (q_chargeRef q) (q_charge q)]) (ct_atoms s).
Definition entry_words (e : entry_row) : list str := map print_d (er_ids e) ++ [print_E 8 (er_ref e); print_E 8 (er_nnp e)].
(** The structures of a set, process by process. *)
Definition of_type (t : Errors.sample_type) (l : list cstructure) : list cstructure :=
  filter (fun s => match ct_sample s, t with Errors.ST_TRAINING, Errors.ST_TRAINING | Errors.ST_TEST, Errors.ST_TEST => true | _, _ => false end) l.
(** The same structure as seen by the error metrics. *)
Definition metric_structure (s : cstructure) : qstructure :=
  mkQS false (ct_numAtoms s) [] (ct_energy s) (ct_energyRef s) 0 0 0 (mkMat vzero vzero vzero) (mkMat vzero vzero vzero) (map ca_atom (ct_atoms s)).
(** The metrics which belong to the numbers of the file: per atom for energies. *)
Definition rmse_name (k : str) : str := if str_eqb k (lit "energy") then lit "RMSEpa" else lit "RMSE".
Definition mae_name (k : str) : str := if str_eqb k (lit "energy") then lit "MAEpa" else lit "MAE".
(** The names of the columns: indices, reference, prediction. *)
Definition compared_names (k : str) : list str :=
  if str_eqb k (lit "energy") then [lit "index"; lit "Eref"; lit "Ennp"]
  else if str_eqb k (lit "force") then [lit "index_s"; lit "index_a"; lit "Fref"; lit "Fnnp"]
  else [lit "index_s"; lit "index_a"; lit "Qref"; lit "Qnnp"].
