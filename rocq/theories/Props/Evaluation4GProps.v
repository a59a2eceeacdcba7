(** Property C75: evaluation of fourth-generation potentials. *)
From Coq Require Import Reals ZArith List Bool Arith.
From Coquelicot Require Import Coquelicot.
From Coq Require Import List.
From Verif Require Import Base.Vec3 Base.SumR Base.Linear Model.NeuralNetwork Model.CompactScreening Model.NeighborList Model.SymFunctions Model.SymSetup Model.Forces
  Model.Electrostatics Model.Evaluation4G
  Spec.NeighborSpec Spec.SymSpec Spec.SetupSpec Spec.ForceSpec Spec.ElecSpec Spec.Evaluation4GSpec
  Proofs.ForceExamples Proofs.Evaluation4GProofs Proofs.Evaluation4GMore Proofs.Evaluation4GExamples.
Import ListNotations.
Local Open Scope R_scope.

(** For isolated structures, the evaluation succeeds. The charges have the
    reference total and equal electronegativity, the energies are those of the
    potential for these charges, and the forces are the negative gradients of
    total and electrostatic energy, with the charges following the atoms. *)
Theorem C75_isolated : forall N rc Q s nsort solve fuel W cutoffs Qref (normalize : bool) convEnergy convCharge,
  sensible4 N rc Q -> 0 <= rc -> s_numElements s = N -> unprocessed rc s -> is_sort nsort -> exact_solver solve -> (N <= length cutoffs)%nat ->
  s_periodic s = false -> chargeable Q s -> everywhere4 Q rc s evaluable -> q_unit Q = negativity normalize convEnergy convCharge 1 ->
  exists r, evaluateNNP4G nsort solve fuel W (element_parameters (q_hardness Q) (q_sigma Q) (q_screening Q) (q_eps Q)) (q_weight Q)
      (setupMemoryAll N (map (q_fs Q) (seq 0 N))) (q_elec Q) (q_short Q) (negativity normalize convEnergy convCharge) rc cutoffs Qref s = Some r /\
    length (r4_atoms r) = length (s_atoms s) /\ r4_charge r = Qref /\
    has_energy4 Q rc Qref s (r4_energy r) (r4_energyElec r) (fun i => nth i (map f_charge (r4_atoms r)) 0) /\
    (everywhere4 Q rc s smooth_at -> regular_networks4 Q rc s (fun i => nth i (map f_charge (r4_atoms r)) 0) -> separated (charge_sites s) ->
     forall u E Eel q, locally 0 (fun t => has_energy4 Q rc Qref (displaced u t s) (E t) (Eel t) (q t)) ->
     is_derive E 0 (- work_rate (map (fun x => e_f (f_e x)) (r4_atoms r)) u) /\ is_derive Eel 0 (- work_rate (map f_fElec (r4_atoms r)) u)).
Proof. exact evaluation4G_isolated. Qed.
Print Assumptions C75_isolated.

(** Energies and charges are determined by the structure, and along every path
    they exist near its start. *)
Theorem C75_unique : forall Q rc Qref s E Eel q E' Eel' q', chargeable Q s ->
  has_energy4 Q rc Qref s E Eel q -> has_energy4 Q rc Qref s E' Eel' q' ->
  E = E' /\ Eel = Eel' /\ forall i, (i < length (s_atoms s))%nat -> q i = q' i.
Proof. exact energy4_unique. Qed.
Print Assumptions C75_unique.
Theorem C75_defined : forall Q rc Qref s u, 0 < q_eps Q -> (forall e, 0 < q_sigma Q e) -> s_periodic s = false -> chargeable Q s -> separated (charge_sites s) ->
  exists E Eel q, locally 0 (fun t => has_energy4 Q rc Qref (displaced u t s) (E t) (Eel t) (q t)).
Proof. exact curves_exist. Qed.
Print Assumptions C75_defined.

(** Total and electrostatic forces add up to zero. *)
Theorem C75_total_force : forall N rc Q s nsort solve fuel W cutoffs Qref (normalize : bool) convEnergy convCharge,
  sensible4 N rc Q -> 0 <= rc -> s_numElements s = N -> unprocessed rc s -> is_sort nsort -> exact_solver solve -> (N <= length cutoffs)%nat ->
  s_periodic s = false -> chargeable Q s -> q_unit Q = negativity normalize convEnergy convCharge 1 -> everywhere4 Q rc s smooth_at -> separated (charge_sites s) ->
  exists r, evaluateNNP4G nsort solve fuel W (element_parameters (q_hardness Q) (q_sigma Q) (q_screening Q) (q_eps Q)) (q_weight Q)
      (setupMemoryAll N (map (q_fs Q) (seq 0 N))) (q_elec Q) (q_short Q) (negativity normalize convEnergy convCharge) rc cutoffs Qref s = Some r /\
    (regular_networks4 Q rc s (fun i => nth i (map f_charge (r4_atoms r)) 0) ->
     forall w, work_rate (map (fun x => e_f (f_e x)) (r4_atoms r)) (fun _ => w) = 0 /\ work_rate (map f_fElec (r4_atoms r)) (fun _ => w) = 0).
Proof. exact evaluation4G_balanced. Qed.
Print Assumptions C75_total_force.

Example C75_example : sensible4 2 chain_rc three_pot4 /\ unprocessed chain_rc three /\ s_numElements three = 2%nat /\ s_periodic three = false /\ chargeable three_pot4 three /\
  everywhere4 three_pot4 chain_rc three smooth_at /\ (forall q, regular_networks4 three_pot4 chain_rc three q) /\ separated (charge_sites three) /\
  in_range three chain_rc 0 1 (0, 0, 0)%Z /\ in_range three chain_rc 0 2 (0, 0, 0)%Z.
Proof. exact three4_ok. Qed.
