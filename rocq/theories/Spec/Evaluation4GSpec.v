(** What charges, energies and forces of a 4G potential (charge equilibration,
    short-range networks that know the charges) are supposed to be, for isolated
    structures (C75). *)
From Coq Require Import Reals List Arith.
From Coquelicot Require Import Coquelicot.
From Coq Require Import List.
From Verif Require Import Base.Vec3 Base.SumR Model.NeuralNetwork Model.CompactScreening Model.NeighborList Model.SymFunctions Model.Electrostatics
  Spec.NetworkSpec Spec.SymSpec Spec.ForceSpec Spec.CompactSpec Spec.ElecSpec.
Import ListNotations.
Local Open Scope R_scope.

(** For each element: symmetry functions, network for the electronegativity,
    network for the short-range energy, weight, hardness, width of the charge. *)
Record potential4 := mkPotential4 {
  q_fs : nat -> list symfnc; q_elec : nat -> network; q_short : nat -> network; q_weight : nat -> R;
  q_hardness : nat -> R; q_sigma : nat -> R; q_screening : screening_function; q_eps : R; q_unit : R
}.
(** Electronegativity of an atom in an environment; [q_unit] is one unit of
    electronegativity in the units used. *)
Definition atom_chi (P : potential4) (el : nat) (e : env) : R :=
  q_unit P * getOutput (evaluate (q_elec P el) (sf_input (q_weight P) (q_fs P el) e)) 0.
(** Inputs of the short-range network: symmetry functions, then the charge. *)
Definition charge_input (P : potential4) (el : nat) (e : env) (q : R) (k : nat) : R :=
  if Nat.ltb k (length (q_fs P el)) then sf_input (q_weight P) (q_fs P el) e k else q.
Definition atom_energy (P : potential4) (el : nat) (e : env) (q : R) : R :=
  getOutput (evaluate (q_short P el) (charge_input P el e q)) 0.

(** The positions of the charges. *)
Definition charge_sites (s : structure) : cstruct :=
  mkCStruct (s_periodic s) (s_box s) (s_sorted s) (map (fun a => mkCAtom a 0) (s_atoms s)) 0.
Definition element_of (s : structure) (i : nat) : nat := a_element (nth i (s_atoms s) (fresh_atom 0 vzero 0)).

(** Charges [q] adding up to [Qref], with equal electronegativities. *)
Definition equilibrated (P : potential4) (Qref : R) (s : structure) (chi q : nat -> R) : Prop :=
  sumn (length (s_atoms s)) q = Qref /\
  exists l, forall i, (i < length (s_atoms s))%nat ->
    electronegativity (length (s_atoms s)) chi (J_of (q_hardness P) (charge_sites s)) (isolated_U (q_sigma P) (q_eps P) (charge_sites s)) q i = l.
(** Total energy [E], electrostatic energy [Eel] and charges [q] of an isolated
    structure with total charge [Qref]. *)
Definition has_energy4 (P : potential4) (rc Qref : R) (s : structure) (E Eel : R) (q : nat -> R) : Prop :=
  exists es, length es = length (s_atoms s) /\
    (forall i e, nth_error es i = Some e -> neighbourhood s rc i e) /\
    equilibrated P Qref s (fun i => atom_chi P (element_of s i) (nth i es [])) q /\
    Eel = isolated_energy (q_sigma P) (q_eps P) (q_screening P) (charge_sites s) q /\
    E = sumn (length (s_atoms s)) (fun i => atom_energy P (element_of s i) (nth i es []) (q i)) + Eel.

(** The potential can be used for N elements. *)
Definition sensible4 (N : nat) (rc : R) (P : potential4) : Prop :=
  0 < q_eps P /\ (forall e, 0 < q_sigma P e) /\ (exists k a b, screening_config k a b = Some (q_screening P)) /\
  forall e, (e < N)%nat -> usable rc (q_fs P e) /\
    (well_formed (q_elec P e) /\ acts_known (q_elec P e) /\ numNeurons (q_elec P e) 0 = length (q_fs P e)) /\
    (well_formed (q_short P e) /\ acts_known (q_short P e) /\ numNeurons (q_short P e) 0 = S (length (q_fs P e))).
(** The charges are determined. *)
Definition chargeable (P : potential4) (s : structure) : Prop :=
  (0 < length (s_atoms s))%nat /\
  well_posed (length (s_atoms s)) (J_of (q_hardness P) (charge_sites s)) (isolated_U (q_sigma P) (q_eps P) (charge_sites s)).
(** Something holds for each symmetry function and each environment. *)
Definition everywhere4 (P : potential4) (rc : R) (s : structure) (Q : kind -> env -> Prop) : Prop :=
  forall i a e f, nth_error (s_atoms s) i = Some a -> neighbourhood s rc i e -> In f (q_fs P (a_element a)) -> Q (sf_kind f) e.
(** The networks are differentiable at their inputs. *)
Definition regular_networks4 (P : potential4) (rc : R) (s : structure) (q : nat -> R) : Prop :=
  forall i a e, nth_error (s_atoms s) i = Some a -> neighbourhood s rc i e ->
    every_neuron regular (evaluate (q_elec P (a_element a)) (sf_input (q_weight P) (q_fs P (a_element a)) e)) /\
    every_neuron regular (evaluate (q_short P (a_element a)) (charge_input P (a_element a) e (q i))).
(** Work of forces per unit of time for velocities [u]. *)
Definition work_rate (f : list vec) (u : nat -> vec) : R := sumn (length f) (fun i => dot (nth i f vzero) (u i)).
