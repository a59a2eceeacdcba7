(** Properties C41, C42: response of the charges; forces with charge equilibration. *)
From Coq Require Import Reals ZArith List Bool Arith.
From Coquelicot Require Import Coquelicot.
From Coq Require Import List.
From Verif Require Import Base.Vec3 Base.SumR Base.Linear Model.CoreFunction Model.CompactScreening Model.Geometry Model.NeighborList Model.Kspace Model.Electrostatics
  Spec.CompactSpec Spec.ElecSpec Proofs.ElecIsolated Proofs.ElecPerForces Proofs.ElecResponse Proofs.ElecProofs Proofs.ElecExamples.
Import ListNotations.
Local Open Scope R_scope.

(** dQ/dchi, for any structure (isolated or periodic) the charges of which have
    been calculated from a regular system. *)
Theorem C41_electronegativity : forall solve fuel W P s r, exact_solver solve -> calculateElectrostaticEnergy solve fuel W P s = Some r ->
  nonsingular (cnum s + 1) (er_A r) -> forall i, (i < cnum s)%nat ->
  response_of (cnum s) (er_A r) (fun k => if Nat.eqb k i then 1 else 0) (calculateDQdChi solve s (er_A r) i) /\
  forall j, (j < cnum s)%nat -> is_derive (fun t => charges solve fuel W P (shift_chi s i t) j) 0 (calculateDQdChi solve s (er_A r) i j).
Proof. exact chi_response. Qed.
Print Assumptions C41_electronegativity.

(** dQ/dJ. *)
Theorem C41_hardness_isolated : forall solve hardness sigma fs eps s fuel W, exact_solver solve -> 0 < eps -> (forall e, 0 < sigma e) ->
  cs_periodic s = false ->
  forall r, calculateElectrostaticEnergy solve fuel W (element_parameters hardness sigma fs eps) s = Some r -> nonsingular (cnum s + 1) (er_A r) -> forall e,
  response_of (cnum s) (er_A r) (fun k => if Nat.eqb (cel s k) e then er_Q r k else 0) (calculateDQdJ solve s (er_A r) (er_Q r) e) /\
  forall j, (j < cnum s)%nat ->
    is_derive (fun t => charges solve fuel W (element_parameters (shift_hardness hardness e t) sigma fs eps) s j) 0 (calculateDQdJ solve s (er_A r) (er_Q r) e j).
Proof. exact J_response_isolated. Qed.
Print Assumptions C41_hardness_isolated.
Theorem C41_hardness_periodic : forall solve hardness sigma fs eps s fuel W, exact_solver solve -> 0 < eps -> (forall e, 0 < sigma e) ->
  cs_periodic s = true -> cs_sorted s = true -> neighbors_valid s -> counts_valid s ->
  forall r, calculateElectrostaticEnergy solve fuel W (element_parameters hardness sigma fs eps) s = Some r -> nonsingular (cnum s + 1) (er_A r) -> forall e,
  response_of (cnum s) (er_A r) (fun k => if Nat.eqb (cel s k) e then er_Q r k else 0) (calculateDQdJ solve s (er_A r) (er_Q r) e) /\
  forall j, (j < cnum s)%nat ->
    is_derive (fun t => charges solve fuel W (element_parameters (shift_hardness hardness e t) sigma fs eps) s j) 0 (calculateDQdJ solve s (er_A r) (er_Q r) e j).
Proof. exact J_response_periodic. Qed.
Print Assumptions C41_hardness_periodic.

(** dQ/dr for atom i and component c, electronegativities following the motion. *)
Theorem C41_position_isolated : forall solve hardness sigma fs eps s fuel W, exact_solver solve -> 0 < eps -> (forall e, 0 < sigma e) ->
  cs_periodic s = false -> separated s -> distances_valid s ->
  forall r D d, chargeEquilibration solve fuel W (element_parameters hardness sigma fs eps) s = Some (r, D, d) -> nonsingular (cnum s + 1) (er_A r) ->
  forall i c, (i < cnum s)%nat -> (c < 3)%nat -> forall chi dChidr, (forall k, (k < cnum s)%nat -> chi 0 k = chi_of s k) ->
  (forall k, (k < cnum s)%nat -> is_derive (fun t => chi t k) 0 (comp (dChidr k i) c)) ->
  sumn (cnum s) (calculateDQdr solve s (er_A r) D dChidr i c) = 0 /\
  forall j, (j < cnum s)%nat ->
    is_derive (fun t => charges solve fuel W (element_parameters hardness sigma fs eps) (moved (one_atom i c) t (chi t) s) j) 0
      (calculateDQdr solve s (er_A r) D dChidr i c j).
Proof. exact position_response_isolated. Qed.
Print Assumptions C41_position_isolated.
Theorem C41_position_periodic : forall solve hardness sigma fs eps s fuel W, exact_solver solve -> 0 < eps -> (forall e, 0 < sigma e) ->
  cs_periodic s = true -> cs_sorted s = true -> neighbors_valid s -> counts_valid s -> distances_valid s -> 0 < ew_eta W ->
  (forall i n, (i < cnum s)%nat -> In n (a_nbs (cna s i)) -> nb_dr n <> vzero) ->
  forall r D d, chargeEquilibration solve fuel W (element_parameters hardness sigma fs eps) s = Some (r, D, d) -> nonsingular (cnum s + 1) (er_A r) ->
  forall i c, (i < cnum s)%nat -> (c < 3)%nat -> forall chi dChidr, (forall k, (k < cnum s)%nat -> chi 0 k = chi_of s k) ->
  (forall k, (k < cnum s)%nat -> is_derive (fun t => chi t k) 0 (comp (dChidr k i) c)) ->
  sumn (cnum s) (calculateDQdr solve s (er_A r) D dChidr i c) = 0 /\
  forall j, (j < cnum s)%nat ->
    is_derive (fun t => charges solve fuel W (element_parameters hardness sigma fs eps) (moved (one_atom i c) t (chi t) s) j) 0
      (calculateDQdr solve s (er_A r) D dChidr i c j).
Proof. exact position_response_periodic. Qed.
Print Assumptions C41_position_periodic.

(** Forces: all atoms moved with arbitrary velocities v, electronegativities
    following with derivatives dChi, an arbitrary further energy Es of positions
    and charges whose own forces are fshort and whose charge derivatives are dEs.
    The total force and the electrostatic force are minus the derivatives of the
    total and electrostatic energy along the motion, the charges being
    re-equilibrated all the way. *)
Theorem C42_isolated : forall hardness sigma fs eps, 0 < eps -> (forall e, 0 < sigma e) ->
  forall solve fuel W s v chi, cs_periodic s = false -> separated s -> distances_valid s ->
  (forall i, (i < cnum s)%nat -> chi 0 i = chi_of s i) ->
  forall k ia ib, screening_config k ia ib = Some fs ->
  forall r D pE dQ dChi Es fshort dEs, exact_solver solve ->
  chargeEquilibration solve fuel W (element_parameters hardness sigma fs eps) s = Some (r, D, (pE, dQ)) -> nonsingular (cnum s + 1) (er_A r) ->
  (forall j, (j < cnum s)%nat -> is_derive (fun t => chi t j) 0 (sumn (cnum s) (fun a => dot (dChi j a) (v a)))) ->
  differentiable_energy (cnum s) Es (er_Q r) (- power (cnum s) fshort v) dEs ->
  let F := forces4G (cnum s) (calculateForceLambdaTotal solve s (er_A r) dQ dEs) (calculateForceLambdaElec solve s (er_A r) dQ) pE D dChi fshort in
  is_derive (fun t => electrostatic_energy solve fuel W (element_parameters hardness sigma fs eps) (moved v t (chi t) s)
                      + Es t (charges solve fuel W (element_parameters hardness sigma fs eps) (moved v t (chi t) s))) 0
    (- power (cnum s) (fun i => fst (F i)) v) /\
  is_derive (fun t => electrostatic_energy solve fuel W (element_parameters hardness sigma fs eps) (moved v t (chi t) s)) 0
    (- power (cnum s) (fun i => snd (F i)) v).
Proof. exact isolated_forces. Qed.
Print Assumptions C42_isolated.
Theorem C42_periodic : forall hardness sigma fs eps, 0 < eps -> (forall e, 0 < sigma e) ->
  forall solve fuel W g s v chi, cs_periodic s = true -> cs_sorted s = true -> neighbors_valid s -> counts_valid s ->
  grid_setup fuel (cs_box s) (ew_eta W) (ew_kCut W) grid_init = Some g -> distances_valid s ->
  (forall i n, (i < cnum s)%nat -> In n (a_nbs (cna s i)) -> nb_dr n <> vzero) -> 0 < ew_eta W ->
  (forall i, (i < cnum s)%nat -> chi 0 i = chi_of s i) ->
  forall k ia ib, screening_config k ia ib = Some fs -> sorted_by_distance s -> complete_within s (sc_outer fs) ->
  forall r D pE dQ dChi Es fshort dEs, exact_solver solve ->
  chargeEquilibration solve fuel W (element_parameters hardness sigma fs eps) s = Some (r, D, (pE, dQ)) -> nonsingular (cnum s + 1) (er_A r) ->
  (forall j, (j < cnum s)%nat -> is_derive (fun t => chi t j) 0 (sumn (cnum s) (fun a => dot (dChi j a) (v a)))) ->
  differentiable_energy (cnum s) Es (er_Q r) (- power (cnum s) fshort v) dEs ->
  let F := forces4G (cnum s) (calculateForceLambdaTotal solve s (er_A r) dQ dEs) (calculateForceLambdaElec solve s (er_A r) dQ) pE D dChi fshort in
  is_derive (fun t => electrostatic_energy solve fuel W (element_parameters hardness sigma fs eps) (moved v t (chi t) s)
                      + Es t (charges solve fuel W (element_parameters hardness sigma fs eps) (moved v t (chi t) s))) 0
    (- power (cnum s) (fun i => fst (F i)) v) /\
  is_derive (fun t => electrostatic_energy solve fuel W (element_parameters hardness sigma fs eps) (moved v t (chi t) s)) 0
    (- power (cnum s) (fun i => snd (F i)) v).
Proof. exact periodic_forces. Qed.
Print Assumptions C42_periodic.

Example C42_isolated_example : forall fs W, exists r D d,
  chargeEquilibration gauss_solve 0 W (element_parameters (fun _ => 1) (fun _ => 1) fs 1) ex_isolated = Some (r, D, d) /\
  nonsingular (cnum ex_isolated + 1) (er_A r) /\ separated ex_isolated /\ distances_valid ex_isolated /\ cs_periodic ex_isolated = false.
Proof. exact ex_isolated_response. Qed.
Example C42_periodic_example : exists h W fuel r D d, 0 < h /\ 0 < ew_eta W /\
  chargeEquilibration gauss_solve fuel W (element_parameters (fun _ => h) (fun _ => 1) ex_fs 1) ex_periodic = Some (r, D, d) /\
  nonsingular (cnum ex_periodic + 1) (er_A r) /\ cs_periodic ex_periodic = true /\ cs_sorted ex_periodic = true /\
  neighbors_valid ex_periodic /\ counts_valid ex_periodic /\ distances_valid ex_periodic /\
  (forall i n, (i < cnum ex_periodic)%nat -> In n (a_nbs (cna ex_periodic i)) -> nb_dr n <> vzero) /\
  sorted_by_distance ex_periodic /\ complete_within ex_periodic (sc_outer ex_fs) /\ screening_config CK_POLY2 1 6 = Some ex_fs.
Proof. exact ex_periodic_response. Qed.
Example C42_energy_example : forall N q0, differentiable_energy N (fun t q => 3 * t + sumn N (fun i => q i * q i)) q0 3 (fun i => 2 * q0 i).
Proof. exact ex_energy. Qed.
