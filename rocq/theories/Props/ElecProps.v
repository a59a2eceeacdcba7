(** Properties C40 - C42: charge equilibration and electrostatics. *)
From Coq Require Import Reals ZArith List Bool Arith.
From Verif Require Import Base.Vec3 Base.SumR Base.Linear Model.CoreFunction Model.CompactScreening Model.Geometry Model.NeighborList Model.Electrostatics
  Spec.CompactSpec Spec.ElecSpec Proofs.ElecQeq Proofs.ElecProofs.
Import ListNotations.
Local Open Scope R_scope.

(** Isolated structures: total charge, equal electronegativity (up to the sign
    the multiplier has), reported energy. *)
Theorem C40_isolated : forall hardness sigma fs eps s, 0 < eps -> (forall e, 0 < sigma e) -> cs_periodic s = false ->
  forall solve fuel W, exact_solver solve -> (0 < cnum s)%nat -> well_posed (cnum s) (J_of hardness s) (isolated_U sigma eps s) ->
  exists r, calculateElectrostaticEnergy solve fuel W (element_parameters hardness sigma fs eps) s = Some r /\
    sumn (cnum s) (er_Q r) = cs_chargeRef s /\
    (forall i, (i < cnum s)%nat -> electronegativity (cnum s) (chi_of s) (J_of hardness s) (isolated_U sigma eps s) (er_Q r) i = - er_lambda r) /\
    er_energy r = isolated_energy sigma eps fs s (er_Q r).
Proof. exact isolated_equilibrium. Qed.
Print Assumptions C40_isolated.

Theorem C40_isolated_minimum : forall solve hardness sigma fs eps s fuel W, exact_solver solve -> 0 < eps -> (forall e, 0 < sigma e) ->
  cs_periodic s = false -> (0 < cnum s)%nat -> separated s -> positive (cnum s) (J_of hardness s) (isolated_U sigma eps s) ->
  exists r, calculateElectrostaticEnergy solve fuel W (element_parameters hardness sigma fs eps) s = Some r /\
    sumn (cnum s) (er_Q r) = cs_chargeRef s /\
    forall p, sumn (cnum s) p = cs_chargeRef s -> (exists i, (i < cnum s)%nat /\ p i <> er_Q r i) ->
    qeq_energy (cnum s) (chi_of s) (J_of hardness s) (isolated_U sigma eps s) (er_Q r)
    < qeq_energy (cnum s) (chi_of s) (J_of hardness s) (isolated_U sigma eps s) p.
Proof. exact isolated_minimum. Qed.
Print Assumptions C40_isolated_minimum.
Example C40_isolated_example : cs_periodic ex_isolated = false /\ (0 < cnum ex_isolated)%nat /\ separated ex_isolated /\
  positive (cnum ex_isolated) (J_of (fun _ => 1) ex_isolated) (isolated_U (fun _ => 1) 1 ex_isolated) /\
  well_posed (cnum ex_isolated) (J_of (fun _ => 1) ex_isolated) (isolated_U (fun _ => 1) 1 ex_isolated).
Proof. exact ex_isolated_ok. Qed.
Example C40_solver_exists : exact_solver gauss_solve.
Proof. exact gauss_solve_exact. Qed.

(** Periodic structures. The energy is the screened Ewald energy if no atom is
    its own neighbor within the screening radius. *)
Theorem C40_periodic : forall solve hardness sigma fs eps s W L, exact_solver solve -> 0 < eps -> (forall e, 0 < sigma e) ->
  periodic_input s W L -> (0 < cnum s)%nat ->
  well_posed (cnum s) (J_of hardness s) (ewald_U sigma eps (calculateVolume (cs_box s)) W L s) ->
  exists fuel, forall fuel', (fuel <= fuel')%nat ->
  exists r, calculateElectrostaticEnergy solve fuel' W (element_parameters hardness sigma fs eps) s = Some r /\
    sumn (cnum s) (er_Q r) = cs_chargeRef s /\
    (forall i, (i < cnum s)%nat -> electronegativity (cnum s) (chi_of s) (J_of hardness s)
       (ewald_U sigma eps (calculateVolume (cs_box s)) W L s) (er_Q r) i = - er_lambda r) /\
    ((forall i n, (i < cnum s)%nat -> In n (neighbors_within (cna s i) (sc_outer fs)) -> nb_tag n <> Z.of_nat i) ->
     er_energy r = periodic_energy sigma eps (calculateVolume (cs_box s)) W L fs s (er_Q r)).
Proof. exact periodic_equilibrium. Qed.
Print Assumptions C40_periodic.
Theorem C40_periodic_minimum : forall solve hardness sigma fs eps s W L, exact_solver solve -> 0 < eps -> (forall e, 0 < sigma e) ->
  periodic_input s W L -> (0 < cnum s)%nat ->
  positive (cnum s) (J_of hardness s) (ewald_U sigma eps (calculateVolume (cs_box s)) W L s) ->
  exists fuel, forall fuel', (fuel <= fuel')%nat ->
  exists r, calculateElectrostaticEnergy solve fuel' W (element_parameters hardness sigma fs eps) s = Some r /\
    sumn (cnum s) (er_Q r) = cs_chargeRef s /\
    forall p, sumn (cnum s) p = cs_chargeRef s -> (exists i, (i < cnum s)%nat /\ p i <> er_Q r i) ->
    qeq_energy (cnum s) (chi_of s) (J_of hardness s) (ewald_U sigma eps (calculateVolume (cs_box s)) W L s) (er_Q r)
    < qeq_energy (cnum s) (chi_of s) (J_of hardness s) (ewald_U sigma eps (calculateVolume (cs_box s)) W L s) p.
Proof. exact periodic_minimum. Qed.
Print Assumptions C40_periodic_minimum.
Example C40_periodic_example : exists L, periodic_input ex_periodic ex_W L.
Proof. exact ex_periodic_input. Qed.

(** An atom with charge that sees its own image inside the screening radius:
    the reported energy is too low. *)
Theorem C40_own_image_lowers_energy : forall solve hardness sigma fs eps s W L k a b, exact_solver solve -> 0 < eps -> (forall e, 0 < sigma e) ->
  screening_config k a b = Some fs ->
  periodic_input s W L -> (forall i n, (i < cnum s)%nat -> In n (a_nbs (cna s i)) -> 0 < nb_d n) ->
  well_posed (cnum s) (J_of hardness s) (ewald_U sigma eps (calculateVolume (cs_box s)) W L s) ->
  forall fuel r, calculateElectrostaticEnergy solve fuel W (element_parameters hardness sigma fs eps) s = Some r ->
  forall i n, (i < cnum s)%nat -> er_Q r i <> 0 -> In n (neighbors_within (cna s i) (sc_outer fs)) -> nb_tag n = Z.of_nat i ->
  sc_f fs (nb_d n) < 1 ->
  er_energy r < periodic_energy sigma eps (calculateVolume (cs_box s)) W L fs s (er_Q r).
Proof. exact own_image_energy. Qed.
Print Assumptions C40_own_image_lowers_energy.
Theorem C40_own_images_refuted : exists hardness sigma eps s W L fs fuel r,
  periodic_input s W L /\ 0 < eps /\ (forall e, 0 < sigma e) /\ (forall e, 0 < hardness e) /\ cs_chargeRef s = 0 /\
  screening_config CK_POLY2 1 6 = Some fs /\
  well_posed (cnum s) (J_of hardness s) (ewald_U sigma eps (calculateVolume (cs_box s)) W L s) /\
  calculateElectrostaticEnergy gauss_solve fuel W (element_parameters hardness sigma fs eps) s = Some r /\
  er_energy r <> periodic_energy sigma eps (calculateVolume (cs_box s)) W L fs s (er_Q r).
Proof. exact own_images_refuted. Qed.
Print Assumptions C40_own_images_refuted.
