(** Properties C34 and C35: energies and forces of a short-range potential. *)
From Coq Require Import Reals ZArith Bool Arith Permutation Sorted.
From Coquelicot Require Import Coquelicot.
From Coq Require Import List.
From Verif Require Import Base.Vec3 Base.SumR Model.NeuralNetwork Model.Scaling Model.NeighborList Model.SymFunctions Model.SymCache Model.SymSetup Model.SymGroups Model.Forces Model.GroupEvaluation
  Spec.NetworkSpec Spec.GeometrySpec Spec.NeighborSpec Spec.SymSpec Spec.SetupSpec Spec.GroupSpec Spec.ForceSpec Spec.EvaluationSpec
  Proofs.SymExamples Proofs.ForceLocal Proofs.ForceProofs Proofs.ForceExamples Proofs.GroupForces Proofs.GroupForceExamples.
Import ListNotations.
Local Open Scope R_scope.

(** ** C34 *)
(** The energy of a structure is well defined ... *)
Theorem C34_energy_defined : forall P rc s, (s_periodic s = true -> det (s_box s) <> 0) ->
  (exists E, has_energy P rc s E) /\ forall E E', has_energy P rc s E -> has_energy P rc s E' -> E = E'.
Proof. intros P rc s H. exact (conj (energy_exists P rc s H) (energy_unique P rc s)). Qed.
Print Assumptions C34_energy_defined.

(** ... and is what the evaluation returns. *)
Theorem C34_energy_evaluated : forall N rc P s nsort fuel s',
  sensible N rc P -> 0 <= rc -> s_numElements s = N -> unprocessed rc s -> is_sort nsort ->
  calculateNeighborList nsort fuel rc false s = Some s' -> everywhere P rc s evaluable ->
  exists E ys, evaluateNNP nsort fuel (p_weight P) (setupMemoryAll N (map (p_fs P) (seq 0 N))) (p_net P) rc s = Some (E, ys) /\
    has_energy P rc s E /\ (forall E', has_energy P rc s E' -> E' = E) /\ E = rsum (map e_energy ys).
Proof. exact energy_evaluated. Qed.
Print Assumptions C34_energy_evaluated.

(** The forces are the negative gradient of this energy in every direction of
    the space of all positions.  Missing for the full claim: structures in which
    an atom sees its own images and angular functions are used, where it is
    false, see below. *)
Theorem C34_forces_are_negative_gradient_partial : forall N rc P s nsort fuel s',
  sensible N rc P -> 0 <= rc -> s_numElements s = N -> unprocessed rc s -> is_sort nsort ->
  calculateNeighborList nsort fuel rc false s = Some s' -> everywhere P rc s smooth_at -> regular_networks P rc s ->
  (no_self_image s rc \/ forall e f, In f (p_fs P e) -> radial (sf_kind f)) ->
  exists E ys, evaluateNNP nsort fuel (p_weight P) (setupMemoryAll N (map (p_fs P) (seq 0 N))) (p_net P) rc s = Some (E, ys) /\
    has_energy P rc s E /\ length ys = length (s_atoms s) /\
    forall u Ef, (forall t, has_energy P rc (displaced u t s) (Ef t)) ->
       is_derive Ef 0 (- rsum (map (fun iy => dot (e_f (snd iy)) (u (fst iy))) (List.combine (seq 0 (length ys)) ys))).
Proof. exact forces_gradient. Qed.
Print Assumptions C34_forces_are_negative_gradient_partial.

(** Derivatives with respect to an atom's own images are left out of its force
    (Mode.cpp:1886 starts behind the atom itself): forces are wrong in small
    cells. *)
Theorem C34_own_images_refuted : exists P rc s nsort fuel E ys u Ef, sensible 2 rc P /\ unprocessed rc s /\ is_sort nsort /\ everywhere P rc s smooth_at /\ regular_networks P rc s /\
  evaluateNNP nsort fuel (p_weight P) (setupMemoryAll 2 (map (p_fs P) (seq 0 2))) (p_net P) rc s = Some (E, ys) /\
  (forall t, has_energy P rc (displaced u t s) (Ef t)) /\
  ~ is_derive Ef 0 (- rsum (map (fun iy => dot (e_f (snd iy)) (u (fst iy))) (List.combine (seq 0 (length ys)) ys))).
Proof. exact own_images_gradient. Qed.
Print Assumptions C34_own_images_refuted.

Example C34_nonvacuous : sensible 2 chain_rc (chain_pot chain_ang 1) /\ unprocessed chain_rc three /\
  (exists nsort fuel s', is_sort nsort /\ calculateNeighborList nsort fuel chain_rc false three = Some s') /\
  everywhere (chain_pot chain_ang 1) chain_rc three smooth_at /\ regular_networks (chain_pot chain_ang 1) chain_rc three /\ no_self_image three chain_rc /\
  in_range three chain_rc 0 1 (0, 0, 0)%Z /\ in_range three chain_rc 0 2 (0, 0, 0)%Z.
Proof. exact three_ok. Qed.

(** The same for the evaluation of the default build, with cache and groups
    ([setupAll], [setupScaling]: memory, cache, groups and scaling are set up from
    the bare functions of the potential; the text of cutoff function parameters
    is what [fmt] makes of them). *)
Theorem C34_default_energy_evaluated : forall T (T_dec : forall x y : T, {x = y} + {x <> y}) fmt conv gsort msort N rc P sc s nsort fuel s',
  (forall l, Permutation l (gsort l)) -> (forall l, Permutation l (msort l)) -> conv <> 0 ->
  sensible N rc (scaled_potential sc P) -> cached_and_grouped (text_of T fmt conv) fmt conv sc N P -> 0 <= rc -> s_numElements s = N -> unprocessed rc s -> is_sort nsort ->
  calculateNeighborList nsort fuel rc false s = Some s' -> everywhere (scaled_potential sc P) rc s evaluable -> everywhere (scaled_potential sc P) rc s distinct_neighbors ->
  exists es E ys, setupAll (text T) (text_dec T_dec) (text_of T fmt conv) gsort msort N true (map (p_fs P) (seq 0 N)) = Some es /\
    evaluateGroups nsort fuel (p_weight P) (setupScaling sc es) (p_net P) rc s = Some (E, ys) /\
    has_energy (scaled_potential sc P) rc s E /\ (forall E', has_energy (scaled_potential sc P) rc s E' -> E' = E) /\ E = rsum (map e_energy ys).
Proof. exact grouped_energy. Qed.
Print Assumptions C34_default_energy_evaluated.

Theorem C34_default_forces_are_negative_gradient_partial : forall T (T_dec : forall x y : T, {x = y} + {x <> y}) fmt conv gsort msort N rc P sc s nsort fuel s',
  (forall l, Permutation l (gsort l)) -> (forall l, Permutation l (msort l)) -> conv <> 0 ->
  sensible N rc (scaled_potential sc P) -> cached_and_grouped (text_of T fmt conv) fmt conv sc N P -> 0 <= rc -> s_numElements s = N -> unprocessed rc s -> is_sort nsort ->
  calculateNeighborList nsort fuel rc false s = Some s' -> everywhere (scaled_potential sc P) rc s smooth_at -> regular_networks (scaled_potential sc P) rc s ->
  (no_self_image s rc \/ forall e f, In f (p_fs P e) -> radial (sf_kind f)) ->
  exists es E ys, setupAll (text T) (text_dec T_dec) (text_of T fmt conv) gsort msort N true (map (p_fs P) (seq 0 N)) = Some es /\
    evaluateGroups nsort fuel (p_weight P) (setupScaling sc es) (p_net P) rc s = Some (E, ys) /\
    has_energy (scaled_potential sc P) rc s E /\ length ys = length (s_atoms s) /\
    forall u Ef, (forall t, has_energy (scaled_potential sc P) rc (displaced u t s) (Ef t)) ->
       is_derive Ef 0 (- rsum (map (fun iy => dot (e_f (snd iy)) (u (fst iy))) (List.combine (seq 0 (length ys)) ys))).
Proof. exact grouped_gradient. Qed.
Print Assumptions C34_default_forces_are_negative_gradient_partial.

(** Compiled with N2P2_NO_SF_GROUPS no groups are set up, but the evaluation
    looks for a macro of another name and uses them: the energy is wrong. *)
Theorem C34_groups_option_refuted : exists P rc s nsort fuel es E ys E', sensible 2 rc P /\ unprocessed rc s /\ is_sort nsort /\
  everywhere P rc s smooth_at /\ regular_networks P rc s /\ no_self_image s rc /\
  cached_and_grouped (text_of R (fun x => x) 1) (fun x => x) 1 (fun _ _ => no_scaling) 2 P /\
  setupAll (text R) (text_dec Req_EM_T) (text_of R (fun x => x) 1) (fun l => l) (fun l => l) 2 false (map (p_fs P) (seq 0 2)) = Some es /\
  evaluateGroups nsort fuel (p_weight P) (setupScaling (fun _ _ => no_scaling) es) (p_net P) rc s = Some (E, ys) /\
  has_energy P rc s E' /\ E <> E'.
Proof. exact no_groups. Qed.
Print Assumptions C34_groups_option_refuted.

Example C34_default_nonvacuous : sensible 2 chain_rc (scaled_potential duo_sc duo) /\ cached_and_grouped (text_of R (fun x => x) 1) (fun x => x) 1 duo_sc 2 duo /\
  unprocessed chain_rc three /\
  (exists nsort fuel s', is_sort nsort /\ calculateNeighborList nsort fuel chain_rc false three = Some s') /\
  everywhere (scaled_potential duo_sc duo) chain_rc three smooth_at /\ everywhere (scaled_potential duo_sc duo) chain_rc three distinct_neighbors /\
  regular_networks (scaled_potential duo_sc duo) chain_rc three /\
  no_self_image three chain_rc /\ in_range three chain_rc 0 1 (0, 0, 0)%Z /\ in_range three chain_rc 0 2 (0, 0, 0)%Z /\
  cutoff_shared (text_of R (fun x => x) 1) (p_fs duo 0%nat) duo_ang 0.
Proof. exact duo_ok. Qed.

(** ** C35 *)
Theorem C35_forces_sum_to_zero_partial : forall N rc P s nsort fuel s',
  sensible N rc P -> 0 <= rc -> s_numElements s = N -> unprocessed rc s -> is_sort nsort ->
  calculateNeighborList nsort fuel rc false s = Some s' -> everywhere P rc s evaluable ->
  (no_self_image s rc \/ forall e f, In f (p_fs P e) -> radial (sf_kind f)) ->
  exists E ys, evaluateNNP nsort fuel (p_weight P) (setupMemoryAll N (map (p_fs P) (seq 0 N))) (p_net P) rc s = Some (E, ys) /\
    forall w, rsum (map (fun y => dot (e_f y) w) ys) = 0.
Proof. exact forces_balanced. Qed.
Print Assumptions C35_forces_sum_to_zero_partial.

Theorem C35_default_forces_sum_to_zero_partial : forall T (T_dec : forall x y : T, {x = y} + {x <> y}) fmt conv gsort msort N rc P sc s nsort fuel s',
  (forall l, Permutation l (gsort l)) -> (forall l, Permutation l (msort l)) -> conv <> 0 ->
  sensible N rc (scaled_potential sc P) -> cached_and_grouped (text_of T fmt conv) fmt conv sc N P -> 0 <= rc -> s_numElements s = N -> unprocessed rc s -> is_sort nsort ->
  calculateNeighborList nsort fuel rc false s = Some s' -> everywhere (scaled_potential sc P) rc s evaluable -> everywhere (scaled_potential sc P) rc s distinct_neighbors ->
  (no_self_image s rc \/ forall e f, In f (p_fs P e) -> radial (sf_kind f)) ->
  exists es E ys, setupAll (text T) (text_dec T_dec) (text_of T fmt conv) gsort msort N true (map (p_fs P) (seq 0 N)) = Some es /\
    evaluateGroups nsort fuel (p_weight P) (setupScaling sc es) (p_net P) rc s = Some (E, ys) /\
    forall w, rsum (map (fun y => dot (e_f y) w) ys) = 0.
Proof. exact grouped_balanced. Qed.
Print Assumptions C35_default_forces_sum_to_zero_partial.

Theorem C35_own_images_refuted : exists P rc s nsort fuel E ys w, sensible 2 rc P /\ unprocessed rc s /\ is_sort nsort /\ everywhere P rc s smooth_at /\ regular_networks P rc s /\
  evaluateNNP nsort fuel (p_weight P) (setupMemoryAll 2 (map (p_fs P) (seq 0 2))) (p_net P) rc s = Some (E, ys) /\
  rsum (map (fun y => dot (e_f y) w) ys) <> 0.
Proof. exact own_images_total. Qed.
Print Assumptions C35_own_images_refuted.

Example C35_nonvacuous : sensible 2 chain_rc (chain_pot chain_rad 1) /\ unprocessed chain_rc chain /\
  (exists nsort fuel s', is_sort nsort /\ calculateNeighborList nsort fuel chain_rc false chain = Some s') /\
  everywhere (chain_pot chain_rad 1) chain_rc chain smooth_at /\ regular_networks (chain_pot chain_rad 1) chain_rc chain /\
  (forall e f, In f (p_fs (chain_pot chain_rad 1) e) -> radial (sf_kind f)) /\ in_range chain chain_rc 0 0 (1, 0, 0)%Z.
Proof. exact chain_ok. Qed.
