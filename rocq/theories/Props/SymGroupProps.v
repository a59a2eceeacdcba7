(** Property C29: symmetry function groups. *)
From Coq Require Import Reals ZArith Bool Arith Permutation.
From Coquelicot Require Import Coquelicot.
From Coq Require Import List.
From Verif Require Import Base.Vec3 Base.SumR Model.Scaling Model.NeighborList Model.SymFunctions Model.SymCache
  Model.SymSetup Model.SymGroups Spec.SymSpec Spec.GroupSpec Proofs.SymExamples Proofs.GroupApi Proofs.GroupExamples.
Import ListNotations.
Local Open Scope R_scope.

(** ** C29 *)
(** For every list of functions with different indices, any scaling and any way
    of sorting groups and members, the groups can be set up, and evaluating
    them gives for every atom with a valid neighbour list exactly the values and
    derivatives of evaluating the functions one by one. *)
Theorem C29_groups_equal_individual_partial : forall Z a sc gsort msort fs,
  (forall l, Permutation l (gsort l)) -> (forall l, Permutation l (msort l)) ->
  good_list a -> NoDup (map (fun f => sf_index (sf_c f)) fs) ->
  (forall f, In f fs -> no_slots f /\ admissible (sf_kind f) /\ evaluable (sf_kind f) (env_of (a_nbs a)) /\
     groupable_parameters (scalingFactor (sc (sf_index (sf_c f)))) (sf_kind f) /\
     distinct_neighbors (sf_kind f) (env_of (a_nbs a))) ->
  (forall f h, In f fs -> In h fs -> same_radial_part (sf_kind f) (sf_kind h)) ->
  exists gs, setupSymmetryFunctionGroups gsort msort fs = Some gs /\
    forall deriv s, exists s1 s2,
      calculateAll Z (map (set_scaling sc) fs) a deriv s = Some s1 /\
      calculateGroups Z a deriv (map (set_group_scaling sc) gs) s = Some s2 /\
      (forall i, st_G s2 i = st_G s1 i) /\ (forall x, st_D s2 x = st_D s1 x).
Proof. exact groups_uncached. Qed.
Print Assumptions C29_groups_equal_individual_partial.

(** The same for groups of functions with cache slots, compared with individual
    evaluation without a cache. *)
Theorem C29_cached_groups_partial : forall T (T_dec : forall a b : T, {a = b} + {a <> b}) (fmt : R -> T) conv Z numElements a
    sc gsort msort fs fs' sizes,
  (forall l, Permutation l (gsort l)) -> (forall l, Permutation l (msort l)) ->
  conv <> 0 -> numbered fs -> (forall f, In f fs -> no_slots f) ->
  (forall f g x y, In f fs -> In g fs -> In x (printed conv (sf_kind f)) -> In y (printed conv (sf_kind g)) ->
     fmt x = fmt y -> x = y) ->
  setupCache (text T) (text_dec T_dec) (text_of T fmt conv) numElements fs = Some (fs', sizes) ->
  (forall f', In f' fs' -> group_both_cached (a_nbs a) f') -> good_list a ->
  (forall f, In f fs -> admissible (sf_kind f) /\ evaluable (sf_kind f) (env_of (a_nbs a)) /\
     groupable_parameters (scalingFactor (sc (sf_index (sf_c f)))) (sf_kind f) /\
     distinct_neighbors (sf_kind f) (env_of (a_nbs a))) ->
  (forall f h, In f fs -> In h fs -> same_radial_part (sf_kind f) (sf_kind h)) ->
  exists gs, setupSymmetryFunctionGroups gsort msort fs' = Some gs /\
    forall deriv s, fresh s -> exists s1 s2,
      calculateAll Z (map (set_scaling sc) fs) a deriv s = Some s1 /\
      calculateGroups Z a deriv (map (set_group_scaling sc) gs) s = Some s2 /\
      (forall i, st_G s2 i = st_G s1 i) /\ (forall x, st_D s2 x = st_D s1 x).
Proof. exact @groups_cached. Qed.
Print Assumptions C29_cached_groups_partial.

(** The groups of narrow compact angular functions reuse the radial function of
    the previous member if only the interval is the same: mixing two subtypes
    gives a wrong value, however the members are sorted. *)
Theorem C29_subtypes_refuted : exists fs a, good_list a /\ NoDup (map (fun f => sf_index (sf_c f)) fs) /\
  (forall f, In f fs -> no_slots f /\ admissible (sf_kind f) /\ evaluable (sf_kind f) (env_of (a_nbs a)) /\
     groupable_parameters 1 (sf_kind f)) /\
  forall gsort msort, (forall l, Permutation l (gsort l)) -> (forall l, Permutation l (msort l)) ->
  exists gs s1 s2, setupSymmetryFunctionGroups gsort msort fs = Some gs /\
    calculateAll (fun _ => 1) (map (set_scaling (fun _ => no_scaling)) fs) a false allocated = Some s1 /\
    calculateGroups (fun _ => 1) a false (map (set_group_scaling (fun _ => no_scaling)) gs) allocated = Some s2 /\
    exists i, st_G s2 i <> st_G s1 i.
Proof. exact subtypes_mixed. Qed.
Print Assumptions C29_subtypes_refuted.

(** A negative shift is ignored in groups of exponential angular functions. *)
Theorem C29_negative_shift_refuted : exists fs a, good_list a /\ NoDup (map (fun f => sf_index (sf_c f)) fs) /\
  (forall f, In f fs -> no_slots f /\ admissible (sf_kind f) /\ evaluable (sf_kind f) (env_of (a_nbs a))) /\
  forall gsort msort, (forall l, Permutation l (gsort l)) -> (forall l, Permutation l (msort l)) ->
  exists gs s1 s2, setupSymmetryFunctionGroups gsort msort fs = Some gs /\
    calculateAll (fun _ => 1) (map (set_scaling (fun _ => no_scaling)) fs) a false allocated = Some s1 /\
    calculateGroups (fun _ => 1) a false (map (set_group_scaling (fun _ => no_scaling)) gs) allocated = Some s2 /\
    st_G s2 0%nat <> st_G s1 0%nat.
Proof. exact negative_shift. Qed.
Print Assumptions C29_negative_shift_refuted.

(** Setting the scaling a second time changes the values of exponential angular
    groups (the factors accumulate), but not those of the functions. *)
Theorem C29_rescaled_refuted : exists fs a sc, good_list a /\ NoDup (map (fun f => sf_index (sf_c f)) fs) /\
  (forall f, In f fs -> no_slots f /\ admissible (sf_kind f) /\ evaluable (sf_kind f) (env_of (a_nbs a)) /\
     groupable_parameters (scalingFactor (sc (sf_index (sf_c f)))) (sf_kind f)) /\
  (forall i, exists ec s0 t l Smin Smax, setScalingType ec i s0 t l Smin Smax = Some (sc i)) /\
  forall gsort msort, (forall l, Permutation l (gsort l)) -> (forall l, Permutation l (msort l)) ->
  exists gs s1 s2, setupSymmetryFunctionGroups gsort msort fs = Some gs /\
    calculateAll (fun _ => 1) (map (set_scaling sc) (map (set_scaling sc) fs)) a false allocated = Some s1 /\
    calculateGroups (fun _ => 1) a false (map (set_group_scaling sc) (map (set_group_scaling sc) gs)) allocated = Some s2 /\
    st_G s2 0%nat <> st_G s1 0%nat.
Proof. exact set_scaling_twice. Qed.
Print Assumptions C29_rescaled_refuted.

Example C29_nonvacuous : good_list ex_atom /\ NoDup (map (fun f => sf_index (sf_c f)) ex_fs) /\
  (forall f, In f ex_fs -> no_slots f /\ admissible (sf_kind f) /\ evaluable (sf_kind f) (env_of (a_nbs ex_atom)) /\
     groupable_parameters (scalingFactor (ex_sc (sf_index (sf_c f)))) (sf_kind f) /\
     distinct_neighbors (sf_kind f) (env_of (a_nbs ex_atom))) /\
  (forall f h, In f ex_fs -> In h ex_fs -> same_radial_part (sf_kind f) (sf_kind h)).
Proof. exact ex_groupable. Qed.

Example C29_cached_nonvacuous : exists fs' sizes,
  setupCache (text R) (text_dec Req_EM_T) (text_of R (fun x => x) 1) 2 [ex_rad; ex_ang] = Some (fs', sizes) /\
  numbered [ex_rad; ex_ang] /\ (forall f, In f [ex_rad; ex_ang] -> no_slots f) /\
  (forall f', In f' fs' -> group_both_cached (a_nbs ex_atom) f') /\ good_list ex_atom /\
  (forall f, In f [ex_rad; ex_ang] -> admissible (sf_kind f) /\ evaluable (sf_kind f) (env_of (a_nbs ex_atom)) /\
     groupable_parameters (scalingFactor (ex_sc (sf_index (sf_c f)))) (sf_kind f) /\
     distinct_neighbors (sf_kind f) (env_of (a_nbs ex_atom))) /\
  (forall f h, In f [ex_rad; ex_ang] -> In h [ex_rad; ex_ang] -> same_radial_part (sf_kind f) (sf_kind h)) /\
  fresh allocated /\ calculateAll (fun _ => 1) fs' ex_atom true allocated = None.
Proof. exact ex_group_cached. Qed.
