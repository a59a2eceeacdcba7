(** Properties C30, C31 and C33: preparing the symmetry functions of an
    element. *)
From Coq Require Import Reals ZArith Bool Arith Permutation Sorted.
From Coquelicot Require Import Coquelicot.
From Coq Require Import List.
From Verif Require Import Base.Vec3 Base.SumR Model.Scaling Model.NeighborList Model.SymFunctions Model.SymSetup
  Spec.SymSpec Spec.SetupSpec Proofs.UnitProofs Proofs.SetupProofs Proofs.SymExamples Proofs.SetupExamples.
Import ListNotations.
Local Open Scope R_scope.

(** ** C30 *)
(** The comparison used for sorting meets the requirement of std::sort. *)
Theorem C30_order : strict_weak_order (fun _ => True) sf_lt.
Proof. exact sf_lt_order. Qed.
Print Assumptions C30_order.

(** Sorting keeps the functions, numbers them 0, 1, 2, ... and the result does
    not depend on the order in which they were added (functions are told apart
    by the compared parameters). *)
Theorem C30_sorting : forall sort fs, sorts sf_lt sort ->
  let fs' := sortSymmetryFunctions sort fs in
  numbered fs' /\ length fs' = length fs /\ Permutation (map sf_kind fs) (map sf_kind fs') /\
  StronglySorted (fun f g => sf_lt g f = false) fs' /\
  forall sort' fs2, sorts sf_lt sort' -> Permutation fs fs2 ->
    map (fun f => sort_key (sf_kind f)) fs' = map (fun f => sort_key (sf_kind f)) (sortSymmetryFunctions sort' fs2).
Proof. exact sort_api. Qed.
Print Assumptions C30_sorting.

(** Each function is in exactly one group, no group is empty, the members of a
    group share the common parameters and functions of different groups do
    not. *)
Theorem C30_groups : forall gsort msort fs, (forall l, Permutation l (gsort l)) -> (forall l, Permutation l (msort l)) ->
  let gs := setupGroups gsort msort fs in
  Permutation fs (concat gs) /\
  (forall g, In g gs -> g <> []) /\
  (forall g x y, In g gs -> In x g -> In y g -> groupable (sf_kind x) (sf_kind y)) /\
  (forall i j g h x y, i <> j -> nth_error gs i = Some g -> nth_error gs j = Some h -> In x g -> In y h ->
     ~ groupable (sf_kind x) (sf_kind y)).
Proof. exact groups_partition. Qed.
Print Assumptions C30_groups.

Example C30_nonvacuous : sorts sf_lt (isort sf_lt) /\
  sortSymmetryFunctions (isort sf_lt) [ex_rad2; ex_rad] = [set_index 0 ex_rad; set_index 1 ex_rad2] /\
  setupGroups (fun l => l) (fun l => l) [ex_rad; ex_ang; ex_rad2] = [[ex_rad; ex_rad2]; [ex_ang]].
Proof. exact (conj isort_sorts (conj ex_sorted ex_groups)). Qed.

(** ** C31 *)
(** A change of the length unit succeeds, keeps the value for the same
    environment expressed in the new unit, and divides the stored derivatives
    by the factor. *)
Theorem C31_length_unit : forall Z f a conv, 0 < conv -> admissible (sf_kind f) -> good_list a -> no_slots f ->
  exists k', changeLengthUnit conv (sf_kind f) = Some k' /\ admissible k' /\
    (forall e, sf_value Z k' (scaled conv e) = sf_value Z (sf_kind f) e) /\
    forall a' deriv s, good_list a' -> env_of (a_nbs a') = scaled conv (env_of (a_nbs a)) ->
      evaluable (sf_kind f) (env_of (a_nbs a)) ->
      exists s1 s2, calculate Z f a deriv s = Some s1 /\ calculate Z (mkSF (sf_c f) k') a' deriv s = Some s2 /\
        (forall i, st_G s2 i = st_G s1 i) /\
        (deriv = true -> smooth_at (sf_kind f) (env_of (a_nbs a)) -> scaling_setup (sf_scaling (sf_c f)) ->
           forall l, vsub (st_D s2 l) (st_D s l) = smul (/ conv) (vsub (st_D s1 l) (st_D s l))).
Proof. exact units_api. Qed.
Print Assumptions C31_length_unit.

Example C31_nonvacuous : admissible (sf_kind ex_ang) /\ good_list ex_atom /\ good_list ex_atom2 /\ no_slots ex_ang /\
  env_of (a_nbs ex_atom2) = scaled 2 (env_of (a_nbs ex_atom)) /\
  smooth_at (sf_kind ex_ang) (env_of (a_nbs ex_atom)) /\ scaling_setup no_scaling.
Proof.
  exact (conj (proj1 ex_smooth_ang) (conj ex_good (conj ex_good2 (conj (ex_no_slots 1) (conj ex_atom2_scaled
        (conj (proj2 ex_smooth_ang) ex_scaling)))))).
Qed.

(** ** C33 *)
(** The table of an element lists, in increasing order, exactly the functions
    which depend on neighbours of that element; a function's index for the
    element is its position in the table (so it is within the allocated
    memory). *)
Theorem C33_tables : forall N fs fs' table nums, numbered fs -> setupMemory N fs = (fs', table, nums) ->
  length nums = N /\ length fs' = length fs /\
  (forall i, (i < N)%nat -> nth_error nums i = Some (length (table i)) /\ StronglySorted lt (table i) /\
     forall x, In x (table i) <-> exists f, nth_error fs x = Some f /\ depends (sf_kind f) i = true) /\
  forall j f, nth_error fs j = Some f -> exists f', nth_error fs' j = Some f' /\
    sf_kind f' = sf_kind f /\ sf_index (sf_c f') = sf_index (sf_c f) /\ sf_ci (sf_c f') = sf_ci (sf_c f) /\
    sf_scaling (sf_c f') = sf_scaling (sf_c f) /\
    forall i, (i < N)%nat -> depends (sf_kind f) i = true ->
      nth_error (table i) (sf_perElement (sf_c f') i) = Some j.
Proof. exact memory_tables. Qed.
Print Assumptions C33_tables.

(** With these tables the functions of an element do not disturb each other:
    after computing all of them each function's entries are its gradient. *)
Theorem C33_no_clash : forall Z N fs fs' table nums a, numbered fs -> setupMemory N fs = (fs', table, nums) ->
  good_list a -> (forall n, In n (a_nbs a) -> (nb_element n < N)%nat) ->
  (forall f, In f fs -> no_slots f /\ admissible (sf_kind f) /\ smooth_at (sf_kind f) (env_of (a_nbs a)) /\
                        scaling_setup (sf_scaling (sf_c f))) ->
  exists s, calculateAll Z fs' a true allocated = Some s /\
    forall f, In f fs' ->
      st_G s (sf_index (sf_c f)) = scale (sf_scaling (sf_c f)) (sf_value Z (sf_kind f) (env_of (a_nbs a))) /\
      forall u v, is_derive (fun t => scale (sf_scaling (sf_c f)) (sf_value Z (sf_kind f) (displace u v t (env_of (a_nbs a))))) 0
        (table_directional f (a_nbs a) (st_D s) u v).
Proof. exact memory_gradient. Qed.
Print Assumptions C33_no_clash.

Example C33_nonvacuous : numbered [ex_rad; ex_ang; ex_comp] /\
  (exists fs' table nums, setupMemory 2 [ex_rad; ex_ang; ex_comp] = (fs', table, nums) /\
     table 0%nat = [0;1;2]%nat /\ table 1%nat = [1;2]%nat /\ nums = [3;2]%nat) /\
  good_list ex_atom /\ (forall n, In n (a_nbs ex_atom) -> (nb_element n < 2)%nat) /\
  (forall f, In f [ex_rad; ex_ang; ex_comp] -> no_slots f /\ admissible (sf_kind f) /\
     smooth_at (sf_kind f) (env_of (a_nbs ex_atom)) /\ scaling_setup (sf_scaling (sf_c f))).
Proof. exact (conj ex_numbered (conj ex_memory (conj ex_good (conj ex_elements ex_smooth_all)))). Qed.
