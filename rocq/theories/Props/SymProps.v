(** Properties C26-C28 and C32: symmetry functions. *)
From Coq Require Import Reals ZArith Bool Arith Permutation.
From Coquelicot Require Import Coquelicot.
From Coq Require Import List.
From Verif Require Import Base.Vec3 Base.SumR Model.Scaling Model.NeighborList Model.SymFunctions Model.SymCache
  Spec.SymSpec Proofs.SymAll Proofs.SymApi Proofs.SymExamples.
Import ListNotations.
Local Open Scope R_scope.

(** ** C26 *)
(** Value and derivatives of a radial function.  calculate adds to the
    derivative tables; its contribution is the gradient with respect to
    arbitrary displacements u of the atom and v j of the neighbours, and no
    entries but the function's own are touched. *)
Theorem C26_radial_functions : forall Z f a deriv s, radial (sf_kind f) -> good_list a -> no_slots f ->
  admissible (sf_kind f) -> (forall n, In n (a_nbs a) -> nb_dr n <> vzero) ->
  exists s', calculate Z f a deriv s = Some s' /\
    st_G s' (sf_index (sf_c f)) = scale (sf_scaling (sf_c f)) (sf_value Z (sf_kind f) (env_of (a_nbs a))) /\
    (forall i, i <> sf_index (sf_c f) -> st_G s' i = st_G s i) /\
    (deriv = false -> forall l, st_D s' l = st_D s l) /\
    (forall l, st_D s' l <> st_D s l -> own_entry f (a_nbs a) l) /\
    (deriv = true -> smooth_at (sf_kind f) (env_of (a_nbs a)) -> scaling_setup (sf_scaling (sf_c f)) -> forall u v,
       is_derive (fun t => scale (sf_scaling (sf_c f)) (sf_value Z (sf_kind f) (displace u v t (env_of (a_nbs a))))) 0
         (directional (sf_c f) (a_nbs a) (fun l => vsub (st_D s' l) (st_D s l)) u v)).
Proof. exact radial_api. Qed.
Print Assumptions C26_radial_functions.

Example C26_nonvacuous : radial (sf_kind ex_rad) /\ good_list ex_atom /\ no_slots ex_rad /\
  (admissible (sf_kind ex_rad) /\ smooth_at (sf_kind ex_rad) (env_of (a_nbs ex_atom))) /\ scaling_setup no_scaling.
Proof. exact (conj I (conj ex_good (conj (ex_no_slots 0) (conj ex_smooth_rad ex_scaling)))). Qed.

(** ** C27 *)
(** The same for angular functions; the compact types need pairs of neighbours
    which are not collinear with the atom, and not exactly on the boundary of
    an exponential angular window. *)
Theorem C27_angular_functions_partial : forall Z f a deriv s, angular (sf_kind f) -> good_list a -> no_slots f ->
  admissible (sf_kind f) -> evaluable (sf_kind f) (env_of (a_nbs a)) ->
  exists s', calculate Z f a deriv s = Some s' /\
    st_G s' (sf_index (sf_c f)) = scale (sf_scaling (sf_c f)) (sf_value Z (sf_kind f) (env_of (a_nbs a))) /\
    (forall i, i <> sf_index (sf_c f) -> st_G s' i = st_G s i) /\
    (deriv = false -> forall l, st_D s' l = st_D s l) /\
    (forall l, st_D s' l <> st_D s l -> own_entry f (a_nbs a) l) /\
    (deriv = true -> smooth_at (sf_kind f) (env_of (a_nbs a)) -> scaling_setup (sf_scaling (sf_c f)) -> forall u v,
       is_derive (fun t => scale (sf_scaling (sf_c f)) (sf_value Z (sf_kind f) (displace u v t (env_of (a_nbs a))))) 0
         (directional (sf_c f) (a_nbs a) (fun l => vsub (st_D s' l) (st_D s l)) u v)).
Proof. exact angular_api. Qed.
Print Assumptions C27_angular_functions_partial.

(** Collinear neighbours are skipped, although an angular window centred at 0
    is allowed and has its maximum there. *)
Theorem C27_collinear_refuted : exists f a s, admissible (sf_kind f) /\ good_list a /\ no_slots f /\
    (forall n, In n (env_of (a_nbs a)) -> snd n <> vzero) /\ sf_scaling (sf_c f) = no_scaling /\
    sf_value (fun _ => 1) (sf_kind f) (env_of (a_nbs a)) = 1/2 /\
    calculate (fun _ => 1) f a true allocated = Some s /\ st_G s (sf_index (sf_c f)) = 0.
Proof. exact collinear. Qed.
Print Assumptions C27_collinear_refuted.

Example C27_nonvacuous : angular (sf_kind ex_ang) /\ angular (sf_kind ex_comp) /\ good_list ex_atom /\
  no_slots ex_ang /\ no_slots ex_comp /\
  (admissible (sf_kind ex_ang) /\ smooth_at (sf_kind ex_ang) (env_of (a_nbs ex_atom))) /\
  (admissible (sf_kind ex_comp) /\ smooth_at (sf_kind ex_comp) (env_of (a_nbs ex_atom))) /\ scaling_setup no_scaling.
Proof.
  exact (conj (fun x => x) (conj (fun x => x) (conj ex_good (conj (ex_no_slots 1) (conj (ex_no_slots 2)
   (conj ex_smooth_ang (conj ex_smooth_comp ex_scaling))))))).
Qed.

(** ** C28 *)
Theorem C28_neighbor_order : forall Z fs a a', good_list a -> good_list a' -> (forall f, In f fs -> no_slots f) ->
  Permutation (env_of (a_nbs a)) (env_of (a_nbs a')) ->
  (forall f, In f fs -> admissible (sf_kind f) /\ evaluable (sf_kind f) (env_of (a_nbs a))) ->
  forall d d' s s', (forall i, st_G s i = st_G s' i) -> exists s1 s2,
    calculateAll Z fs a d s = Some s1 /\ calculateAll Z fs a' d' s' = Some s2 /\
    forall i, st_G s1 i = st_G s2 i.
Proof. exact values_permuted. Qed.
Print Assumptions C28_neighbor_order.

(** Translations, rotations and reflections of the atom and its neighbours ps
    (elements and positions). *)
Theorem C28_rigid_motion : forall Z fs a a' g c ps, good_list a -> good_list a' -> (forall f, In f fs -> no_slots f) ->
  isometry g -> Permutation (env_of (a_nbs a)) (env_at c ps) ->
  Permutation (env_of (a_nbs a')) (env_at (g c) (moved g ps)) ->
  (forall f, In f fs -> admissible (sf_kind f) /\ evaluable (sf_kind f) (env_of (a_nbs a))) ->
  forall d d' s s', (forall i, st_G s i = st_G s' i) -> exists s1 s2,
    calculateAll Z fs a d s = Some s1 /\ calculateAll Z fs a' d' s' = Some s2 /\
    forall i, st_G s1 i = st_G s2 i.
Proof. exact values_moved. Qed.
Print Assumptions C28_rigid_motion.

Theorem C28_derivatives_cancel : forall Z f a s, good_list a -> no_slots f -> admissible (sf_kind f) ->
  evaluable (sf_kind f) (env_of (a_nbs a)) ->
  exists s', calculate Z f a true s = Some s' /\
    derivative_sum (sf_c f) (a_nbs a) (fun l => vsub (st_D s' l) (st_D s l)) = vzero.
Proof. exact derivatives_cancel. Qed.
Print Assumptions C28_derivatives_cancel.

Example C28_nonvacuous : isometry ex_motion /\ good_list ex_atom /\
  (forall f, In f [ex_rad; ex_ang; ex_comp] -> no_slots f) /\
  forall f, In f [ex_rad; ex_ang; ex_comp] -> admissible (sf_kind f) /\ evaluable (sf_kind f) (env_of (a_nbs ex_atom)).
Proof. exact (conj ex_isometry (conj ex_good ex_all)). Qed.

(** ** C32 *)
(** Caching does not change any value or derivative, whichever functions are
    evaluated in whichever order, provided that different numbers have different
    texts and that no exponential angular function has slots for only some of its
    elements present. *)
Theorem C32_cache_transparent_partial : forall T (T_dec : forall a b : T, {a = b} + {a <> b}) (fmt : R -> T) conv Z numElements a
    fs fs' sizes sel gs' gs,
  conv <> 0 -> numbered fs -> (forall f, In f fs -> no_slots f) ->
  (forall f g x y, In f fs -> In g fs -> In x (printed conv (sf_kind f)) -> In y (printed conv (sf_kind g)) ->
     fmt x = fmt y -> x = y) ->
  setupCache (text T) (text_dec T_dec) (text_of T fmt conv) numElements fs = Some (fs', sizes) ->
  (forall f', In f' fs' -> both_cached (a_nbs a) f') -> good_list a ->
  (forall f, In f fs -> admissible (sf_kind f) /\ evaluable (sf_kind f) (env_of (a_nbs a))) ->
  Forall2 (fun j f' => nth_error fs' j = Some f') sel gs' ->
  Forall2 (fun j f => nth_error fs j = Some f) sel gs ->
  forall deriv s, fresh s -> exists s1 s2,
    calculateAll Z gs' a deriv s = Some s1 /\ calculateAll Z gs a deriv s = Some s2 /\
    (forall i, st_G s1 i = st_G s2 i) /\ (forall l, st_D s1 l = st_D s2 l).
Proof. exact @cache_transparent_text. Qed.
Print Assumptions C32_cache_transparent_partial.

(** Set-up always succeeds, gives each function no slots or two, within the
    allocated size, shares them only between functions with the same text, and
    every slot is shared. *)
Theorem C32_slots : forall K (K_dec : forall a b : K, {a = b} + {a <> b}) (key : symfnc -> K) numElements fs,
  numbered fs -> (forall f, In f fs -> no_slots f) ->
  exists fs' sizes, setupCache K K_dec key numElements fs = Some (fs', sizes) /\
    Forall2 same_function fs' fs /\
    (forall f' e, In f' fs' -> sf_ci (sf_c f') e = [] \/ exists c0 c1, sf_ci (sf_c f') e = [c0; c1] /\
         (c0 < sizes e)%nat /\ (c1 < sizes e)%nat /\ c0 <> c1) /\
    (forall i j f f' g g' e c, nth_error fs i = Some f -> nth_error fs' i = Some f' ->
       nth_error fs j = Some g -> nth_error fs' j = Some g' ->
       In c (sf_ci (sf_c f') e) -> In c (sf_ci (sf_c g') e) ->
       key f = key g /\ sf_ci (sf_c f') e = sf_ci (sf_c g') e) /\
    (forall e c, (e < numElements)%nat -> (c < sizes e)%nat -> exists i j f' g', i <> j /\
       nth_error fs' i = Some f' /\ nth_error fs' j = Some g' /\
       In c (sf_ci (sf_c f') e) /\ In c (sf_ci (sf_c g') e)).
Proof. exact cache_slots. Qed.
Print Assumptions C32_slots.

(** An exponential angular function with slots for one of its elements only
    accesses an empty index list, even if texts are exact. *)
Theorem C32_wrong_element_refuted : exists fs a fs' sizes s,
  numbered fs /\ (forall f, In f fs -> no_slots f) /\ good_list a /\
  (forall f, In f fs -> admissible (sf_kind f) /\ evaluable (sf_kind f) (env_of (a_nbs a))) /\
  setupCache (text R) (text_dec Req_EM_T) (text_of R (fun x => x) 1) 2 fs = Some (fs', sizes) /\
  calculateAll (fun _ => 1) fs a true allocated = Some s /\
  calculateAll (fun _ => 1) fs' a true allocated = None.
Proof. exact wrong_element. Qed.
Print Assumptions C32_wrong_element_refuted.

(** Two functions whose cutoff radii agree in the nine printed digits get each
    other's values. *)
Theorem C32_same_digits_refuted : exists fs a fs' sizes s s',
  numbered fs /\ (forall f, In f fs -> no_slots f) /\ good_list a /\
  (forall f, In f fs -> admissible (sf_kind f) /\ evaluable (sf_kind f) (env_of (a_nbs a))) /\
  setupCache (text Z) (text_dec Z.eq_dec) (text_of Z digits 1) 1 fs = Some (fs', sizes) /\
  calculateAll (fun _ => 1) fs a false allocated = Some s /\
  calculateAll (fun _ => 1) fs' a false allocated = Some s' /\ st_G s 1%nat <> st_G s' 1%nat.
Proof. exact same_digits. Qed.
Print Assumptions C32_same_digits_refuted.

Example C32_nonvacuous : exists fs' sizes, setupCache (text R) (text_dec Req_EM_T) (text_of R (fun x => x) 1) 2 [ex_rad; ex_rad2] = Some (fs', sizes) /\
  sizes 0%nat = 2%nat /\
  (forall f', In f' fs' -> both_cached (a_nbs ex_atom) f') /\ numbered [ex_rad; ex_rad2] /\ (forall f, In f [ex_rad; ex_rad2] -> no_slots f) /\
  (forall f, In f [ex_rad; ex_rad2] -> admissible (sf_kind f) /\ evaluable (sf_kind f) (env_of (a_nbs ex_atom))) /\
  good_list ex_atom /\ fresh allocated.
Proof. exact ex_shared. Qed.
