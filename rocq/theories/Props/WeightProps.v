(** C71: the derivatives of energies and forces with respect to weights and biases which the training code calculates are the
    derivatives of what the potential predicts. *)
From Coq Require Import Reals List Arith ZArith Permutation String.
From Verif Require Import Base.Vec3 Base.SumR Model.Strings Model.NeuralNetwork Model.Scaling Model.NeighborList Model.SymFunctions Model.SymCache Model.SymGroups
  Model.Forces Model.GroupEvaluation Model.UpdatePlan Model.WeightDerivatives
  Spec.GeometrySpec Spec.NeighborSpec Spec.SymSpec Spec.GroupSpec Spec.ForceSpec Spec.EvaluationSpec Spec.UpdatePlanSpec Spec.WeightSpec
  Proofs.GroupApi Proofs.ForceExamples Proofs.GroupForceExamples Proofs.WeightOwn Proofs.WeightForms.
Import ListNotations.
Local Open Scope R_scope.

(** ** Without groups (N2P2_NO_SF_GROUPS) *)
Theorem C71_energy_derivatives : forall N rc P nsort fuel, sensible N rc P -> 0 <= rc -> is_sort nsort -> one_output N P ->
  forall s nets, trainable N P rc nsort fuel s -> networks_of N P nets ->
  exists xs nets' row, prepared nsort fuel (p_weight P) (setupMemoryAll N (map (p_fs P) (seq 0 N))) rc s = Some xs /\
    dPdc (lit "energy") (setupMemoryAll N (map (p_fs P) (seq 0 N))) nets xs = Some (nets', [row]) /\
    networks_of N P nets' /\ List.length row = first_parameter P N /\
    forall e p, (e < N)%nat -> (p < numConnections (p_net P e))%nat ->
      parameter_derivative (plain_evaluation N nsort fuel rc s) P Energy e p (nth (first_parameter P e + p) row 0).
Proof. exact plain_energy. Qed.
Print Assumptions C71_energy_derivatives.

(** Partial: not if atoms see own images and functions are angular. *)
Theorem C71_force_derivatives_partial : forall N rc P nsort fuel, sensible N rc P -> 0 <= rc -> is_sort nsort -> one_output N P ->
  forall s nets, trainable N P rc nsort fuel s -> networks_of N P nets ->
  (no_self_image s rc \/ forall e f, In f (p_fs P e) -> radial (sf_kind f)) ->
  exists xs nets' rows, prepared nsort fuel (p_weight P) (setupMemoryAll N (map (p_fs P) (seq 0 N))) rc s = Some xs /\
    dPdc (lit "force") (setupMemoryAll N (map (p_fs P) (seq 0 N))) nets xs = Some (nets', rows) /\
    networks_of N P nets' /\ List.length rows = (3 * List.length (s_atoms s))%nat /\
    forall a c, (a < List.length (s_atoms s))%nat -> (c < 3)%nat -> exists row, nth_error rows (3 * a + c) = Some row /\
      List.length row = first_parameter P N /\
      forall e p, (e < N)%nat -> (p < numConnections (p_net P e))%nat ->
        parameter_derivative (plain_evaluation N nsort fuel rc s) P (Force a c) e p (nth (first_parameter P e + p) row 0).
Proof. exact plain_force. Qed.
Print Assumptions C71_force_derivatives_partial.

(** Force weights are wrong if atoms see own images: the derivatives include the part of the force which the prediction drops. *)
Theorem C71_own_images_refuted : exists N P rc s nsort fuel nets xs nets' rows a c row e p,
  sensible N rc P /\ 0 <= rc /\ is_sort nsort /\ one_output N P /\ trainable N P rc nsort fuel s /\ networks_of N P nets /\
  prepared nsort fuel (p_weight P) (setupMemoryAll N (map (p_fs P) (seq 0 N))) rc s = Some xs /\
  dPdc (lit "force") (setupMemoryAll N (map (p_fs P) (seq 0 N))) nets xs = Some (nets', rows) /\
  quantity_of s (Force a c) /\ nth_error rows (3 * a + c) = Some row /\ (e < N)%nat /\ (p < numConnections (p_net P e))%nat /\
  ~ parameter_derivative (plain_evaluation N nsort fuel rc s) P (Force a c) e p (nth (first_parameter P e + p) row 0).
Proof. exact own_images_weights. Qed.
Print Assumptions C71_own_images_refuted.

(** In every structure the rows of all atoms add up to zero. *)
Theorem C71_force_derivatives_balance : forall N rc P s nsort fuel, sensible N rc P -> 0 <= rc -> is_sort nsort -> one_output N P ->
  trainable N P rc nsort fuel s -> forall nets, networks_of N P nets ->
  exists xs nets' rows, prepared nsort fuel (p_weight P) (setupMemoryAll N (map (p_fs P) (seq 0 N))) rc s = Some xs /\
    dPdc (lit "force") (setupMemoryAll N (map (p_fs P) (seq 0 N))) nets xs = Some (nets', rows) /\
    List.length rows = (3 * List.length (s_atoms s))%nat /\
    (forall a c, (a < List.length (s_atoms s))%nat -> (c < 3)%nat -> exists row, nth_error rows (3 * a + c) = Some row) /\
    forall c e p, (c < 3)%nat -> (e < N)%nat -> (p < numConnections (p_net P e))%nat ->
      sumn (List.length (s_atoms s)) (fun a => nth (first_parameter P e + p) (nth (3 * a + c) rows []) 0) = 0.
Proof. exact rows_balance. Qed.
Print Assumptions C71_force_derivatives_balance.

(** calculateWeightDerivatives: one array per element. *)
Theorem C71_weight_derivatives_partial : forall N rc P nsort fuel, sensible N rc P -> 0 <= rc -> is_sort nsort -> one_output N P ->
  forall s q nets, trainable N P rc nsort fuel s -> networks_of N P nets -> quantity_of s q -> force_complete P rc s q ->
  exists xs nets' rows, prepared nsort fuel (p_weight P) (setupMemoryAll N (map (p_fs P) (seq 0 N))) rc s = Some xs /\
    calculateWeightDerivatives q (setupMemoryAll N (map (p_fs P) (seq 0 N))) nets xs = Some (nets', rows) /\
    networks_of N P nets' /\ List.length rows = N /\
    forall e, (e < N)%nat -> exists row, nth_error rows e = Some row /\ List.length row = numConnections (p_net P e) /\
      forall p, (p < numConnections (p_net P e))%nat -> parameter_derivative (plain_evaluation N nsort fuel rc s) P q e p (nth p row 0).
Proof. exact plain_weights. Qed.
Print Assumptions C71_weight_derivatives_partial.

(** The Jacobian which the updater receives: in each row, for each weight and bias, the derivatives of the row's candidates. *)
Theorem C71_jacobian_partial : forall N rc P nsort fuel, sensible N rc P -> 0 <= rc -> is_sort nsort -> one_output N P ->
  forall y procs nets,
  l_hardness y = false -> l_conn y = map (fun e => numConnections (p_net P e)) (seq 0 N) -> l_batch y = map (@List.length _) procs ->
  (forall r, (r < List.length procs)%nat -> networks_of N P (nets r)) ->
  (forall r s q, (r < List.length procs)%nat -> In (s, q) (nth r procs []) -> trainable N P rc nsort fuel s /\ quantity_of s q /\ force_complete P rc s q) ->
  exists js d, List.length js = List.length procs /\
    (forall r, (r < List.length procs)%nat ->
       processContributions (prepared nsort fuel (p_weight P) (setupMemoryAll N (map (p_fs P) (seq 0 N))) rc)
         (setupMemoryAll N (map (p_fs P) (seq 0 N))) (nets r) (nth r procs []) = Some (nth r js [])) /\
    (forall r b s q e p, (r < List.length procs)%nat -> nth_error (nth r procs []) b = Some (s, q) -> (e < N)%nat -> (p < numConnections (p_net P e))%nat ->
       parameter_derivative (plain_evaluation N nsort fuel rc s) P q e p (d r b e p)) /\
    forall w h e, holder y h -> (e < N)%nat -> exists a, updateJacobian y w js h (updater y e) = Some a /\
      List.length a = (rows y * width y (updater y e))%nat /\
      forall k p, (k < rows y)%nat -> (p < numConnections (p_net P e))%nat ->
        nth (k * width y (updater y e) + position y e p) a 0 =
        w * rsum (map (fun r => rsum (map (fun b => d r b e p) (filter (fun b => Nat.eqb (row y r b) k) (seq 0 (List.length (nth r procs []))))))
                      (seq 0 (List.length procs))).
Proof. exact plain_jacobian. Qed.
Print Assumptions C71_jacobian_partial.

(** Every parameter can be varied: the potentials and predictions which [parameter_derivative] speaks about exist. *)
Theorem C71_parameters_vary : forall N rc P nsort fuel, sensible N rc P -> 0 <= rc -> is_sort nsort ->
  forall s q e p, trainable N P rc nsort fuel s -> (e < N)%nat -> quantity_of s q ->
  exists w Pt f, tuned P e p w P /\ (forall t, tuned P e p t (Pt t)) /\ forall t, value_in q (plain_evaluation N nsort fuel rc s (Pt t)) (f t).
Proof. exact WeightFinal.plain_vary. Qed.
Print Assumptions C71_parameters_vary.

Example C71_nonvacuous : sensible 2 chain_rc (chain_pot chain_ang 1) /\ one_output 2 (chain_pot chain_ang 1) /\ no_self_image three chain_rc /\
  in_range three chain_rc 0 1 (0, 0, 0)%Z /\ in_range three chain_rc 0 2 (0, 0, 0)%Z /\ (0 < numConnections (p_net (chain_pot chain_ang 1) 0))%nat /\
  exists nsort fuel, is_sort nsort /\ trainable 2 (chain_pot chain_ang 1) chain_rc nsort fuel three.
Proof. exact three_trainable. Qed.
Example C71_jacobian_nonvacuous : l_hardness three_layout = false /\
  l_conn three_layout = map (fun e => numConnections (p_net (chain_pot chain_ang 1) e)) (seq 0 2) /\
  l_batch three_layout = map (@List.length _) three_procs /\ holder three_layout 0 /\ rows three_layout = 3%nat /\
  exists nsort fuel, is_sort nsort /\ forall r s q, (r < List.length three_procs)%nat -> In (s, q) (nth r three_procs []) ->
    trainable 2 (chain_pot chain_ang 1) chain_rc nsort fuel s /\ quantity_of s q /\ force_complete (chain_pot chain_ang 1) chain_rc s q.
Proof. exact three_jacobian. Qed.

(** ** Default build: memory, cache and groups *)
Theorem C71_default_derivatives_partial : forall T (T_dec : forall x y : T, {x = y} + {x <> y}) fmt conv gsort msort N rc P sc nsort fuel,
  (forall l, Permutation l (gsort l)) -> (forall l, Permutation l (msort l)) -> conv <> 0 ->
  sensible N rc (scaled_potential sc P) -> cached_and_grouped (text_of T fmt conv) fmt conv sc N P -> 0 <= rc -> is_sort nsort -> one_output N P ->
  forall s nets, trainable N (scaled_potential sc P) rc nsort fuel s -> everywhere (scaled_potential sc P) rc s distinct_neighbors -> networks_of N P nets ->
  exists es xs, setupAll (text T) (text_dec T_dec) (text_of T fmt conv) gsort msort N true (map (p_fs P) (seq 0 N)) = Some es /\
    preparedGroups nsort fuel (p_weight P) (setupScaling sc es) rc s = Some xs /\
    (exists nets' row, dPdc (lit "energy") (map ge_elem (setupScaling sc es)) nets xs = Some (nets', [row]) /\
       networks_of N P nets' /\ List.length row = first_parameter P N /\
       forall e p, (e < N)%nat -> (p < numConnections (p_net P e))%nat ->
         parameter_derivative (default_evaluation (text_dec T_dec) (text_of T fmt conv) gsort msort sc N nsort fuel rc s) P Energy e p
           (nth (first_parameter P e + p) row 0)) /\
    ((no_self_image s rc \/ forall e f, In f (p_fs P e) -> radial (sf_kind f)) ->
     exists nets' rows, dPdc (lit "force") (map ge_elem (setupScaling sc es)) nets xs = Some (nets', rows) /\ networks_of N P nets' /\
       List.length rows = (3 * List.length (s_atoms s))%nat /\
       forall a c, (a < List.length (s_atoms s))%nat -> (c < 3)%nat -> exists row, nth_error rows (3 * a + c) = Some row /\
         List.length row = first_parameter P N /\
         forall e p, (e < N)%nat -> (p < numConnections (p_net P e))%nat ->
           parameter_derivative (default_evaluation (text_dec T_dec) (text_of T fmt conv) gsort msort sc N nsort fuel rc s) P (Force a c) e p
             (nth (first_parameter P e + p) row 0)).
Proof. exact default_dPdc. Qed.
Print Assumptions C71_default_derivatives_partial.

Theorem C71_default_weight_derivatives_partial : forall T (T_dec : forall x y : T, {x = y} + {x <> y}) fmt conv gsort msort N rc P sc nsort fuel,
  (forall l, Permutation l (gsort l)) -> (forall l, Permutation l (msort l)) -> conv <> 0 ->
  sensible N rc (scaled_potential sc P) -> cached_and_grouped (text_of T fmt conv) fmt conv sc N P -> 0 <= rc -> is_sort nsort -> one_output N P ->
  forall s q nets, trainable N (scaled_potential sc P) rc nsort fuel s -> everywhere (scaled_potential sc P) rc s distinct_neighbors ->
  networks_of N P nets -> quantity_of s q -> force_complete P rc s q ->
  exists es xs nets' rows, setupAll (text T) (text_dec T_dec) (text_of T fmt conv) gsort msort N true (map (p_fs P) (seq 0 N)) = Some es /\
    preparedGroups nsort fuel (p_weight P) (setupScaling sc es) rc s = Some xs /\
    calculateWeightDerivatives q (map ge_elem (setupScaling sc es)) nets xs = Some (nets', rows) /\
    networks_of N P nets' /\ List.length rows = N /\
    forall e, (e < N)%nat -> exists row, nth_error rows e = Some row /\ List.length row = numConnections (p_net P e) /\
      forall p, (p < numConnections (p_net P e))%nat ->
        parameter_derivative (default_evaluation (text_dec T_dec) (text_of T fmt conv) gsort msort sc N nsort fuel rc s) P q e p (nth p row 0).
Proof. exact default_weights. Qed.
Print Assumptions C71_default_weight_derivatives_partial.

Theorem C71_default_jacobian_partial : forall T (T_dec : forall x y : T, {x = y} + {x <> y}) fmt conv gsort msort N rc P sc nsort fuel,
  (forall l, Permutation l (gsort l)) -> (forall l, Permutation l (msort l)) -> conv <> 0 ->
  sensible N rc (scaled_potential sc P) -> cached_and_grouped (text_of T fmt conv) fmt conv sc N P -> 0 <= rc -> is_sort nsort -> one_output N P ->
  forall y procs nets,
  l_hardness y = false -> l_conn y = map (fun e => numConnections (p_net P e)) (seq 0 N) -> l_batch y = map (@List.length _) procs ->
  (forall r, (r < List.length procs)%nat -> networks_of N P (nets r)) ->
  (forall r s q, (r < List.length procs)%nat -> In (s, q) (nth r procs []) ->
     trainable N (scaled_potential sc P) rc nsort fuel s /\ everywhere (scaled_potential sc P) rc s distinct_neighbors /\ quantity_of s q /\ force_complete P rc s q) ->
  exists es js d, setupAll (text T) (text_dec T_dec) (text_of T fmt conv) gsort msort N true (map (p_fs P) (seq 0 N)) = Some es /\
    List.length js = List.length procs /\
    (forall r, (r < List.length procs)%nat ->
       processContributions (preparedGroups nsort fuel (p_weight P) (setupScaling sc es) rc) (map ge_elem (setupScaling sc es)) (nets r) (nth r procs []) = Some (nth r js [])) /\
    (forall r b s q e p, (r < List.length procs)%nat -> nth_error (nth r procs []) b = Some (s, q) -> (e < N)%nat -> (p < numConnections (p_net P e))%nat ->
       parameter_derivative (default_evaluation (text_dec T_dec) (text_of T fmt conv) gsort msort sc N nsort fuel rc s) P q e p (d r b e p)) /\
    forall w h e, holder y h -> (e < N)%nat -> exists a, updateJacobian y w js h (updater y e) = Some a /\
      List.length a = (rows y * width y (updater y e))%nat /\
      forall k p, (k < rows y)%nat -> (p < numConnections (p_net P e))%nat ->
        nth (k * width y (updater y e) + position y e p) a 0 =
        w * rsum (map (fun r => rsum (map (fun b => d r b e p) (filter (fun b => Nat.eqb (row y r b) k) (seq 0 (List.length (nth r procs []))))))
                      (seq 0 (List.length procs))).
Proof. exact default_jacobian. Qed.
Print Assumptions C71_default_jacobian_partial.

Theorem C71_default_parameters_vary : forall T (T_dec : forall x y : T, {x = y} + {x <> y}) fmt conv gsort msort N rc P sc nsort fuel,
  (forall l, Permutation l (gsort l)) -> (forall l, Permutation l (msort l)) -> conv <> 0 ->
  sensible N rc (scaled_potential sc P) -> cached_and_grouped (text_of T fmt conv) fmt conv sc N P -> 0 <= rc -> is_sort nsort ->
  forall s q e p, trainable N (scaled_potential sc P) rc nsort fuel s -> everywhere (scaled_potential sc P) rc s distinct_neighbors -> (e < N)%nat -> quantity_of s q ->
  exists w Pt f, tuned P e p w P /\ (forall t, tuned P e p t (Pt t)) /\
    forall t, value_in q (default_evaluation (text_dec T_dec) (text_of T fmt conv) gsort msort sc N nsort fuel rc s (Pt t)) (f t).
Proof. exact default_vary. Qed.
Print Assumptions C71_default_parameters_vary.

Example C71_default_nonvacuous : sensible 2 chain_rc (scaled_potential duo_sc duo) /\ cached_and_grouped (text_of R (fun x => x) 1) (fun x => x) 1 duo_sc 2 duo /\
  one_output 2 duo /\ everywhere (scaled_potential duo_sc duo) chain_rc three distinct_neighbors /\ force_complete duo chain_rc three (Force 0 1) /\ quantity_of three (Force 0 1) /\
  exists nsort fuel, is_sort nsort /\ trainable 2 (scaled_potential duo_sc duo) chain_rc nsort fuel three.
Proof. exact duo_trainable. Qed.
