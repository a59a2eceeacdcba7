(** Properties C43 and C44: reciprocal space grid, erfc buffer. *)
From Coq Require Import Reals ZArith List Arith.
From Verif Require Import Base.Vec3 Base.Erf Base.SumR Model.Geometry Model.Kspace Spec.GeometrySpec Spec.KspaceSpec Proofs.KspaceProofs.
Import ListNotations.
Local Open Scope R_scope.

Theorem C43_half_sphere : forall fuel box eta kCut g, det box <> 0 -> 0 <= kCut ->
  grid_setup fuel box eta kCut grid_init = Some g -> forall k, reciprocal box k -> k <> vzero -> norm k < kCut ->
  let ks := map kv_k (kg_kvectors g) in (In k ks /\ ~ In (vopp k) ks) \/ (In (vopp k) ks /\ ~ In k ks).
Proof. exact grid_complete. Qed.
Print Assumptions C43_half_sphere.

Theorem C43_nothing_else : forall fuel box eta kCut g, det box <> 0 -> 0 <= kCut ->
  grid_setup fuel box eta kCut grid_init = Some g -> forall kv, In kv (kg_kvectors g) ->
  reciprocal box (kv_k kv) /\ kv_k kv <> vzero /\ norm (kv_k kv) < kCut /\
  kv_coeff kv = 4 * PI / calculateVolume box * exp (- (eta * eta * norm2 (kv_k kv) / 2)) / norm2 (kv_k kv).
Proof. exact grid_sound. Qed.
Print Assumptions C43_nothing_else.

Theorem C43_each_once : forall fuel box eta kCut g, det box <> 0 -> grid_setup fuel box eta kCut grid_init = Some g ->
  NoDup (map kv_k (kg_kvectors g)).
Proof. exact ks_nodup. Qed.
Print Assumptions C43_each_once.

(** Sums of even functions over the full sphere are twice those over the grid. *)
Theorem C43_sphere_sum : forall fuel box eta kCut g, det box <> 0 -> 0 <= kCut ->
  grid_setup fuel box eta kCut grid_init = Some g -> forall (F : vec -> R) L, NoDup L ->
  (forall k, In k L <-> reciprocal box k /\ k <> vzero /\ norm k < kCut) ->
  (forall k, F (vopp k) = F k) -> rsum (map F L) = 2 * rsum (map (fun kv => F (kv_k kv)) (kg_kvectors g)).
Proof. exact grid_sum. Qed.
Print Assumptions C43_sphere_sum.

(** The search for the extent of the grid ends. *)
Theorem C43_terminates : forall box eta kCut, det box <> 0 -> exists fuel, forall fuel', (fuel <= fuel')%nat ->
  exists g, grid_setup fuel' box eta kCut grid_init = Some g.
Proof. exact grid_terminates. Qed.
Print Assumptions C43_terminates.

(** Calling setup a second time on the same grid keeps the old vectors. *)
Theorem C43_second_setup_refuted : exists fuel box eta kCut g1 g2, det box <> 0 /\ 0 <= kCut /\
  grid_setup fuel box eta kCut grid_init = Some g1 /\ grid_setup fuel box eta kCut g1 = Some g2 /\
  ~ NoDup (map kv_k (kg_kvectors g2)).
Proof. exact grid_twice. Qed.
Print Assumptions C43_second_setup_refuted.

Example C43_nonvacuous : det ex_cell <> 0 /\ reciprocal ex_cell (mkVec 1 0 0) /\ mkVec 1 0 0 <> vzero /\ norm (mkVec 1 0 0) < 3 / 2.
Proof. exact (conj ex_cell_det ex_cell_k). Qed.

(** Any sequence of queries of reserved entries is answered. *)
Theorem C44_answers : forall numNeighbors valuesPerPair l, Forall (in_space numNeighbors valuesPerPair) l ->
  exists b, ask l (buf_reset numNeighbors valuesPerPair) = Some (answers [] l, b).
Proof. exact buffer_answers. Qed.
Print Assumptions C44_answers.

(** If an entry is always queried with the same argument the buffer is invisible. *)
Theorem C44_transparent : forall numNeighbors valuesPerPair l, Forall (in_space numNeighbors valuesPerPair) l ->
  (forall p q, In p l -> In q l -> same_slot p q = true -> qu_x p = qu_x q) ->
  exists b, ask l (buf_reset numNeighbors valuesPerPair) = Some (map (fun q => erfc (qu_x q)) l, b).
Proof. exact buffer_transparent. Qed.
Print Assumptions C44_transparent.

Example C44_nonvacuous : Forall (in_space [2; 3]%nat 2)
  [mkQuery 0 1 0 (1/2); mkQuery 1 2 1 3; mkQuery 0 1 0 (1/2); mkQuery 1 2 0 2]%nat.
Proof. repeat constructor; cbn; eexists; split; reflexivity || auto. Qed.
