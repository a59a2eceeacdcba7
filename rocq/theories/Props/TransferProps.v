(** Property C49: structures survive transfer between processes. *)
From Coq Require Import List Arith ZArith Reals Ascii String.
From Coq Require Import List.
From Verif Require Import Base.Vec3 Model.Strings Model.Transfer Spec.TransferSpec Proofs.TransferProofs Proofs.TransferExamples.
Import ListNotations.

(** Packing never exceeds the buffer and fills it exactly: for every structure, every compile-time configuration, all type sizes. *)
Theorem C49_exact_size : forall cacheOn fullSfd size hi s,
  sendStructure cacheOn fullSfd size hi s =
  Some (calculateBufferSize cacheOn fullSfd size s, calculateBufferSize cacheOn fullSfd size s,
        concat (packStructure cacheOn fullSfd hi s)).
Proof. exact send_ok. Qed.
Print Assumptions C49_exact_size.
(** Receiving into a fresh structure reproduces every transferred field and consumes the whole buffer. *)
Theorem C49_round_trip : forall cacheOn fullSfd size hi s s0, (forall t, 1 <= size t) ->
  respects_switches cacheOn fullSfd s -> plain_comment s ->
  (Z.of_nat (calculateBufferSize cacheOn fullSfd size s) < 2147483648)%Z -> fresh s0 ->
  exists buf, sendStructure cacheOn fullSfd size hi s
    = Some (calculateBufferSize cacheOn fullSfd size s, calculateBufferSize cacheOn fullSfd size s, buf) /\
  recvStructure cacheOn fullSfd s0 buf = Some (received s, []).
Proof. exact transfer. Qed.
Print Assumptions C49_round_trip.
Example C49_nontrivial : respects_switches true false (some_structure (lit "abc")) /\ plain_comment (some_structure (lit "abc")) /\
  fresh (empty_structure []) /\ calculateBufferSize true false byte_sizes (some_structure (lit "abc")) = 725.
Proof. exact ex_transfer. Qed.
(** Without a fresh target: a structure without atoms received into one with atoms leaves these in place. *)
Theorem C49_stale_atoms_refuted : exists s s0 hi buf s', plain_comment s /\ respects_switches true false s /\
  sendStructure true false byte_sizes hi s
    = Some (calculateBufferSize true false byte_sizes s, calculateBufferSize true false byte_sizes s, buf) /\
  recvStructure true false s0 buf = Some (s', []) /\ ts_atoms s = [] /\ ts_numAtoms s' = 0 /\ List.length (ts_atoms s') = 1.
Proof. exact stale. Qed.
Print Assumptions C49_stale_atoms_refuted.
(** A comment containing a NUL character is cut. *)
Theorem C49_nul_comment_refuted : exists s s0 hi buf s', fresh s0 /\ respects_switches true false s /\
  sendStructure true false byte_sizes hi s
    = Some (calculateBufferSize true false byte_sizes s, calculateBufferSize true false byte_sizes s, buf) /\
  recvStructure true false s0 buf = Some (s', []) /\ ts_comment s' <> ts_comment s.
Proof. exact nul_comment. Qed.
Print Assumptions C49_nul_comment_refuted.
