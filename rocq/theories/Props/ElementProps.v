(** Properties C07, C08: element map and periodic table. *)
From Coq Require Import String List Ascii Arith Lia Permutation.
From Verif Require Import Model.Strings Model.ElementMap Spec.StringSpec Spec.ElementSpec
  Proofs.StringProofs Proofs.ElementMapProofs.
Import ListNotations.

(** ** C07 *)
(** Registration of distinct known symbols succeeds; index and symbol are
    inverse bijections between the listed symbols and 0..n-1; the order is that
    of the atomic numbers; anything else is an error. *)
Theorem C07_register_bijection : forall line ws,
  is_words line ws -> NoDup ws -> (forall s, In s ws -> exists z, element_Z s z) ->
  exists m, registerElements em_init line = Some (m, List.length ws) /\
    em_size m = List.length ws /\
    (forall s i, em_index m s = Some i <-> em_symbol m i = Some s) /\
    (forall s, In s ws <-> exists i, em_index m s = Some i) /\
    (forall i, i < List.length ws <-> exists s, em_symbol m i = Some s) /\
    (forall i j s t a b, em_symbol m i = Some s -> em_symbol m j = Some t ->
        element_Z s a -> element_Z t b -> (i < j <-> a < b)).
Proof. exact register_bijection. Qed.
Print Assumptions C07_register_bijection.

Theorem C07_order_irrelevant : forall line1 line2 ws1 ws2,
  is_words line1 ws1 -> is_words line2 ws2 -> Permutation ws1 ws2 -> NoDup ws1 ->
  (forall s, In s ws1 -> exists z, element_Z s z) ->
  registerElements em_init line1 = registerElements em_init line2.
Proof. exact register_permutation. Qed.
Print Assumptions C07_order_irrelevant.

(** The element string lists the registered symbols in index order and
    registering it again (on an empty map) gives the same map. *)
Theorem C07_elements_string_roundtrip : forall line ws,
  is_words line ws -> NoDup ws -> (forall s, In s ws -> exists z, element_Z s z) ->
  exists m e l, registerElements em_init line = Some (m, List.length ws) /\
    getElementsString m = Some e /\ is_words e l /\ Permutation ws l /\
    (forall i, nth_error l i = em_symbol m i) /\
    registerElements em_init e = Some (m, List.length ws).
Proof. exact elements_string_roundtrip. Qed.
Print Assumptions C07_elements_string_roundtrip.

(** A second registration is rejected until the map is cleared. *)
Theorem C07_second_registration_rejected : forall line line' m n,
  registerElements em_init line = Some (m, n) -> 0 < n ->
  registerElements m line' = None /\
  registerElements (deregisterElements m) line' = registerElements em_init line'.
Proof. exact register_twice. Qed.
Print Assumptions C07_second_registration_rejected.

(** Without distinctness the claim fails: "H H" leaves an index whose symbol
    maps back to another index. *)
Theorem C07_duplicate_symbols_refuted : exists line m n,
  registerElements em_init line = Some (m, n) /\
  exists i s, em_symbol m i = Some s /\ em_index m s <> Some i.
Proof. exact register_duplicates. Qed.
Print Assumptions C07_duplicate_symbols_refuted.

(** A single unknown symbol is accepted, because sorting one element never
    looks up its atomic number. *)
Theorem C07_unknown_symbol_accepted_refuted : exists line s m,
  registerElements em_init line = Some (m, 1) /\ em_index m s = Some 0 /\
  ~ (exists z, element_Z s z).
Proof. exact register_unknown. Qed.
Print Assumptions C07_unknown_symbol_accepted_refuted.

Example C07_nonvacuous :
  is_words (lit "  O H	Cu ") [lit "O"; lit "H"; lit "Cu"] /\ NoDup [lit "O"; lit "H"; lit "Cu"] /\
  (forall s, In s [lit "O"; lit "H"; lit "Cu"] -> exists z, element_Z s z).
Proof.
  split; [apply is_words_iff; reflexivity|]. split; [apply nodupb_spec; reflexivity|].
  intros s [<- | [<- | [<- | []]]]; [exists 8 | exists 1 | exists 29]; (split; [lia | reflexivity]).
Qed.

(** ** C08 *)
Theorem C08_atomic_number : forall s z, atomicNumber s = Some z <-> element_Z s z.
Proof. exact atomicNumber_iff. Qed.
Print Assumptions C08_atomic_number.

Theorem C08_symbol_from_number_partial : forall s z, z <> 102 ->
  (symbolFromAtomicNumber z = Some s <-> atomicNumber s = Some z).
Proof. exact symbol_number_inverse. Qed.
Print Assumptions C08_symbol_from_number_partial.

(** Nothing outside 1..102 is accepted. *)
Theorem C08_range : forall s z,
  (symbolFromAtomicNumber z = Some s -> 1 <= z <= 102) /\
  (atomicNumber s = Some z -> 1 <= z <= 102).
Proof. exact number_range. Qed.
Print Assumptions C08_range.

(** The last entry of the table is not reachable by number. *)
Theorem C08_last_element_refuted :
  exists s z, atomicNumber s = Some z /\ symbolFromAtomicNumber z = None.
Proof. exact last_element. Qed.
Print Assumptions C08_last_element_refuted.

Example C08_nonvacuous : element_Z (lit "Fe") 26.
Proof. split; [lia | reflexivity]. Qed.
