(** What a structure looks like after a transfer: all transferred fields unchanged, the others as constructed. *)
From Coq Require Import List ZArith Reals Ascii.
From Verif Require Import Base.Vec3 Model.Strings Model.Transfer.
Import ListNotations.

Definition received_atom (a : tatom) : tatom :=
  mkTA (ta_hasNL a) (ta_hasSF a) (ta_hasSFD a) (ta_useChargeNeuron a) (ta_index a) (ta_indexStructure a) (ta_tag a) (ta_element a)
    (ta_numNeighbors a) (ta_numNeighborsUnique a) (ta_numSF a) (ta_energy a) (ta_chi a) (ta_charge a) (ta_chargeRef a)
    (ta_r a) (ta_f a) (ta_fRef a) (ta_neighborsUnique a) (ta_numNeighborsPerElement a) (ta_numSFD a) (ta_cacheSizes a)
    (ta_G a) (ta_dEdG a) (ta_dQdG a) (ta_dGdxia a) (ta_dGdr a) (ta_neighbors a) false [].
Definition received (s : tstruct) : tstruct :=
  mkTS (ts_isPeriodic s) (ts_isTriclinic s) (ts_hasNL s) (ts_hasSF s) (ts_hasSFD s) (ts_index s) (ts_numAtoms s)
    (ts_numElements s) (ts_numElementsPresent s) (ts_pbc s) (ts_energy s) (ts_energyRef s) (ts_charge s) (ts_chargeRef s)
    (ts_volume s) (ts_sampleType s) (ts_comment s) (ts_box s) (ts_invbox s) (ts_numAtomsPerElement s)
    (map received_atom (ts_atoms s)).
(** The vectors that exist only with certain compile-time switches are empty without them. *)
Definition respects_switches (cacheOn fullSfd : bool) (s : tstruct) : Prop :=
  forall a, In a (ts_atoms s) ->
    (cacheOn = false -> ta_cacheSizes a = [] /\ forall n, In n (ta_neighbors a) -> n_cache n = []) /\
    (fullSfd = false -> ta_dGdxia a = []).
(** Comment without NUL character. *)
Definition plain_comment (s : tstruct) : Prop := ~ In zero (ts_comment s).
(** Without atoms and element counts, as made by the constructor of Structure. *)
Definition fresh (s : tstruct) : Prop := ts_atoms s = [] /\ ts_numAtomsPerElement s = [].
