(** Property C103: the data set normalization tool. *)
From Coq Require Import Reals List Arith.
From Verif Require Import Base.Vec3 Model.SymLines Model.NormTool Spec.NormalizationSpec Spec.NormToolSpec Proofs.NormToolProofs.
From Coq Require Import List.
Import ListNotations.
Local Open Scope R_scope.

(** C103: whatever the distribution of the structures, the converted data set has
    energies per atom with mean zero and standard deviation one, force components
    with standard deviation one and charges up to one, and the factors written to
    the settings file turn it back into the original data set. *)
Theorem C103_normalized : forall procs, let all := concat procs in
  (forall s, In s all -> filled s) -> deviation (set_energies all) <> 0 -> deviation (set_forces all) <> 0 ->
  exists f out, normTool false procs = Done (f, out) /\
    Forall2 (Forall2 (same_structure f)) procs out /\
    mean (set_energies (concat out)) = 0 /\ deviation (set_energies (concat out)) = 1 /\ deviation (set_forces (concat out)) = 1 /\
    (forall q, In q (set_charges (concat out)) -> Rabs q <= 1) /\
    ((exists q, In q (set_charges all) /\ q <> 0) -> exists q, In q (set_charges (concat out)) /\ Rabs q = 1) /\
    ((forall q, In q (set_charges all) -> q = 0) -> fa_charge f = 1).
Proof. exact tool_ok. Qed.
Print Assumptions C103_normalized.

(** Factors and written structures do not depend on the distribution. *)
Theorem C103_distribution : forall procs procs', concat procs = concat procs' -> (forall s, In s (concat procs) -> filled s) -> concat procs <> [] ->
  forall f out f' out', normTool false procs = Done (f, out) -> normTool false procs' = Done (f', out') -> f = f' /\ concat out = concat out'.
Proof. exact factors_invariant. Qed.
Print Assumptions C103_distribution.

Example C103_two_structures : (forall s, In s (concat ex_procs) -> filled s) /\ deviation (set_energies (concat ex_procs)) <> 0 /\
  deviation (set_forces (concat ex_procs)) <> 0 /\ exists q, In q (set_charges (concat ex_procs)) /\ q <> 0.
Proof. exact ex_ok. Qed.
