(** Round trip of structure files (C62). *)
From Coq Require Import Reals ZArith List Ascii Bool Arith.
From Verif Require Import Base.Vec3 Model.Strings Model.Printf Model.ElementMap Model.StructureFile Spec.GeometrySpec Spec.PrintfSpec Model.Geometry.
From Coq Require Import List.
Import ListNotations.
Local Open Scope R_scope.

(** n elements with known symbols. *)
Definition complete_map (em : element_map) (n : nat) : Prop :=
  forall i, (i < n)%nat -> exists s, em_symbol em i = Some s /\ em_index em s = Some i /\ In s known_elements.
(** Comments of one line which fit into the buffer of strpr. *)
Definition plain_comment (c : str) : Prop := ~ In ch_lf c /\ ~ In ch_nul c /\ (List.length c <= 1014)%nat.

Definition double_vec (v : vec) : Prop := double (vx v) /\ double (vy v) /\ double (vz v).
Definition energy_of (ref : bool) (s : fstruct) : R := if ref then fs_energyRef s else fs_energy s.
Definition total_charge_of (ref : bool) (s : fstruct) : R := if ref then fs_chargeRef s else fs_charge s.
Definition charge_of (ref : bool) (a : fatom) : R := if ref then fa_chargeRef a else fa_charge a.
Definition force_of (ref : bool) (a : fatom) : vec := if ref then fa_fRef a else fa_f a.

(** A structure in memory: all numbers are doubles, elements are known. *)
Definition stored (n : nat) (ref : bool) (s : fstruct) : Prop :=
  plain_comment (fs_comment s) /\
  (fs_periodic s = true -> double_vec (m0 (fs_box s)) /\ double_vec (m1 (fs_box s)) /\ double_vec (m2 (fs_box s))) /\
  double (energy_of ref s) /\ double (total_charge_of ref s) /\
  forall a, In a (fs_atoms s) -> (fa_element a < n)%nat /\ double_vec (fa_r a) /\ double (charge_of ref a) /\ double_vec (force_of ref a).
(** Periodic structures: neutral, box not degenerate, atoms at most 2^31 cells
    away. *)
Definition proper_cell (ref : bool) (s : fstruct) : Prop :=
  fs_periodic s = true -> det (fs_box s) <> 0 /\ Rabs (total_charge_of ref s) <= 10 * powerRZ 2 (-52) /\
    forall a, In a (fs_atoms s) -> int_range (matvec (calculateInverseBox (fs_box s)) (fa_r a)).

(** Atom read for the i-th atom written. *)
Definition same_atom (ref : bool) (s : fstruct) (a : fatom) (a' : fatom) : Prop :=
  fa_element a' = fa_element a /\ fa_chargeRef a' = charge_of ref a /\ fa_fRef a' = force_of ref a /\
  if fs_periodic s then (exists m, fa_r a' = vadd (fa_r a) (lattice (fs_box s) m)) /\ (exists c, in_cell c /\ fa_r a' = GeometrySpec.combine (fs_box s) c)
  else fa_r a' = fa_r a.
Definition same_structure (ref : bool) (s s' : fstruct) : Prop :=
  fs_periodic s' = fs_periodic s /\ (fs_periodic s = true -> fs_box s' = fs_box s /\ fs_volume s' = Rabs (det (fs_box s))) /\
  fs_comment s' = fs_comment s /\ fs_energyRef s' = energy_of ref s /\ fs_chargeRef s' = total_charge_of ref s /\
  fs_numAtoms s' = List.length (fs_atoms s) /\ Forall2 (same_atom ref s) (fs_atoms s) (fs_atoms s') /\
  (forall i a', nth_error (fs_atoms s') i = Some a' -> fa_index a' = i /\ fa_tag a' = Z.of_nat i) /\
  (forall e, nth e (fs_perElement s') 0%nat = List.length (filter (fun a => Nat.eqb (fa_element a) e) (fs_atoms s))).

(** Positions inside the cell already. *)
Definition wrapped (s : fstruct) : Prop :=
  forall a, In a (fs_atoms s) -> exists c, in_cell c /\ fa_r a = GeometrySpec.combine (fs_box s) c.
(** A structure holding nothing but what a file contains: all other members have
    their initial or derived values, as directly after reading a file without
    "set=" arguments. *)
Definition derived_cell (s : fstruct) : Prop :=
  if fs_periodic s
  then fs_volume s = Rabs (det (fs_box s)) /\ fs_invbox s = calculateInverseBox (fs_box s) /\
       (fs_triclinic s = true <-> powerRZ 2 (-1022) < vy (m0 (fs_box s)) \/ powerRZ 2 (-1022) < vz (m0 (fs_box s)) \/
          powerRZ 2 (-1022) < vx (m1 (fs_box s)) \/ powerRZ 2 (-1022) < vz (m1 (fs_box s)) \/
          powerRZ 2 (-1022) < vx (m2 (fs_box s)) \/ powerRZ 2 (-1022) < vy (m2 (fs_box s)))
  else fs_volume s = 0 /\ fs_invbox s = zero_mat /\ fs_box s = zero_mat /\ fs_triclinic s = false.
Definition as_read (n : nat) (s : fstruct) : Prop :=
  fs_index s = 0%nat /\ fs_numAtoms s = List.length (fs_atoms s) /\ fs_numElements s = n /\ fs_energy s = 0 /\ fs_charge s = 0 /\ fs_sample s = ST_UNKNOWN /\
  fs_present s = List.length (filter (fun e => Nat.ltb 0 (nth e (fs_perElement s) 0%nat)) (seq 0 n)) /\
  derived_cell s /\ List.length (fs_perElement s) = n /\
  (forall e, nth e (fs_perElement s) 0%nat = List.length (filter (fun a => Nat.eqb (fa_element a) e) (fs_atoms s))) /\
  (forall i a, nth_error (fs_atoms s) i = Some a ->
     fa_index a = i /\ fa_indexStructure a = 0%nat /\ fa_tag a = Z.of_nat i /\ fa_charge a = 0 /\ fa_f a = vzero /\ fa_perEl a = repeat 0%nat n).
