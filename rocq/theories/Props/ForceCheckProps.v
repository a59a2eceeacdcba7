(** Properties of the force check nnp-checkf (C99). *)
From Coq Require Import Reals ZArith Ascii String.
From Coq Require Import List.
From Verif Require Import Base.Vec3 Model.Strings Model.Printf Model.SymLines Model.DataFiles Model.ForceCheck
  Spec.StringSpec Spec.DatasetSpec Spec.ErrorSpec Spec.ForceCheckSpec Proofs.ForceCheckProofs.
From Coq Require Import List.
Import ListNotations.
Local Open Scope R_scope.

(** For any number of processes: one row for each force component in order, with
    the force of the unaltered structure and the central difference of the energies
    of the two displaced structures; count, mean and maximum of the deviations; a
    warning exactly if one of them is larger than 10 delta^2.  Forces in the data
    file ([f0], [fRef0]) have no influence. *)
Theorem C99_report : forall energy force remap P delta pos f0 fRef0, (1 <= P)%nat -> (Z.of_nat (6 * length pos) < 2 ^ 31)%Z -> delta <> 0 -> pos <> [] ->
  exists c, check_structure energy force remap P delta pos f0 fRef0 = Done c /\
  map (fun r => (cr_atom r, cr_xyz r)) (ck_rows c) = flat_map (fun i => [(i, 0); (i, 1); (i, 2)]%nat) (seq 0 (length pos)) /\
  (forall r, In r (ck_rows c) -> cr_analytic r = force pos (cr_atom r) (cr_xyz r) /\
     exists forth back, displaced_positions remap delta pos (cr_atom r, cr_xyz r, 1%Z) forth /\ displaced_positions remap delta pos (cr_atom r, cr_xyz r, (-1)%Z) back /\
       cr_numeric r = - (energy forth - energy back) / (2 * delta)) /\
  ck_numForces c = length (ck_rows c) /\
  ck_mean c = mae (map (fun r => cr_numeric r - cr_analytic r) (ck_rows c)) /\
  (forall r, In r (ck_rows c) -> Rabs (cr_numeric r - cr_analytic r) <= ck_max c) /\
  (exists r, In r (ck_rows c) /\ Rabs (cr_numeric r - cr_analytic r) = ck_max c) /\
  (ck_warning c = true <-> exists r, In r (ck_rows c) /\ 10 * delta ^ 2 < Rabs (cr_numeric r - cr_analytic r)).
Proof. exact check_report. Qed.
Print Assumptions C99_report.

(** Where the force is the negative derivative of the energy, the deviation is of
    second order in delta. *)
Theorem C99_second_order : forall energy force remap P delta pos f0 fRef0 c r M, (1 <= P)%nat -> (Z.of_nat (6 * length pos) < 2 ^ 31)%Z -> 0 < delta -> pos <> [] ->
  check_structure energy force remap P delta pos f0 fRef0 = Done c -> In r (ck_rows c) ->
  smooth_along energy remap delta pos (cr_atom r) (cr_xyz r) (- cr_analytic r) M -> Rabs (cr_numeric r - cr_analytic r) <= M * delta ^ 2 / 6.
Proof. exact second_order. Qed.
Print Assumptions C99_second_order.

(** Right forces cause no warning if third derivatives of the energy are at most
    60. *)
Theorem C99_no_warning : forall energy force remap P delta pos f0 fRef0 c, (1 <= P)%nat -> (Z.of_nat (6 * length pos) < 2 ^ 31)%Z -> 0 < delta -> pos <> [] ->
  check_structure energy force remap P delta pos f0 fRef0 = Done c ->
  (forall i j, (i < length pos)%nat -> (j < 3)%nat -> smooth_along energy remap delta pos i j (- force pos i j) 60) -> ck_warning c = false.
Proof. exact no_warning. Qed.
Print Assumptions C99_no_warning.

(** A line of the file of forces. *)
Theorem C99_line : forall is r, (Z.of_nat (is + 1) < 2 ^ 31)%Z -> (Z.of_nat (cr_atom r + 1) < 2 ^ 31)%Z -> (cr_xyz r < 3)%nat ->
  exists l, check_line is r = Done (l ++ [ascii_of_nat 10]) /\ ~ In (ascii_of_nat 10) l /\
  is_words l [print_d (is + 1); print_d (cr_atom r + 1); print_d (cr_xyz r); print_E 16 (cr_analytic r); print_E 16 (cr_numeric r)].
Proof. exact check_text. Qed.
Print Assumptions C99_line.

(** Two atoms on springs, four processes. *)
Example C99_springs : exists c, check_structure harmonic spring (fun v => v) 4 (1 / 100) [mkVec 1 2 3; mkVec 0 0 1] (fun _ _ => 7) (fun _ _ => 8) = Done c /\
  length (ck_rows c) = 6%nat /\ ck_warning c = false.
Proof. exact spring_check. Qed.
