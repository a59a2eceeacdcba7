(** Independent specification of the sensitivity analysis (C101). *)
From Coq Require Import Reals List Arith.
From Verif Require Import Base.SumR Model.Strings Model.Printf Model.DataFiles Model.Sensitivity Spec.NeuronStatsSpec.
From Coq Require Import List.
Import ListNotations.
Local Open Scope R_scope.

(** The derivatives of the atomic energies of element [e] with respect to its
    symmetry function [j], one for each atom of that element. *)
Definition slopes (e j : nat) (atoms : list sens_atom) : list R :=
  map (fun a => nth j (sa_dEdG a) 0) (filter (fun a => Nat.eqb (sa_element a) e) atoms).
(** Root of the mean of the squares. *)
Definition rms (vs : list R) : R := sqrt (rsum (map (fun v => v * v) vs) / INR (List.length vs)).
(** [x] is the largest absolute value, zero if there is no value. *)
Definition largest (vs : list R) (x : R) : Prop :=
  (forall v, In v vs -> Rabs v <= x) /\ (vs = [] /\ x = 0 \/ exists v, In v vs /\ x = Rabs v).
(** The atom belongs to an element and has a derivative for each of its symmetry
    functions; [nsf]: number of symmetry functions of each element. *)
Definition fitting (nsf : list nat) (a : sens_atom) : Prop := exists n, nth_error nsf (sa_element a) = Some n /\ (n <= length (sa_dEdG a))%nat.
(** Row [j] of the file of element [e] with [n] symmetry functions: index,
    largest and root mean square derivative, the same in physical units [1 / c] if
    there are any, and both in percent of the sum over all symmetry functions. *)
Definition describes_row (r : sens_row) (e n j : nat) (atoms : list sens_atom) (conv : option R) : Prop :=
  let vs := slopes e j atoms in
  se_index r = (j + 1)%nat /\ largest vs (se_max r) /\ (vs <> [] -> se_msa r = Some (rms vs)) /\
  (forall c, conv = Some c -> exists m, se_phys r = Some (m, se_max r / c) /\ (vs <> [] -> m = Some (rms vs / c))) /\
  (conv = None -> se_phys r = None) /\
  (let total := rsum (map (fun k => rms (slopes e k atoms)) (seq 0 n)) in vs <> [] -> total <> 0 -> se_msa_norm r = Some (rms vs / total * 100)) /\
  (forall maxima, length maxima = n -> (forall k x, nth_error maxima k = Some x -> largest (slopes e k atoms) x) -> rsum maxima <> 0 ->
     se_max_norm r = Some (se_max r / rsum maxima * 100)).
(** The words of the row's line. *)
Definition sens_words (r : sens_row) : list str :=
  [print_d (se_index r); number_text (se_msa_norm r); number_text (se_max_norm r)] ++
  match se_phys r with Some (m, x) => [number_text m; print_E 8 x] | None => [] end ++ [number_text (se_msa r); print_E 8 (se_max r)].
