(** Specification for the choice of the Ewald parameters. *)
From Coq Require Import Reals Ascii String Bool Arith.
From Coq Require Import List.
From Verif Require Import Model.Strings Model.ElementMap Model.Printf Model.SymLines Model.NetworkSetup Model.Electrostatics Model.EwaldSetup.
Import ListNotations.
Local Open Scope R_scope.

(** Estimates of Kolafa and Perram (Mol. Simul. 9, 351, 1992) for the error of
    the force on a particle with charge [q] in a cell of volume [V] with [N]
    such particles, if the sum in real space ends at [rc] or that in reciprocal
    space at [kc]; [eta] is the width of the screening charges and [eps] is 4 pi
    epsilon_0. *)
Definition real_space_error (q eps V : R) (N : nat) (eta rc : R) : R :=
  2 * sqrt 2 * q ^ 2 / eps * sqrt (INR N / (V * rc)) * exp (- ((rc / eta) ^ 2 / 2)).
Definition reciprocal_error (q eps V : R) (N : nat) (eta kc : R) : R :=
  2 * sqrt 2 * q ^ 2 / eps * sqrt (INR N / (V * kc)) * exp (- ((kc * eta) ^ 2 / 2)) / eta.
(** The first, without any screening. *)
Definition unscreened_error (q eps V : R) (N : nat) (rc : R) : R :=
  2 * sqrt 2 * q ^ 2 / eps * sqrt (INR N / (V * rc)).

(** A setup made from the words of "ewald_prec" and the largest width of the
    charges, in physical or in normalized units. *)
Definition configured (m : trunc_method) (words : list str) (sigma : R) (e : ewald_setup) : Prop :=
  exists e0, readFromArgs words (setTruncMethod m sw_init) = Done e0 /\ e = setMaxQSigma sigma e0.
Definition configured_normalized (cE cL : R) (m : trunc_method) (words : list str) (sigma : R) (e : ewald_setup) : Prop :=
  exists e0, readFromArgs words (setTruncMethod m sw_init) = Done e0 /\
             e = sw_toNormalizedUnits cE cL (setMaxQSigma (sigma * cL) e0).
(** calculateParameters returns with the parameters [W]. *)
Definition chooses (e : ewald_setup) (V : R) (N : nat) (W : ewald) : Prop :=
  exists n e', sw_params e' = W /\ forall fuel, (n <= fuel)%nat -> calculateParameters fuel V N e = Some (e', true).
(** calculateParameters throws. *)
Definition rejects (e : ewald_setup) (V : R) (N : nat) : Prop :=
  forall fuel, exists e', calculateParameters fuel V N e = Some (e', false).
(** All three parameters are positive. *)
Definition positive (W : ewald) : Prop := 0 < ew_eta W /\ 0 < ew_rCut W /\ 0 < ew_kCut W.
(** Acceptable words for a method. *)
Definition acceptable (m : trunc_method) (words : list str) : Prop :=
  match words with
  | [p] => 0 < atof p
  | [p; _] | [p; _; _] => 0 < atof p /\ m = KOLAFA_PERRAM
  | _ => False
  end.
(** A structure as it occurs: not empty. *)
Definition filled (c : cell) : Prop := 0 < ce_volume c /\ (0 < ce_numAtoms c)%nat.
(** A structure in normalized units. *)
Definition normalized_cell (cL : R) (c : cell) : cell := mkCell (ce_periodic c) (ce_volume c * cL ^ 3) (ce_numAtoms c).
(** The charge and the cutoff given in the settings make sense. *)
Definition sensible (words : list str) : Prop :=
  match words with
  | [_; q] => atof q <> 0
  | [_; q; rc] => atof q <> 0 /\ 0 < atof rc
  | _ => True
  end.

(** ** Settings for each element *)
(** A line whose first word is the symbol of element [i]. *)
Definition names (em : element_map) (i : nat) (v : str * nat) : Prop :=
  exists w rest, words_of (fst v) = w :: rest /\ em_index em w = Some i.
(** [x] is the second word of the last line for element [i], [None] if there is
    none. *)
Definition last_value (em : element_map) (i : nat) (lines : list (str * nat)) (x : option str) : Prop :=
  match x with
  | None => forall v, In v lines -> ~ names em i v
  | Some w => exists l1 v l2 symbol rest, lines = l1 ++ v :: l2 /\ words_of (fst v) = symbol :: w :: rest /\
                em_index em symbol = Some i /\ forall v, In v l2 -> ~ names em i v
  end.
(** What the numbers in the settings are multiplied with. *)
Definition hardness_factor (cv : conversion) : R := if cv_normalize cv then cv_energy cv / cv_charge cv ^ 2 else 1.
Definition length_factor (cv : conversion) : R := if cv_normalize cv then cv_length cv else 1.
Definition permittivity_factor (cv : conversion) : R :=
  if cv_normalize cv then cv_charge cv ^ 2 / (cv_length cv * cv_energy cv) else 1.
(** The truncation method meant by the value of "ewald_truncation_error_method". *)
Definition chosen_method (v : option str) : trunc_method :=
  match v with Some w => if str_eqb w (lit "1") then KOLAFA_PERRAM else JACKSON_CATLOW | None => JACKSON_CATLOW end.
