(** Vocabulary for the cutoff function properties (C01-C03). *)
From Coq Require Import Reals List.
From Verif Require Import Model.CutoffFunction.
Import ListNotations.
Local Open Scope R_scope.

(** Cutoff types that have an inner radius below which they are constant. *)
Definition plateau_kind (t : cutoff_kind) : Prop :=
  match t with CT_HARD | CT_TANHU | CT_TANH => False | _ => True end.

(** A user's history of setter calls on one CutoffFunction object. *)
Inductive cf_op := OpType (t : cutoff_kind) | OpRadius (r : R) | OpParam (a : R).

(** One call; a throwing setCutoffParameter leaves the object unchanged. *)
Definition cf_step (c : cutoff_function) (o : cf_op) : cutoff_function :=
  match o with
  | OpType t => cf_setCutoffType t c
  | OpRadius r => cf_setCutoffRadius r c
  | OpParam a => match cf_setCutoffParameter a c with Some c' => c' | None => c end
  end.

Definition cf_run (l : list cf_op) : cutoff_function := fold_left cf_step l cf_init.

Definition is_radius (o : cf_op) : Prop := match o with OpRadius _ => True | _ => False end.
Definition is_param (o : cf_op) : Prop := match o with OpParam _ => True | _ => False end.
