(** Vocabulary for the compact/screening function properties (C04). *)
From Coq Require Import Reals.
From Verif Require Import Model.CoreFunction Model.CompactScreening.
Local Open Scope R_scope.

(** A compact function as its users see it: they evaluate it only strictly
    inside (left,right) and take 0 outside (e.g. SymFncCompRad.cpp:150,
    SymFncCompAngn.cpp). *)
Definition on_support (l r : R) (f : R -> R) (a : R) : R :=
  if Rlt_dec l a then (if Rlt_dec a r then f a else 0) else 0.

(** A core function configured by a user: a type and the asymmetry flag. *)
Definition core_config (k : core_kind) (asym : bool) : core_function :=
  core_setAsymmetric asym (core_setType k core_init).

(** A compact function configured by a user. *)
Definition compact_config (k : core_kind) (asym : bool) (l r : R) : option compact_function :=
  cp_setLeftRight l r (cp_setAsymmetric asym (cp_setCoreFunction k cp_init)).

(** A screening function configured by a user. *)
Definition screening_config (k : core_kind) (inner outer : R) : option screening_function :=
  sc_setInnerOuter inner outer (sc_setCoreFunction k sc_init).
