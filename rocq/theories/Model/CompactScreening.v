(** Model of src/libnnp/CompactFunction.{h,cpp} and ScreeningFunction.{h,cpp}. *)
From Coq Require Import Reals.
From Verif Require Import Model.CoreFunction.
Local Open Scope R_scope.

(** std::copysign on reals: magnitude of [x], sign of [y]; zero counts as
    positive (the sign of a floating point zero is not modelled). *)
Definition copysign (x y : R) : R :=
  if Rlt_dec y 0 then - Rabs x else Rabs x.

(** CompactFunction.h:112-123. *)
Record compact_function := mkCompact {
  cp_center : R; cp_width : R; cp_left : R; cp_right : R; cp_scale : R;
  cp_core : core_function
}.

(** CompactFunction.cpp:24-31. *)
Definition cp_init : compact_function :=
  mkCompact 0 0 0 0 0 (core_setType CK_POLY2 core_init).

(** CompactFunction.h:131-136 setCoreFunction. *)
Definition cp_setCoreFunction (k : core_kind) (c : compact_function) :=
  mkCompact (cp_center c) (cp_width c) (cp_left c) (cp_right c) (cp_scale c)
            (core_setType k (cp_core c)).

(** CompactFunction.cpp:39-44 setAsymmetric. *)
Definition cp_setAsymmetric (b : bool) (c : compact_function) :=
  mkCompact (cp_center c) (cp_width c) (cp_left c) (cp_right c) (cp_scale c)
            (core_setAsymmetric b (cp_core c)).

(** CompactFunction.cpp:47-61; [None] = invalid_argument. *)
Definition cp_setCenterWidth (center width : R) (c : compact_function)
  : option compact_function :=
  if Rle_dec width 0 then None
  else Some (mkCompact center width (center - width) (center + width)
                       (1 / width) (cp_core c)).

(** CompactFunction.cpp:63-77; [None] = invalid_argument. *)
Definition cp_setLeftRight (left right : R) (c : compact_function)
  : option compact_function :=
  if Rge_dec left right then None
  else let width := (right - left) / 2 in
       Some (mkCompact ((right + left) / 2) width left right (1 / width) (cp_core c)).

(** CompactFunction.h:148-152. *)
Definition cp_f (c : compact_function) (a : R) : R :=
  let a := (a - cp_center c) * cp_scale c in core_f (cp_core c) (Rabs a).

(** CompactFunction.h:154-158. *)
Definition cp_df (c : compact_function) (a : R) : R :=
  let a := (a - cp_center c) * cp_scale c in
  copysign (cp_scale c * core_df (cp_core c) (Rabs a)) a.

(** CompactFunction.h:160-167. *)
Definition cp_fdf (c : compact_function) (a : R) : R * R :=
  let a := (a - cp_center c) * cp_scale c in
  let (fa, dfa) := core_fdf (cp_core c) (Rabs a) in
  (fa, dfa * copysign (cp_scale c) a).

(** ScreeningFunction.h:98-105. *)
Record screening_function := mkScreen {
  sc_inner : R; sc_outer : R; sc_scale : R; sc_core : core_function
}.

(** ScreeningFunction.cpp:24-29. *)
Definition sc_init : screening_function :=
  mkScreen 0 0 0 (core_setType CK_POLY2 core_init).

(** ScreeningFunction.h:113-118. *)
Definition sc_setCoreFunction (k : core_kind) (s : screening_function) :=
  mkScreen (sc_inner s) (sc_outer s) (sc_scale s) (core_setType k (sc_core s)).

(** ScreeningFunction.cpp:31-44; [None] = invalid_argument. *)
Definition sc_setInnerOuter (inner outer : R) (s : screening_function)
  : option screening_function :=
  if Rge_dec inner outer then None
  else Some (mkScreen inner outer (1 / (outer - inner)) (sc_core s)).

(** ScreeningFunction.cpp:46-51. *)
Definition sc_changeLengthUnits (conv : R) (s : screening_function) :=
  mkScreen (sc_inner s * conv) (sc_outer s * conv) (sc_scale s / conv) (sc_core s).

(** ScreeningFunction.h:135-140. *)
Definition sc_f (s : screening_function) (r : R) : R :=
  if Rge_dec r (sc_outer s) then 1
  else if Rle_dec r (sc_inner s) then 0
  else 1 - core_f (sc_core s) ((r - sc_inner s) * sc_scale s).

(** ScreeningFunction.h:142-146. *)
Definition sc_df (s : screening_function) (r : R) : R :=
  if Rge_dec r (sc_outer s) then 0
  else if Rle_dec r (sc_inner s) then 0
  else - sc_scale s * core_df (sc_core s) ((r - sc_inner s) * sc_scale s).

(** ScreeningFunction.h:148-168. *)
Definition sc_fdf (s : screening_function) (r : R) : R * R :=
  if Rge_dec r (sc_outer s) then (1, 0)
  else if Rle_dec r (sc_inner s) then (0, 0)
  else let (fr, dfr) := core_fdf (sc_core s) ((r - sc_inner s) * sc_scale s) in
       (1 - fr, - sc_scale s * dfr).
