(** Model of src/libnnp/CoreFunction.{h,cpp}.
    [double] is modelled by [R]; the member function pointers fPtr/dfPtr/fdfPtr
    are always set together with [type] (CoreFunction.cpp:29-85), so the model
    dispatches on [core_type] instead of storing them. *)
From Coq Require Import Reals.
Local Open Scope R_scope.

(** CoreFunction.h: enum class Type. *)
Inductive core_kind := CK_COS | CK_POLY1 | CK_POLY2 | CK_POLY3 | CK_POLY4 | CK_EXP.

(** CoreFunction.h:113-118 (members [type], [asymmetric]). *)
Record core_function := mkCore { core_type : core_kind; core_asym : bool }.

(** CoreFunction.cpp:29-37 default constructor. *)
Definition core_init : core_function := mkCore CK_POLY2 false.

(** CoreFunction.cpp:39-85 setType; the invalid-type branch is unreachable for
    values of the enumeration. *)
Definition core_setType (k : core_kind) (c : core_function) : core_function :=
  mkCore k (core_asym c).

(** CoreFunction.h:161-166 setAsymmetric. *)
Definition core_setAsymmetric (b : bool) (c : core_function) : core_function :=
  mkCore (core_type c) b.

(** CoreFunction.cpp:25-27 constants PI, PI_2, E. *)
Definition c_PI : R := 4 * atan 1.
Definition c_PI_2 : R := 2 * atan 1.
Definition c_E : R := exp 1.

(** CoreFunction.h:204-207, 222-225, 239-242, 257-261, 276-281, 301-304. *)
Definition core_fPtr (k : core_kind) (x : R) : R :=
  match k with
  | CK_COS => 0.5 * (cos (c_PI * x) + 1)
  | CK_POLY1 => (2 * x - 3) * x * x + 1
  | CK_POLY2 => ((15 - 6 * x) * x - 10) * x * x * x + 1
  | CK_POLY3 => let x2 := x * x in
                (x * (x * (20 * x - 70) + 84) - 35) * x2 * x2 + 1
  | CK_POLY4 => let x2 := x * x in
                (x * (x * ((315 - 70 * x) * x - 540) + 420) - 126) *
                x2 * x2 * x + 1
  | CK_EXP => c_E * exp (1 / (x * x - 1))
  end.

(** CoreFunction.h:209-212, 227-230, 244-247, 263-266, 283-288, 306-310. *)
Definition core_dfPtr (k : core_kind) (x : R) : R :=
  match k with
  | CK_COS => - c_PI_2 * sin (c_PI * x)
  | CK_POLY1 => x * (6 * x - 6)
  | CK_POLY2 => x * x * ((60 - 30 * x) * x - 30)
  | CK_POLY3 => x * x * x * (x * (x * (140 * x - 420) + 420) - 140)
  | CK_POLY4 => let x2 := x * x in
                x2 * x2 *
                (x * (x * ((2520 - 630 * x) * x - 3780) + 2520) - 630)
  | CK_EXP => let temp := 1 / (x * x - 1) in
              -2 * c_E * x * temp * temp * exp temp
  end.

(** CoreFunction.h:214-220, 232-237, 249-255, 268-274, 290-299, 312-319.
    Reference out-parameters become a pair. *)
Definition core_fdfPtr (k : core_kind) (x : R) : R * R :=
  match k with
  | CK_COS => let temp := cos (c_PI * x) in
              (0.5 * (temp + 1), -0.5 * c_PI * sqrt (1 - temp * temp))
  | CK_POLY1 => ((2 * x - 3) * x * x + 1, x * (6 * x - 6))
  | CK_POLY2 => let x2 := x * x in
                (((15 - 6 * x) * x - 10) * x * x2 + 1,
                 x2 * ((60 - 30 * x) * x - 30))
  | CK_POLY3 => let x2 := x * x in
                ((x * (x * (20 * x - 70) + 84) - 35) * x2 * x2 + 1,
                 x2 * x * (x * (x * (140 * x - 420) + 420) - 140))
  | CK_POLY4 => let x4 := (x * x) * (x * x) in
                ((x * (x * ((315 - 70 * x) * x - 540) + 420) - 126) * x * x4 + 1,
                 x4 * (x * (x * ((2520 - 630 * x) * x - 3780) + 2520) - 630))
  | CK_EXP => let temp := 1 / (x * x - 1) in
              let temp2 := exp temp in
              (c_E * temp2, -2 * c_E * x * temp * temp * temp2)
  end.

(** CoreFunction.h:171-177. *)
Definition core_f (c : core_function) (x : R) : R :=
  core_fPtr (core_type c) (if core_asym c then (2 - x) * x else x).

(** CoreFunction.h:179-187. *)
Definition core_df (c : core_function) (x : R) : R :=
  if core_asym c then (2 - 2 * x) * core_dfPtr (core_type c) ((2 - x) * x)
  else core_dfPtr (core_type c) x.

(** CoreFunction.h:189-202. *)
Definition core_fdf (c : core_function) (x : R) : R * R :=
  if core_asym c then
    let (fx, dfx) := core_fdfPtr (core_type c) ((2 - x) * x) in
    (fx, dfx * (2 - 2 * x))
  else core_fdfPtr (core_type c) x.
