(** Model of src/libnnp/CutoffFunction.{h,cpp}. *)
From Coq Require Import Reals.
From Verif Require Import Model.CoreFunction.
Local Open Scope R_scope.

(** CutoffFunction.h: enum CutoffType. *)
Inductive cutoff_kind :=
  CT_HARD | CT_COS | CT_TANHU | CT_TANH
| CT_POLY1 | CT_POLY2 | CT_POLY3 | CT_POLY4 | CT_EXP.

(** CutoffFunction.h:134-147.  The member function pointers are always set
    together with [cutoffType] (CutoffFunction.cpp:42-93) and are therefore
    represented by [cf_type]. *)
Record cutoff_function := mkCF {
  cf_type : cutoff_kind;
  cf_rc : R;
  cf_rcinv : R;
  cf_rci : R;
  cf_alpha : R;
  cf_iw : R;
  cf_core : core_function
}.

(** CutoffFunction.cpp:28 TANH_PRE. *)
Definition c_TANH_PRE : R := ((c_E + 1 / c_E) / (c_E - 1 / c_E)) ^ 3.

(** CutoffFunction.cpp:30-40 default constructor. *)
Definition cf_init : cutoff_function := mkCF CT_HARD 0 0 0 0 0 core_init.

(** CutoffFunction.cpp:42-93 setCutoffType. *)
Definition cf_setCutoffType (t : cutoff_kind) (c : cutoff_function) : cutoff_function :=
  mkCF t (cf_rc c) (cf_rcinv c) (cf_rci c) (cf_alpha c) (cf_iw c)
       (match t with
        | CT_POLY1 => core_setType CK_POLY1 (cf_core c)
        | CT_POLY2 => core_setType CK_POLY2 (cf_core c)
        | CT_POLY3 => core_setType CK_POLY3 (cf_core c)
        | CT_POLY4 => core_setType CK_POLY4 (cf_core c)
        | CT_EXP => core_setType CK_EXP (cf_core c)
        | _ => cf_core c
        end).

(** CutoffFunction.cpp:95-100 setCutoffRadius. *)
Definition cf_setCutoffRadius (rc : R) (c : cutoff_function) : cutoff_function :=
  mkCF (cf_type c) rc (1 / rc) (cf_rci c) (cf_alpha c) (cf_iw c) (cf_core c).

(** CutoffFunction.cpp:102-112 setCutoffParameter; [None] models the thrown
    invalid_argument. *)
Definition cf_setCutoffParameter (alpha : R) (c : cutoff_function)
  : option cutoff_function :=
  if Rlt_dec alpha 0 then None
  else if Rge_dec alpha 1 then None
  else let rci := cf_rc c * alpha in
       Some (mkCF (cf_type c) (cf_rc c) (cf_rcinv c) rci alpha
                  (1 / (cf_rc c - rci)) (cf_core c)).

(** CutoffFunction.h:222-225, CutoffFunction.cpp:114-119, 143-147, 165-169,
    187-192 (fHARD, fCOS, fTANHU, fTANH, fCORE).  std::tanh is the real tanh. *)
Definition cf_fPtr (c : cutoff_function) (r : R) : R :=
  match cf_type c with
  | CT_HARD => 1
  | CT_COS => if Rlt_dec r (cf_rci c) then 1
              else let x := (r - cf_rci c) * cf_iw c in
                   0.5 * (cos (c_PI * x) + 1)
  | CT_TANHU => let temp := tanh (1 - r * cf_rcinv c) in temp * temp * temp
  | CT_TANH => let temp := tanh (1 - r * cf_rcinv c) in
               c_TANH_PRE * temp * temp * temp
  | _ => if Rlt_dec r (cf_rci c) then 1
         else let x := (r - cf_rci c) * cf_iw c in core_f (cf_core c) x
  end.

(** CutoffFunction.h:227-230, CutoffFunction.cpp:121-126, 149-154, 171-176,
    194-199 (dfHARD, dfCOS, dfTANHU, dfTANH, dfCORE). *)
Definition cf_dfPtr (c : cutoff_function) (r : R) : R :=
  match cf_type c with
  | CT_HARD => 0
  | CT_COS => if Rlt_dec r (cf_rci c) then 0
              else let x := (r - cf_rci c) * cf_iw c in
                   - c_PI_2 * cf_iw c * sin (c_PI * x)
  | CT_TANHU => let t := tanh (1 - r * cf_rcinv c) in
                let temp := t * t in
                3 * temp * (temp - 1) * cf_rcinv c
  | CT_TANH => let t := tanh (1 - r * cf_rcinv c) in
               let temp := t * t in
               3 * c_TANH_PRE * temp * (temp - 1) * cf_rcinv c
  | _ => if Rlt_dec r (cf_rci c) then 0
         else let x := (r - cf_rci c) * cf_iw c in cf_iw c * core_df (cf_core c) x
  end.

(** CutoffFunction.h:232-238, CutoffFunction.cpp:128-141, 156-163, 178-185,
    201-213 (fdfHARD, fdfCOS, fdfTANHU, fdfTANH, fdfCORE). *)
Definition cf_fdfPtr (c : cutoff_function) (r : R) : R * R :=
  match cf_type c with
  | CT_HARD => (1, 0)
  | CT_COS => if Rlt_dec r (cf_rci c) then (1, 0)
              else let x := (r - cf_rci c) * cf_iw c in
                   let temp := cos (c_PI * x) in
                   (0.5 * (temp + 1),
                    -0.5 * cf_iw c * c_PI * sqrt (1 - temp * temp))
  | CT_TANHU => let temp := tanh (1 - r * cf_rcinv c) in
                let temp2 := temp * temp in
                (temp * temp2, 3 * temp2 * (temp2 - 1) * cf_rcinv c)
  | CT_TANH => let temp := tanh (1 - r * cf_rcinv c) in
               let temp2 := temp * temp in
               (c_TANH_PRE * temp * temp2,
                3 * c_TANH_PRE * temp2 * (temp2 - 1) * cf_rcinv c)
  | _ => if Rlt_dec r (cf_rci c) then (1, 0)
         else let x := (r - cf_rci c) * cf_iw c in
              let (fc, dfc) := core_fdf (cf_core c) x in (fc, dfc * cf_iw c)
  end.

(** CutoffFunction.h:198-202. *)
Definition cf_f (c : cutoff_function) (r : R) : R :=
  if Rge_dec r (cf_rc c) then 0 else cf_fPtr c r.

(** CutoffFunction.h:204-208. *)
Definition cf_df (c : cutoff_function) (r : R) : R :=
  if Rge_dec r (cf_rc c) then 0 else cf_dfPtr c r.

(** CutoffFunction.h:210-220. *)
Definition cf_fdf (c : cutoff_function) (r : R) : R * R :=
  if Rge_dec r (cf_rc c) then (0, 0) else cf_fdfPtr c r.

(** The way all users of the class configure it (SymFncBaseCutoff.cpp:38-49 and
    the members' later users): type, then radius, then parameter. *)
Definition cf_configure (t : cutoff_kind) (rc alpha : R) : option cutoff_function :=
  cf_setCutoffParameter alpha (cf_setCutoffRadius rc (cf_setCutoffType t cf_init)).
