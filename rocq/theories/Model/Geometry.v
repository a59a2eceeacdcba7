(** Model of the cell geometry in Structure (src/libnnp/Structure.cpp). *)
From Coq Require Import Reals ZArith List Lra.
From Verif Require Import Base.Vec3.
Import ListNotations.
Local Open Scope R_scope.

(** Structure.cpp:519-545 calculateInverseBox: the array invbox. *)
Definition calculateInverseBox (box : mat) : mat :=
  let b00 := vx (m0 box) in let b01 := vy (m0 box) in let b02 := vz (m0 box) in
  let b10 := vx (m1 box) in let b11 := vy (m1 box) in let b12 := vz (m1 box) in
  let b20 := vx (m2 box) in let b21 := vy (m2 box) in let b22 := vz (m2 box) in
  let invdet := b00 * b11 * b22 + b10 * b21 * b02 + b20 * b01 * b12
              - b20 * b11 * b02 - b00 * b21 * b12 - b10 * b01 * b22 in
  let invdet := 1 / invdet in
  mkMat
    (smul invdet (mkVec (b11 * b22 - b21 * b12) (b21 * b02 - b01 * b22) (b01 * b12 - b11 * b02)))
    (smul invdet (mkVec (b20 * b12 - b10 * b22) (b00 * b22 - b20 * b02) (b10 * b02 - b00 * b12)))
    (smul invdet (mkVec (b10 * b21 - b20 * b11) (b20 * b01 - b00 * b21) (b00 * b11 - b10 * b01))).

(** Structure.cpp:581-586 calculateVolume. *)
Definition calculateVolume (box : mat) : R := Rabs (dot (m0 box) (cross (m1 box) (m2 box))).

(** Conversion (int)x: truncation towards zero, undefined ([None]) if the result
    is not an int. *)
Definition trunc (x : R) : Z := if Rle_dec 0 x then Int_part x else (- Int_part (- x))%Z.
Definition to_int (x : R) : option Z :=
  let t := trunc x in
  if (Z.leb (- 2147483648) t && Z.leb t 2147483647)%bool then Some t else None.

(** Structure.cpp:1231-1241, one component of remap. *)
Definition remap1 (f : R) : option R :=
  let step1 := if Rlt_dec 1 f then match to_int f with Some t => Some (f - IZR t) | None => None end
               else Some f in
  match step1 with
  | None => None
  | Some f =>
    let step2 := if Rlt_dec f 0 then match to_int f with Some t => Some (f + (1 - IZR t)) | None => None end
                 else Some f in
    match step2 with
    | None => None
    | Some f => Some (if Req_EM_T f 1 then 0 else f)
    end
  end.
(** Structure.cpp:1224-1247 remap(atom): new position; [None] = undefined
    behaviour of the int conversion. *)
Definition remap (box invbox : mat) (r : vec) : option vec :=
  let f := vadd (vadd (smul (vx r) (m0 invbox)) (smul (vy r) (m1 invbox))) (smul (vz r) (m2 invbox)) in
  match remap1 (vx f), remap1 (vy f), remap1 (vz f) with
  | Some f0, Some f1, Some f2 => Some (vadd (vadd (smul f0 (m0 box)) (smul f1 (m1 box))) (smul f2 (m2 box)))
  | _, _, _ => None
  end.

(** Structure.cpp:503-514: while (n * proj <= cutoffRadius) n++.  [fuel] bounds
    the iterations; [None] = not finished yet.  (Overflow of the int counter is
    not modelled.) *)
Fixpoint copies_loop (fuel n : nat) (proj rc : R) : option nat :=
  match fuel with
  | O => None
  | S m => if Rle_dec (INR n * proj) rc then copies_loop m (S n) proj rc else Some n
  end.
(** Structure.cpp:488-498, 554-561: the three plane distances. *)
Definition projections (box : mat) : R * R * R :=
  let axb := normalize (cross (m0 box) (m1 box)) in
  let axc := normalize (cross (m0 box) (m2 box)) in
  let bxc := normalize (cross (m1 box) (m2 box)) in
  (Rabs (dot (m0 box) bxc), Rabs (dot (m1 box) axc), Rabs (dot (m2 box) axb)).
(** Structure.cpp:486-517 calculatePbcCopies; also Kspace.cpp:86-108. *)
Definition calculatePbcCopies (fuel : nat) (box : mat) (rc : R) : option (nat * nat * nat) :=
  let '(pa, pb, pc) := projections box in
  match copies_loop fuel 0 pa rc, copies_loop fuel 0 pb rc, copies_loop fuel 0 pc rc with
  | Some a, Some b, Some c => Some (a, b, c)
  | _, _, _ => None
  end.

(** Structure.cpp:548-565 canMinimumImageConventionBeApplied. *)
Definition canMinimumImageConventionBeApplied (box : mat) (rc : R) : bool :=
  let '(pa, pb, pc) := projections box in
  let minProj := Rmin pa (Rmin pb pc) in
  if Rlt_dec rc (minProj / 2) then true else false.

(** round(): half away from zero. *)
Definition c_round (x : R) : Z :=
  if Rle_dec 0 x then Int_part (x + / 2) else (- Int_part (- x + / 2))%Z.
(** Structure.cpp:567-579 applyMinimumImageConvention. *)
Definition applyMinimumImageConvention (box invbox : mat) (dr : vec) : vec :=
  let ds := matvec invbox dr in
  let n := mkVec (IZR (c_round (vx ds))) (IZR (c_round (vy ds))) (IZR (c_round (vz ds))) in
  matvec box (vsub ds n).
