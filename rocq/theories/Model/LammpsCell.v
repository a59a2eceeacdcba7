(** Model of the parts of the LAMMPS interface used with charges: the cell passed
    to the interface and the charges passed back (InterfaceLammps.cpp in
    src/libnnpif/LAMMPS). *)
From Coq Require Import Reals List Bool.
From Verif Require Import Base.Vec3 Base.Loop Model.Geometry Model.LammpsInterface.
Import ListNotations.
Local Open Scope R_scope.

(** Structure.h members isPeriodic, isTriclinic, volume, box and invbox. *)
Record lcell := mkLCell { lc_periodic : bool; lc_triclinic : bool; lc_volume : R; lc_box : mat; lc_invbox : mat }.
(** One call of setBoxVectors: lower and upper corner, tilt factors. *)
Record box_call := mkBoxCall { bc_lo : vec; bc_hi : vec; bc_xy : R; bc_xz : R; bc_yz : R }.

(** numeric_limits<double>::min(): the smallest positive normal number. *)
Definition smallest_normal : R := powerRZ 2 (-1022).
(** Comparison a > b of doubles. *)
Definition above (a b : R) : bool := if Rlt_dec b a then true else false.
(** InterfaceLammps.cpp:354-367: box[0], box[1], box[2]. *)
Definition rawBox (c : box_call) : mat :=
  mkMat (mkVec (vx (bc_hi c) - vx (bc_lo c)) 0 0)
        (mkVec (bc_xy c) (vy (bc_hi c) - vy (bc_lo c)) 0)
        (mkVec (bc_xz c) (bc_yz c) (vz (bc_hi c) - vz (bc_lo c))).
(** InterfaceLammps.cpp:371-379: condition for isTriclinic. *)
Definition seemsTriclinic (b : mat) : bool :=
  (above (vy (m0 b)) smallest_normal || above (vz (m0 b)) smallest_normal ||
   above (vx (m1 b)) smallest_normal || above (vz (m1 b)) smallest_normal ||
   above (vx (m2 b)) smallest_normal || above (vy (m2 b)) smallest_normal)%bool.
(** InterfaceLammps.cpp:381-385: unit conversion of one box vector. *)
Definition scaleRow (I : interface) (v : vec) : vec :=
  let v := smul (if_cflength I) v in if if_normalize I then smul (if_convLength I) v else v.
(** InterfaceLammps.cpp:346-399 setBoxVectors.  (calculateInverseBox divides by
    zero for a flat cell; the theorems exclude this case.) *)
Definition setBoxVectors (I : interface) (c : box_call) (s : lcell) : lcell :=
  let raw := rawBox c in
  let tri := if seemsTriclinic raw then true else lc_triclinic s in
  let box := mkMat (scaleRow I (m0 raw)) (scaleRow I (m1 raw)) (scaleRow I (m2 raw)) in
  mkLCell true tri (calculateVolume box) box (calculateInverseBox box).

(** InterfaceLammps.cpp:623-636 getCharges.  [is4G]: nnpType is HDNNP_4G;
    [charges]: the member charge of structure.atoms; [q]: the LAMMPS array
    ([None] = null pointer). *)
Fixpoint putCharges (i : nat) (charges : list R) (q : nat -> R) : nat -> R :=
  match charges with [] => q | c :: r => putCharges (S i) r (upd q i c) end.
Definition getCharges (is4G : bool) (charges : list R) (q : option (nat -> R)) : option (nat -> R) :=
  if is4G then match q with Some q => Some (putCharges 0 charges q) | None => None end else q.
