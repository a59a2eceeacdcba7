(** Simulation cells of LAMMPS (C102). *)
From Coq Require Import Reals ZArith List.
From Verif Require Import Base.Vec3 Model.LammpsCell.
Local Open Scope R_scope.

(** Edge vectors of the LAMMPS cell with corners xlo .. zhi and tilt factors xy,
    xz, yz (LAMMPS manual, section on triclinic cells). *)
Definition lammps_cell (c : box_call) : mat :=
  mkMat (mkVec (vx (bc_hi c) - vx (bc_lo c)) 0 0)
        (mkVec (bc_xy c) (vy (bc_hi c) - vy (bc_lo c)) 0)
        (mkVec (bc_xz c) (bc_yz c) (vz (bc_hi c) - vz (bc_lo c))).
(** Upper bounds above the lower ones. *)
Definition proper (c : box_call) : Prop :=
  vx (bc_lo c) < vx (bc_hi c) /\ vy (bc_lo c) < vy (bc_hi c) /\ vz (bc_lo c) < vz (bc_hi c).
(** Two of the edges are not perpendicular. *)
Definition oblique (c : box_call) : Prop :=
  let b := lammps_cell c in dot (m0 b) (m1 b) <> 0 \/ dot (m0 b) (m2 b) <> 0 \/ dot (m1 b) (m2 b) <> 0.
(** One of the tilt factors is positive (at least a normal number). *)
Definition tilted_forward (c : box_call) : Prop :=
  powerRZ 2 (-1022) < bc_xy c \/ powerRZ 2 (-1022) < bc_xz c \/ powerRZ 2 (-1022) < bc_yz c.
