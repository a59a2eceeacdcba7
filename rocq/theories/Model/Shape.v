(** Model of the shape files of symmetry functions (nnp-symfunc): SetupAnalysis.cpp
    and calculateRadialPart, calculateAngularPart of the SymFnc*.cpp.

    Not modelled: file headers and the text of the numbers (see Printf.v). *)
From Coq Require Import Reals ZArith List Arith.
From Verif Require Import Base.Vec3 Model.CoreFunction Model.CutoffFunction Model.CompactScreening Model.SymFunctions.
Import ListNotations.
Local Open Scope R_scope.

(** std::pow(x, y) for x >= 0 and y > 0. *)
Definition std_pow (x y : R) : R := if Req_EM_T x 0 then 0 else Rpower x y.
(** exp(-eta * (r - rs) * (r - rs)) * fc.f(r). *)
Definition gauss (eta rs : R) (fc : cutoff_function) (r : R) : R := exp (- eta * (r - rs) * (r - rs)) * cf_f fc r.
(** calculateRadialPart: SymFncExpRad.cpp:218-223, SymFncExpRadWeighted.cpp:201-206,
    SymFncBaseExpAng.cpp:166-172, SymFncExpAngnWeighted.cpp:325-331,
    SymFncCompRad.cpp:210-215, SymFncCompRadWeighted.cpp:190-195,
    SymFncBaseCompAng.cpp:178-183, SymFncBaseCompAngWeighted.cpp:157-162. *)
Definition radialPart (convLength : R) (k : kind) (distance : R) : R :=
  let r := distance * convLength in
  match k with
  | ExpRad p | ExpRadWeighted p => gauss (er_eta p) (er_rs p) (er_fc p) r
  | ExpAngn p | ExpAngw p => gauss (ea_eta p) (ea_rs p) (ea_fc p) r
  | ExpAngnWeighted p => let g := gauss (ea_eta p) (ea_rs p) (ea_fc p) r in g * g * g
  | CompRad p | CompRadWeighted p => cp_f (cr_c p) r
  | CompAngn p | CompAngw p | CompAngnWeighted p | CompAngwWeighted p => cp_f (ca_c p) r
  end.
(** calculateAngularPart: SymFncExpRad.cpp:225-228, SymFncExpRadWeighted.cpp:208-211,
    SymFncBaseExpAng.cpp:174-177, SymFncExpAngnWeighted.cpp:333-336,
    SymFncCompRad.cpp:217-220, SymFncCompRadWeighted.cpp:197-200,
    SymFncBaseCompAng.cpp:185-188, SymFncBaseCompAngWeighted.cpp:164-167. *)
Definition angularPart (k : kind) (angle : R) : R :=
  match k with
  | ExpRad _ | ExpRadWeighted _ | CompRad _ | CompRadWeighted _ => 1
  | ExpAngn p | ExpAngw p | ExpAngnWeighted p => 2 * std_pow ((1 + ea_lambda p * cos angle) / 2) (ea_zeta p)
  | CompAngn p | CompAngw p | CompAngnWeighted p | CompAngwWeighted p => cp_f (ca_a p) angle
  end.
(** A line: distance, sf_radial, angle, sf_angular. *)
Record shapeRow := mkRow { sr_distance : R; sr_radial : R; sr_angle : R; sr_angular : R }.
(** SetupAnalysis.cpp:35-37, 83-90 writeSymmetryFunctionShape, one file.  ([n] = 0
    divides by zero there; the theorem excludes it.) *)
Definition shapeRows (convLength maxCutoffRadius : R) (k : kind) (n : nat) : list shapeRow :=
  let dr := maxCutoffRadius / INR n in
  let da := PI / INR n in
  map (fun i => mkRow (INR i * dr) (radialPart convLength k (INR i * dr)) (INR i * da) (angularPart k (INR i * da))) (seq 0 (n + 1)).
