(** Model of the evaluation of a 2G potential with the default compile time
    options: symmetry function memory, cache and groups are set up
    (Mode.cpp:212-236 setupGeneric), then the scaling is set, and
    Mode::evaluateNNP evaluates the groups (src/libnnp).

    Simplifications: as in Model/Forces.v; the count of neighbors for the log
    (Mode.cpp:1599-1610) is left out. *)
From Coq Require Import Reals ZArith List Bool Arith.
From Verif Require Import Base.Vec3 Base.Loop Model.NeuralNetwork Model.NeighborList Model.Scaling Model.SymFunctions
  Model.SymSetup Model.SymCache Model.SymGroups Model.Forces.
Import ListNotations.
Local Open Scope R_scope.

(** Element.h: symmetryFunctions with their tables, and symmetryFunctionGroups
    (empty until set up). *)
Record gelem := mkGElem { ge_elem : elem; ge_groups : list group }.

Section Setup.
Variables (K : Type) (K_dec : forall a b : K, {a = b} + {a <> b}) (key : symfnc -> K).
Variables (gsort : list (list symfnc) -> list (list symfnc)) (msort : list symfnc -> list symfnc).
Variable numElements : nat.

(** Mode.cpp:222-232, one element: memory (Mode.cpp:894-903), cache
    (Mode.cpp:984-1100), groups (Mode.cpp:842-892; [withGroups] = false: compiled
    with N2P2_NO_SF_GROUPS).  [None] = exception. *)
Definition setupElement (withGroups : bool) (fs : list symfnc) : option gelem :=
  let '(fs, table, nums) := setupMemory numElements fs in
  match setupCache K K_dec key numElements fs with
  | None => None
  | Some (fs, _) =>
    if withGroups
    then match setupSymmetryFunctionGroups gsort msort fs with
         | None => None
         | Some gs => Some (mkGElem (mkElem fs table nums) gs)
         end
    else Some (mkGElem (mkElem fs table nums) [])
  end.
(** Mode.cpp:212-236 setupGeneric, symmetry function part. *)
Definition setupAll (withGroups : bool) (fss : list (list symfnc)) : option (list gelem) :=
  sequence (map (setupElement withGroups) fss).
End Setup.

(** Mode.cpp:712-840 setupSymmetryFunctionScaling: Element.cpp:364-395 for
    every element; [sc e i] is the scaling of function i of element e. *)
Definition setupScaling (sc : nat -> nat -> scaling) (es : list gelem) : list gelem :=
  mapi (fun e g => mkGElem (mkElem (map (set_scaling (sc e)) (el_fs (ge_elem g))) (el_table (ge_elem g)) (el_nums (ge_elem g)))
                           (map (set_group_scaling (sc e)) (ge_groups g))) es.

(** Mode.cpp:1574-1617, one pass of the loop over the atoms; [None] =
    exception: unknown element, no symmetry functions (Atom.cpp:170-174), or one
    raised by calculate. *)
Definition sf_atom_groups (Z : nat -> R) (es : list gelem) (a : atom) : option eatom :=
  match nth_error es (a_element a) with
  | None => None
  | Some e =>
    if Nat.eqb (length (el_fs (ge_elem e))) 0 then None
    else match calculateGroups Z a true (ge_groups e) allocated with
         | None => None
         | Some st => Some (mkEAtom a st (fun _ => 0) 0 vzero)
         end
  end.
(** Mode.cpp:1561-1640 calculateSymmetryFunctionGroups with derivatives, for a
    structure without stored results. *)
Definition calculateSymmetryFunctionGroups (Z : nat -> R) (es : list gelem) (atoms : list atom) : option (list eatom) :=
  sequence (map (sf_atom_groups Z es) atoms).

(** Mode.cpp:1967-2016 evaluateNNP with forces for a 2G potential.  Groups are
    used unless NNP_NO_SF_GROUPS is defined (line 1983; the option which
    switches off the set-up is called N2P2_NO_SF_GROUPS, line 230). *)
Definition evaluateGroups (nsort : list neighbor -> list neighbor) (fuel : nat) (Z : nat -> R) (es : list gelem)
           (nets : nat -> network) (maxrc : R) (s : structure) : option (R * list eatom) :=
  match calculateNeighborList nsort fuel maxrc false s with
  | None => None
  | Some s =>
    match calculateSymmetryFunctionGroups Z es (s_atoms s) with
    | None => None
    | Some xs =>
      let (xs, _) := atomicNetworks nets xs in
      match calculateForces (map ge_elem es) maxrc xs with
      | None => None
      | Some ys => Some (calculateEnergy xs, ys)
      end
    end
  end.
