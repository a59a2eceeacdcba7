(** Reciprocal lattice and buffered functions (C43, C44). *)
From Coq Require Import Reals ZArith List Arith.
From Verif Require Import Base.Vec3 Base.Erf Model.Kspace.
Import ListNotations.
Local Open Scope R_scope.

(** Reciprocal lattice vectors of a cell: scalar products with the cell vectors
    are multiples of 2 pi. *)
Definition reciprocal (box : mat) (k : vec) : Prop :=
  exists a b c : Z, dot k (m0 box) = 2 * PI * IZR a /\ dot k (m1 box) = 2 * PI * IZR b /\ dot k (m2 box) = 2 * PI * IZR c.

(** A query of the buffer: atom, neighbor, kind of value, argument. *)
Record query := mkQuery { qu_atom : nat; qu_neigh : nat; qu_val : nat; qu_x : R }.
Definition same_slot (p q : query) : bool :=
  (Nat.eqb (qu_atom p) (qu_atom q) && Nat.eqb (qu_neigh p) (qu_neigh q) && Nat.eqb (qu_val p) (qu_val q))%bool.
(** Queries within the reserved space. *)
Definition in_space (numNeighbors : list nat) (valuesPerPair : nat) (q : query) : Prop :=
  (exists n, nth_error numNeighbors (qu_atom q) = Some n /\ (qu_neigh q < n)%nat) /\ (qu_val q < valuesPerPair)%nat.
(** What a sequence of queries is answered: erfc of the argument with which the
    same entry was first queried. *)
Fixpoint answers (before : list query) (l : list query) : list R :=
  match l with
  | [] => []
  | q :: r =>
    (match find (same_slot q) before with Some p => erfc (qu_x p) | None => erfc (qu_x q) end)
    :: answers (before ++ [q]) r
  end.
(** Asking one after the other. *)
Fixpoint ask (l : list query) (b : erfcbuf) : option (list R * erfcbuf) :=
  match l with
  | [] => Some ([], b)
  | q :: r =>
    match buf_getf (qu_atom q) (qu_neigh q) (qu_val q) (qu_x q) b with
    | None => None
    | Some (v, b) => match ask r b with None => None | Some (vs, b) => Some (v :: vs, b) end
    end
  end.
