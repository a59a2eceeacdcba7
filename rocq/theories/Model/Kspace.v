(** Model of src/libnnp/Kspace.cpp (reciprocal space grid) and
    src/libnnp/ErfcBuf.cpp. *)
From Coq Require Import Reals ZArith List Bool Arith.
From Verif Require Import Base.Vec3 Base.Erf Model.Geometry Model.NeighborList.
Import ListNotations.
Local Open Scope R_scope.

(** Kspace.h:30-50 class Kvector. *)
Record kvector := mkKvec { kv_k : vec; kv_knorm2 : R; kv_coeff : R }.
(** Kspace.h:55-75 class KspaceGrid. *)
Record kspace_grid := mkGrid {
  kg_eta : R; kg_kCut : R; kg_volume : R; kg_pre : R; kg_n : nat * nat * nat; kg_kbox : mat; kg_kvectors : list kvector
}.
(** Kspace.cpp:36-42, the constructor. *)
Definition grid_init : kspace_grid :=
  mkGrid 0 0 0 0 (0%nat, 0%nat, 0%nat) (mkMat vzero vzero vzero) [].

(** for (int i = 0; i <= n; ++i) *)
Definition zupto (n : nat) : list Z := map Z.of_nat (seq 0 (n + 1)).
(** Kspace.cpp:62-71: the index triples of the loops in order, without (0,0,0). *)
Definition half_triples (n : nat * nat * nat) : list (Z * Z * Z) :=
  let '(n0, n1, n2) := n in
  flat_map (fun i => flat_map (fun j => flat_map (fun k =>
      if (Z.eqb i 0 && Z.eqb j 0 && Z.eqb k 0)%bool then [] else [(i, j, k)])
    (if (Z.eqb i 0 && Z.eqb j 0)%bool then zupto n2 else zrange n2))
    (if Z.eqb i 0 then zupto n1 else zrange n1)) (zupto n0).

(** Kspace.cpp:45-84 setup; the copies n are calculated as in
    Structure::calculatePbcCopies (Kspace.cpp:86-108; [None] = loop not finished
    within [fuel]).  New vectors are appended to those already in the grid. *)
Definition grid_setup (fuel : nat) (box : mat) (eta kCut : R) (g : kspace_grid) : option kspace_grid :=
  let volume := Rabs (dot (m0 box) (cross (m1 box) (m2 box))) in
  let pre := 2 * PI / volume in
  let kbox := mkMat (smul pre (cross (m1 box) (m2 box))) (smul pre (cross (m2 box) (m0 box))) (smul pre (cross (m0 box) (m1 box))) in
  match calculatePbcCopies fuel kbox kCut with
  | None => None
  | Some n =>
    let kvs := flat_map (fun ijk : Z * Z * Z => let '(i, j, k) := ijk in
      let kv := vadd (vadd (smul (IZR i) (m0 kbox)) (smul (IZR j) (m1 kbox))) (smul (IZR k) (m2 kbox)) in
      let knorm2 := norm2 kv in
      if Rlt_dec (norm2 kv) (kCut * kCut)
      then [mkKvec kv knorm2 (exp (- (1 / 2) * eta * eta * knorm2) * 2 * pre / knorm2)]
      else []) (half_triples n) in
    Some (mkGrid eta kCut volume pre n kbox (kg_kvectors g ++ kvs))
  end.

(** ErfcBuf.h:25-50 class ErfcBuf. *)
Record erfcbuf := mkBuf { eb_f : list (list R); eb_num : nat }.
(** ErfcBuf.cpp:10-19 reset: one row for each atom with room for its
    neighbors. *)
Definition buf_reset (numNeighbors : list nat) (valuesPerPair : nat) : erfcbuf :=
  mkBuf (map (fun n => repeat (- (1)) (n * valuesPerPair)) numNeighbors) valuesPerPair.
(** Replace the element at a position. *)
Fixpoint set_nth {A} (l : list A) (i : nat) (v : A) : list A :=
  match l, i with
  | [], _ => []
  | _ :: r, O => v :: r
  | x :: r, S k => x :: set_nth r k v
  end.
(** ErfcBuf.cpp:21-32 getf; [None] = at() throws. *)
Definition buf_getf (atom neigh val : nat) (x : R) (b : erfcbuf) : option (R * erfcbuf) :=
  let j := (neigh * eb_num b + val)%nat in
  match nth_error (eb_f b) atom with
  | None => None
  | Some row =>
    match nth_error row j with
    | None => None
    | Some v =>
      if Req_EM_T v (- (1))
      then Some (erfc x, mkBuf (set_nth (eb_f b) atom (set_nth row j (erfc x))) (eb_num b))
      else Some (v, b)
    end
  end.
