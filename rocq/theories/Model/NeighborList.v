(** Model of the neighbor list of Structure and Atom
    (src/libnnp/Structure.cpp, src/libnnp/Atom.cpp). *)
From Coq Require Import Reals ZArith List Bool Arith.
From Verif Require Import Base.Vec3 Model.Geometry.
Import ListNotations.
Local Open Scope R_scope.

(** Atom.h:37-78 class Atom::Neighbor (index, tag, element, d, dr). *)
Record neighbor := mkNb { nb_index : nat; nb_tag : Z; nb_element : nat; nb_d : R; nb_dr : vec }.

(** Atom.h:85-290, the members taking part in neighbor lists.  neighborCutoffs
    (an unordered_map) is an association list; [numNeighborsPerElement] a vector. *)
Record atom := mkAtom {
  a_element : nat; a_r : vec;
  a_hasNL : bool; a_sorted : bool;
  a_numN : nat; a_numU : nat;
  a_perEl : list nat; a_unique : list nat; a_nbs : list neighbor;
  a_cutoffs : list (R * nat)
}.
(** Structure.h:45-110, the members taking part in neighbor lists. *)
Record structure := mkStruct {
  s_periodic : bool; s_box : mat; s_atoms : list atom;
  s_numElements : nat;
  s_hasNL : bool; s_sorted : bool; s_maxrc : R
}.
Definition set_atoms (s : structure) (l : list atom) : structure :=
  mkStruct (s_periodic s) (s_box s) l (s_numElements s) (s_hasNL s) (s_sorted s) (s_maxrc s).

(** Atom.cpp:25-45 default constructor. *)
Definition fresh_atom (element : nat) (r : vec) (numElements : nat) : atom :=
  mkAtom element r false false 0 0 (repeat 0%nat numElements) [] [] [].

(** v[i]++ on a vector; [None] = index out of bounds (undefined behaviour). *)
Fixpoint incr_at (l : list nat) (i : nat) : option (list nat) :=
  match l, i with
  | [], _ => None
  | x :: r, O => Some (S x :: r)
  | x :: r, S k => match incr_at r k with Some r' => Some (x :: r') | None => None end
  end.

(** for (int b = -p; b <= p; b++). *)
Definition zrange (p : nat) : list Z := map (fun k => (Z.of_nat k - Z.of_nat p)%Z) (seq 0 (2 * p + 1)).
(** Structure.cpp:308-316: the iterations (j, bc0, bc1, bc2) in loop order. *)
Definition candidates (n : nat) (pbc : nat * nat * nat) : list (nat * (Z * Z * Z)) :=
  let '(p0, p1, p2) := pbc in
  flat_map (fun j => flat_map (fun b0 => flat_map (fun b1 => map (fun b2 => (j, (b0, b1, b2)))
     (zrange p2)) (zrange p1)) (zrange p0)) (seq 0 n).

Definition is_self (i j : nat) (bc : Z * Z * Z) : bool :=
  let '(b0, b1, b2) := bc in
  (Nat.eqb i j && Z.eqb b0 0 && Z.eqb b1 0 && Z.eqb b2 0)%bool.
(** Structure.cpp:319-322. *)
Definition pair_dr (box : mat) (ri rj : vec) (bc : Z * Z * Z) : vec :=
  let '(b0, b1, b2) := bc in
  vadd (vadd (vadd (vsub ri rj) (smul (IZR b0) (m0 box))) (smul (IZR b1) (m1 box))) (smul (IZR b2) (m2 box)).

(** Structure.cpp:325-339 (and 373-379): store neighbor j of the atom. *)
Definition push_neighbor (a : atom) (j ej : nat) (dr : vec) : option atom :=
  match incr_at (a_perEl a) ej with
  | None => None
  | Some pe => Some (mkAtom (a_element a) (a_r a) (a_hasNL a) (a_sorted a) (S (a_numN a)) (a_numU a) pe
                 (a_unique a) (a_nbs a ++ [mkNb j (Z.of_nat j) ej (norm dr) dr]) (a_cutoffs a))
  end.
(** neighborsUnique.push_back(j); numNeighborsUnique++. *)
Definition push_unique (j : nat) (a : atom) : atom :=
  mkAtom (a_element a) (a_r a) (a_hasNL a) (a_sorted a) (a_numN a) (S (a_numU a)) (a_perEl a)
         (a_unique a ++ [j]) (a_nbs a) (a_cutoffs a).
Definition set_hasNL (b : bool) (a : atom) : atom :=
  mkAtom (a_element a) (a_r a) b (a_sorted a) (a_numN a) (a_numU a) (a_perEl a)
         (a_unique a) (a_nbs a) (a_cutoffs a).

(** Structure.cpp:317-349, body of the innermost loop. *)
Definition periodic_step (box : mat) (atoms : list atom) (rc2 : R) (i : nat) (acc : option atom)
           (cand : nat * (Z * Z * Z)) : option atom :=
  let (j, bc) := cand in
  match acc, nth_error atoms j with
  | Some a, Some aj =>
    if is_self i j bc then Some a
    else
      let dr := pair_dr box (a_r a) (a_r aj) bc in
      if Rle_dec (norm2 dr) rc2 then
        match push_neighbor a j (a_element aj) dr with
        | None => None
        | Some a =>
          if (negb (Nat.eqb (last (a_unique a) 0%nat) j) && negb (Nat.eqb i j))%bool
          then Some (push_unique j a) else Some a
        end
      else Some a
  | _, _ => None
  end.
(** Structure.cpp:372-387, body of the loop over j without periodicity. *)
Definition nonperiodic_step (atoms : list atom) (rc2 : R) (i : nat) (acc : option atom) (j : nat) : option atom :=
  match acc, nth_error atoms j with
  | Some a, Some aj =>
    if Nat.eqb i j then Some a
    else
      let dr := vsub (a_r a) (a_r aj) in
      if Rle_dec (norm2 dr) rc2 then
        match push_neighbor a j (a_element aj) dr with
        | None => None
        | Some a => Some (push_unique j a)
        end
      else Some a
  | _, _ => None
  end.

Fixpoint sequence {A} (l : list (option A)) : option (list A) :=
  match l with
  | [] => Some []
  | x :: r => match x, sequence r with Some a, Some t => Some (a :: t) | _, _ => None end
  end.

(** Structure.cpp:287-399 calculateNeighborList(cutoffRadius, sortByDistance).
    The iterations of the (OpenMP parallel) loop over i write only to atoms[i]
    and read only positions and elements of the others, hence the map.
    [nsort] is std::sort on neighbors; [fuel] bounds the search for the number of
    periodic copies ([None] = not terminated or undefined behaviour). *)
Definition calculate_atom (s : structure) (rc : R) (pbc : nat * nat * nat) (i : nat) (a : atom) : option atom :=
  let rc2 := rc * rc in
  let a1 := push_unique i a in
  match (if s_periodic s
         then fold_left (periodic_step (s_box s) (s_atoms s) rc2 i) (candidates (length (s_atoms s)) pbc) (Some a1)
         else fold_left (nonperiodic_step (s_atoms s) rc2 i) (seq 0 (length (s_atoms s))) (Some a1)) with
  | Some a' => Some (set_hasNL true a')
  | None => None
  end.
Definition mapi {A B} (f : nat -> A -> B) (l : list A) : list B :=
  map (fun p => f (fst p) (snd p)) (combine (seq 0 (length l)) l).

(** Structure.cpp:409-421 sortNeighborList. *)
Definition sort_atom (nsort : list neighbor -> list neighbor) (a : atom) : atom :=
  mkAtom (a_element a) (a_r a) (a_hasNL a) true (a_numN a) (a_numU a) (a_perEl a)
         (a_unique a) (nsort (a_nbs a)) (a_cutoffs a).
Definition sortNeighborList (nsort : list neighbor -> list neighbor) (s : structure) : structure :=
  mkStruct (s_periodic s) (s_box s) (map (sort_atom nsort) (s_atoms s)) (s_numElements s) (s_hasNL s) true (s_maxrc s).

Definition calculateNeighborList (nsort : list neighbor -> list neighbor) (fuel : nat)
           (rc : R) (sortByDistance : bool) (s : structure) : option structure :=
  let rc := Rmax rc (s_maxrc s) in
  let pbc := if s_periodic s then calculatePbcCopies fuel (s_box s) rc else Some (0, 0, 0)%nat in
  match pbc with
  | None => None
  | Some pbc =>
    match sequence (mapi (calculate_atom s rc pbc) (s_atoms s)) with
    | None => None
    | Some l =>
      let s' := mkStruct (s_periodic s) (s_box s) l (s_numElements s) true (s_sorted s) (s_maxrc s) in
      Some (if sortByDistance then sortNeighborList nsort s' else s')
    end
  end.

(** Atom.cpp:600-610 Neighbor::operator<. *)
Definition nb_lt (a b : neighbor) : bool := if Rlt_dec (nb_d a) (nb_d b) then true else false.

(** Structure.cpp:430-443: add the overall maximum cutoff if missing, sort.
    (Sorting real numbers is deterministic; insertion sort stands for std::sort.) *)
Fixpoint rinsert (x : R) (l : list R) : list R :=
  match l with [] => [x] | y :: r => if Rle_dec x y then x :: l else y :: rinsert x r end.
Definition rsort (l : list R) : list R := fold_right rinsert [] l.
Definition rmem (x : R) (l : list R) : bool := existsb (fun y => if Req_EM_T x y then true else false) l.
Definition prepare_cutoffs (maxrc : R) (l : list R) : list R :=
  let l := if Rlt_dec 0 maxrc then (if rmem maxrc l then l else l ++ [maxrc]) else l in
  rsort l.
(** unordered_map::find and emplace (no effect if the key exists). *)
Fixpoint cfind (m : list (R * nat)) (k : R) : option nat :=
  match m with [] => None | (x, v) :: r => if Req_EM_T x k then Some v else cfind r k end.
Definition emplace (m : list (R * nat)) (k : R) (v : nat) : list (R * nat) :=
  match cfind m k with Some _ => m | None => (k, v) :: m end.
(** Structure.cpp:453-469, the while loop for one atom; state (in, ic, map).
    [fuel] bounds the iterations; [None] = not finished or index out of bounds. *)
Fixpoint cutoff_loop (fuel : nat) (nbs : list neighbor) (numN : nat) (cs : list R) (i_n ic : nat)
         (m : list (R * nat)) : option (list (R * nat)) :=
  match fuel with
  | O => None
  | S f =>
    if (Nat.ltb i_n numN && Nat.ltb ic (length cs))%bool then
      match nth_error nbs i_n, nth_error cs ic with
      | Some n, Some c =>
        if Rlt_dec c (nb_d n) then cutoff_loop f nbs numN cs i_n (S ic) (emplace m c i_n)
        else if Nat.eqb i_n (numN - 1) then cutoff_loop f nbs numN cs i_n (S ic) (emplace m c numN)
        else cutoff_loop f nbs numN cs (S i_n) ic m
      | _, _ => None
      end
    else Some m
  end.
Definition set_cutoffs (m : list (R * nat)) (a : atom) : atom :=
  mkAtom (a_element a) (a_r a) (a_hasNL a) (a_sorted a) (a_numN a) (a_numU a) (a_perEl a)
         (a_unique a) (a_nbs a) m.
Definition setup_atom_cutoffs (cutoffs : list (list R)) (a : atom) : option atom :=
  match nth_error cutoffs (a_element a) with
  | None => None                     (* cutoffs.at(eIndex) throws *)
  | Some cs =>
    match cutoff_loop (a_numN a + length cs + 1) (a_nbs a) (a_numN a) cs 0 0 (a_cutoffs a) with
    | None => None
    | Some m => Some (set_cutoffs m a)
    end
  end.
(** Structure.cpp:423-471 setupNeighborCutoffMap; [None] = exception. *)
Definition setupNeighborCutoffMap (cutoffs : list (list R)) (s : structure) : option structure :=
  if s_sorted s then
    let cutoffs := map (prepare_cutoffs (s_maxrc s)) cutoffs in
    match sequence (map (setup_atom_cutoffs cutoffs) (s_atoms s)) with
    | None => None
    | Some l => Some (set_atoms s l)
    end
  else None.

(** Atom.cpp:307-327 calculateNumNeighbors. *)
Definition calculateNumNeighbors (a : atom) (rc : R) : nat :=
  match cfind (a_cutoffs a) rc with
  | Some v => v
  | None => length (filter (fun n => if Rle_dec (nb_d n) rc then true else false) (a_nbs a))
  end.
(** Atom.cpp:329-338 getStoredMinNumNeighbors. *)
Definition getStoredMinNumNeighbors (a : atom) (rc : R) : nat :=
  match cfind (a_cutoffs a) rc with Some v => v | None => a_numN a end.
(** Atom.cpp:340-345 isNeighbor. *)
Definition isNeighbor (a : atom) (index : nat) : bool :=
  existsb (fun n => Nat.eqb (nb_index n) index) (a_nbs a).

(** std::vector::resize(n, 0). *)
Definition resize0 (n : nat) (l : list nat) : list nat := firstn n l ++ repeat 0%nat (n - length l).
(** Atom.cpp:292-305 clearNeighborList(numElements) (the symmetry function
    members freed by free(true) are not part of this model). *)
Definition atom_clearNeighborList (numElements : nat) (a : atom) : atom :=
  mkAtom (a_element a) (a_r a) false (a_sorted a) 0 0 (resize0 numElements (a_perEl a)) [] [] (a_cutoffs a).
(** Structure.cpp:1356-1370 clearNeighborList. *)
Definition clearNeighborList (s : structure) : structure :=
  mkStruct (s_periodic s) (s_box s)
    (map (fun a => let a := mkAtom (a_element a) (a_r a) (a_hasNL a) (a_sorted a) (a_numN a) (a_numU a)
                              (resize0 (s_numElements s) (a_perEl a)) (a_unique a) (a_nbs a) (a_cutoffs a) in
                   atom_clearNeighborList (length (a_perEl a)) a) (s_atoms s))
    (s_numElements s) false (s_sorted s) (s_maxrc s).

(** Structure.cpp:473-484 getMaxNumNeighbors. *)
Definition getMaxNumNeighbors (s : structure) : nat := fold_left (fun m a => Nat.max m (a_numN a)) (s_atoms s) 0%nat.
