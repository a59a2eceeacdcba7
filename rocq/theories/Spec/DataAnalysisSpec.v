(** What the files of nnp-scaling and nnp-atomenv should contain (C87, C88). *)
From Coq Require Import Reals Bool Arith List Sorted.
From Verif Require Import Base.Vec3 Base.SumR Model.NeighborList Model.DataAnalysis Spec.ScalingSpec Spec.NeighborSpec.
Import ListNotations.
Local Open Scope R_scope.

(** ** Histograms *)
Definition number_in (lo hi : R) (V : list R) : nat :=
  length (filter (fun v => if Rle_dec lo v then if Rlt_dec v hi then true else false else false) V).
(** Bins of width [w] starting at [lo], with the number of values in each. *)
Definition is_histogram (V : list R) (lo w : R) (bins : nat) (file : list (R * R * R)) : Prop :=
  length file = bins /\
  forall k, (k < bins)%nat -> nth_error file k =
    Some (lo + INR k * w, lo + INR (k + 1) * w, INR (number_in (lo + INR k * w) (lo + INR (k + 1) * w) V)).
Definition counts (file : list (R * R * R)) : list R := map snd file.
(** All values of symmetry function [s] of element [e] in the data set. *)
Definition all_values (e s : nat) (procs : list (list (nat * list R))) : list R :=
  flat_map (fun a : nat * list R => if Nat.eqb (fst a) e then match nth_error (snd a) s with Some g => [g] | None => [] end else [])
           (concat procs).
Definition finite_values (procs : list (list (nat * list R))) : Prop :=
  forall atoms a, In atoms procs -> In a atoms -> Forall finite_double (snd a).
Definition varies (V : list R) : Prop := exists x y, In x V /\ In y V /\ x < y.
(** Elements known, no more values than symmetry functions. *)
Definition known (numSF : list nat) (procs : list (list (nat * list R))) : Prop :=
  forall atoms a, In atoms procs -> In a atoms -> exists n, nth_error numSF (fst a) = Some n /\ (length (snd a) <= n)%nat.

(** Numbers of neighbors of all atoms. *)
Definition all_counts (procs : list (list (nat * list nat))) : list nat := flat_map snd (concat procs).
Definition structure_row (s : nat * list nat) (r : stat_row) : Prop :=
  r_index r = S (fst s) /\ r_natoms r = length (snd s) /\
  (snd s <> [] ->
     (exists m, In m (snd s) /\ r_min r = Z.of_nat m /\ forall n, In n (snd s) -> (m <= n)%nat) /\
     (In (r_max r) (snd s) /\ forall n, In n (snd s) -> (n <= r_max r)%nat) /\
     r_mean r = rsum (map INR (snd s)) / INR (length (snd s))).

(** ** Environments *)
Inductive subsequence {A} : list A -> list A -> Prop :=
| sub_nil : subsequence [] []
| sub_take x l l' : subsequence l l' -> subsequence (x :: l) (x :: l')
| sub_skip x l l' : subsequence l l' -> subsequence l (x :: l').
Definition of_element (e : nat) (l : list neighbor) : list neighbor := filter (fun n => Nat.eqb (nb_element n) e) l.
(** [chosen] are the [c] nearest members of [l]. *)
Definition nearest (c : nat) (l chosen : list neighbor) : Prop :=
  exists rest, l = chosen ++ rest /\ length chosen = c /\ forall x y, In x chosen -> In y rest -> nb_d x <= nb_d y.
Definition cutoff (cut : list (list nat)) (i j : nat) : nat := nth j (nth i cut []) 0%nat.
Definition G_of (atoms : list env_atom) (i : nat) : list R := match nth_error atoms i with Some a => ea_G a | None => [] end.
(** Line of atom [a]: its own values, then those of the nearest neighbors of each
    element, in the order of the neighbor list. *)
Definition environment (numElements : nat) (cut : list (list nat)) (sa : list env_atom * env_atom) (line : nat * list R) : Prop :=
  let (s, a) := sa in
  exists chosen, line = (a_element (ea_atom a), ea_G a ++ flat_map (fun n => G_of s (nb_index n)) chosen) /\
    subsequence chosen (a_nbs (ea_atom a)) /\
    forall e, (e < numElements)%nat ->
      nearest (cutoff cut (a_element (ea_atom a)) e) (of_element e (a_nbs (ea_atom a))) (of_element e chosen).
(** A structure with its neighbor list. *)
Definition listed (numElements : nat) (s : list env_atom) : Prop :=
  forall a, In a s ->
    (a_element (ea_atom a) < numElements)%nat /\
    (forall e, (e < numElements)%nat -> nth_error (a_perEl (ea_atom a)) e = Some (length (of_element e (a_nbs (ea_atom a))))) /\
    (forall n, In n (a_nbs (ea_atom a)) -> (nb_element n < numElements)%nat /\ (nb_index n < length s)%nat) /\
    Sorted (fun x y => nb_d x <= nb_d y) (a_nbs (ea_atom a)).
Definition square (numElements : nat) (cut : list (list nat)) : Prop :=
  length cut = numElements /\ forall row, In row cut -> length row = numElements.
(** Some atom has fewer neighbors than asked for. *)
Definition too_few (numElements : nat) (cut : list (list nat)) (structures : list (list env_atom)) : Prop :=
  exists s a e, In s structures /\ In a s /\ (e < numElements)%nat /\
    (length (of_element e (a_nbs (ea_atom a))) < cutoff cut (a_element (ea_atom a)) e)%nat.
(** Every atom of every structure, with the structure. *)
Definition atoms_of (structures : list (list env_atom)) : list (list env_atom * env_atom) :=
  flat_map (fun s => map (fun a => (s, a)) s) structures.

(** Line of atom [i] in the neighbor list file of one structure: atomic number,
    number of neighbors of each element, indices of the neighbors, nearest first. *)
Definition neighbor_file_line (z : nat -> nat) (s : structure) (rc : R) (i : nat) (line : list nat) : Prop :=
  exists ai numbers L, nth_error (s_atoms s) i = Some ai /\
    line = z (a_element ai) :: numbers ++ map fst L /\
    NoDup L /\ (forall j m, In (j, m) L <-> in_range s rc i j m) /\
    Sorted (fun p q => forall aj ak, nth_error (s_atoms s) (fst p) = Some aj -> nth_error (s_atoms s) (fst q) = Some ak ->
        norm (displacement s ai aj (snd p)) <= norm (displacement s ai ak (snd q))) L /\
    length numbers = s_numElements s /\
    forall e, (e < s_numElements s)%nat -> nth_error numbers e =
      Some (length (filter (fun p => match nth_error (s_atoms s) (fst p) with Some aj => Nat.eqb (a_element aj) e | None => false end) L)).
