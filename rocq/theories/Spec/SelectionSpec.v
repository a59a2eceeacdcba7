(** Specification of training/test sets and update candidates. *)
From Coq Require Import List Arith Reals Permutation Sorted.
From Verif Require Import Model.Selection.
Import ListNotations.

(** Which set a structure belongs to, given its sample type in the data file and the random numbers; every undecided
    structure takes the next random number. *)
Definition undecided (s : tstructure) : bool := match s_sample s with ST_UNKNOWN => true | _ => false end.
Definition set_of (draw : nat -> R) (testFraction : R) (structures : list tstructure) (i : nat) (s : tstructure) (t : sampleType) : Prop :=
  match s_sample s with
  | ST_UNKNOWN =>
      let r := draw (length (filter undecided (firstn i structures))) in
      (r < testFraction)%R /\ t = ST_TEST \/ (testFraction <= r)%R /\ t = ST_TRAINING
  | t0 => t = t0
  end.

(** A candidate as (structure, list of (atom, component)). *)
Definition places (c : candidate) : nat * list (nat * nat) := (c_s c, map (fun x => (sub_a x, sub_c x)) (c_subs c)).
(** Energy: one candidate per training structure.  Force: one per component, or (4G) one per structure comprising all
    components.  Charge: one per atom, or (4G) one per structure. *)
Definition energy_places (i : nat) (s : tstructure) : list (nat * list (nat * nat)) := [(i, [])].
Definition components (s : tstructure) : list (nat * nat) := list_prod (s_atoms s) [0; 1; 2].
Definition force_places (nnp : nnpType) (i : nat) (s : tstructure) : list (nat * list (nat * nat)) :=
  match nnp with HDNNP_4G => [(i, components s)] | _ => map (fun ac => (i, [ac])) (components s) end.
Definition charge_places (nnp : nnpType) (i : nat) (s : tstructure) : list (nat * list (nat * nat)) :=
  match nnp with HDNNP_4G => [(i, [])] | _ => map (fun a => (i, [(a, 0)])) (s_atoms s) end.
(** Structures with number and set. *)
Definition numbered (structures : list tstructure) (types : list sampleType) : list (nat * tstructure * sampleType) :=
  combine (combine (seq 0 (length structures)) structures) types.
Definition over_training {B} (f : nat -> tstructure -> list B) (l : list (nat * tstructure * sampleType)) : list B :=
  flat_map (fun x => match x with (i, s, ST_TRAINING) => f i s | _ => [] end) l.
Definition over_test {B} (f : nat -> tstructure -> list B) (l : list (nat * tstructure * sampleType)) : list B :=
  flat_map (fun x => match x with (i, s, ST_TEST) => f i s | _ => [] end) l.
(** Patterns: energies, force components, charges. *)
Definition energy_patterns (s : tstructure) : nat := 1.
Definition force_patterns (s : tstructure) : nat := 3 * s_numAtoms s.
Definition charge_patterns (nnp : nnpType) (s : tstructure) : nat := match nnp with HDNNP_4G => 1 | _ => s_numAtoms s end.

(** * Order of the updates *)
(** The (a, c) of a candidate's sub-candidates, whatever position has been reached. *)
Definition same_places (l l' : list candidate) : Prop := map places l = map places l'.
(** Same candidates in another order, sub-candidates in another order, all positions back at the start. *)
Definition rearranged (u u' : prop) : Prop :=
  u_pos u' = 0 /\ u_mode u' = u_mode u /\
  exists l, Permutation l (u_cands u) /\
    Forall2 (fun c c' => c_s c' = c_s c /\ Permutation (snd (places c')) (snd (places c)) /\ c_posSub c' = 0) l (u_cands u').

(** Positions are within (one past the end of) their lists; there are candidates, and sub-candidates where they are needed. *)
Definition ready (useSub : bool) (u : prop) : Prop :=
  0 < length (u_cands u) /\ u_pos u <= length (u_cands u) /\
  forall c, In c (u_cands u) -> c_posSub c <= length (c_subs c) /\ (useSub = true -> 0 < length (c_subs c)).
(** The candidate and sub-candidate tried j-th from the present positions: without sub-candidates one goes through the
    candidates, with sub-candidates through those of the present candidate; both cyclically. *)
Definition tried (useSub : bool) (u : prop) (j : nat) : nat * option nat :=
  let n := length (u_cands u) in
  let k := (if useSub then u_pos u else u_pos u + j) mod n in
  match nth_error (u_cands u) k with
  | None => (k, None)
  | Some c =>
      let m := length (c_subs c) in
      (k, if useSub then Some ((c_posSub c + j) mod m) else match m with 0 => None | _ => Some 0 end)
  end.
(** The number written to the log for it. *)
Definition logged (useSub : bool) (ks : nat * option nat) : nat :=
  if useSub then match snd ks with Some s => s | None => 0 end else fst ks.
(** Relative error of the candidate and sub-candidate at the given positions. *)
Definition error_at (frac : candidate -> option subCandidate -> R) (u : prop) (ks : nat * option nat) : R :=
  match nth_error (u_cands u) (fst ks) with
  | None => 0%R
  | Some c => frac c (match snd ks with None => None | Some j => nth_error (c_subs c) j end)
  end.
(** The predictions do not depend on the position reached in the list of sub-candidates. *)
Definition position_free {B} (f : candidate -> B) : Prop := forall c n, f (mkCand (c_s c) (c_error c) n (c_subs c)) = f c.
(** The sub-candidates of candidate k used in a history of updates, in order. *)
Definition used_of (k : nat) (l : list (nat * option nat)) : list (option nat) := map snd (filter (fun x => Nat.eqb (fst x) k) l).
(** In the history [l] between states u and u' the sub-candidates of every candidate have been used cyclically, starting from the
    position reached in u, and u' has the position after them. *)
Definition cycled (u u' : prop) (l : list (nat * option nat)) : Prop :=
  length (u_cands u') = length (u_cands u) /\
  forall k c, nth_error (u_cands u) k = Some c ->
    used_of k l = map (fun j => Some ((c_posSub c + j) mod length (c_subs c))) (seq 0 (length (used_of k l))) /\
    exists c', nth_error (u_cands u') k = Some c' /\ c_s c' = c_s c /\ c_subs c' = c_subs c /\
      c_posSub c' mod length (c_subs c) = (c_posSub c + length (used_of k l)) mod length (c_subs c).
(** The training structures, and all their force components and atoms. *)
Definition in_training (structures : list tstructure) (types : list sampleType) (i : nat) (s : tstructure) : Prop :=
  nth_error structures i = Some s /\ nth_error types i = Some ST_TRAINING.
(** (structure, atom, component) covered by the candidates. *)
Definition covered (l : list candidate) : list (nat * (nat * nat)) := flat_map (fun c => map (pair (c_s c)) (snd (places c))) l.
(** Atoms of a structure are numbered 0, 1, ... (what the reading functions do). *)
Definition all_indexed (structures : list tstructure) : Prop := forall s, In s structures -> s_atoms s = seq 0 (s_numAtoms s).
