(** Properties C48, C50, C51: distribution of structures over processes, numeric forces, collective output. *)
From Coq Require Import List Arith ZArith Reals Permutation Sorted.
From Verif Require Import Base.Loop Base.Vec3 Model.Dataset Spec.DatasetSpec Proofs.DistributeProofs Proofs.NumericForceProofs Proofs.CollectiveProofs Proofs.DatasetExamples.
Import ListNotations.

(** Whenever the distribution ends, in either mode and for every sequence of random numbers, every structure of the file
    is on exactly one process, with its number in the file as index. *)
Theorem C48_exactly_once : forall (A : Type) (off : A -> A) numProcs randomize excludeRank0 draws file loads,
  distributeStructures off numProcs randomize excludeRank0 draws file = Some loads -> 1 <= numProcs ->
  length loads = numProcs /\ Permutation (concat loads) (combine (seq 0 (length file)) (map off file)).
Proof. exact @distribute_once. Qed.
Print Assumptions C48_exactly_once.
(** Loads of receiving processes differ by at most one; an excluded rank 0 gets nothing. *)
Theorem C48_balanced : forall (A : Type) (off : A -> A) numProcs randomize (excludeRank0 : bool) draws file loads,
  distributeStructures off numProcs randomize excludeRank0 draws file = Some loads -> 1 <= numProcs ->
  (forall p q, (if excludeRank0 then 1 else 0) <= p < numProcs -> (if excludeRank0 then 1 else 0) <= q < numProcs ->
     length (nth p loads []) <= length (nth q loads []) + 1) /\
  (excludeRank0 = true -> nth 0 loads [] = []).
Proof. exact @distribute_balanced. Qed.
Print Assumptions C48_balanced.
Theorem C48_indices_increase : forall (A : Type) (off : A -> A) numProcs randomize excludeRank0 draws file loads,
  distributeStructures off numProcs randomize excludeRank0 draws file = Some loads -> 1 <= numProcs ->
  forall l, In l loads -> StronglySorted lt (map fst l).
Proof. exact @distribute_sorted. Qed.
Print Assumptions C48_indices_increase.
(** Without randomisation the processes get consecutive blocks of the file, in order of their rank. *)
Theorem C48_sequential_blocks : forall (A : Type) (off : A -> A) numProcs excludeRank0 draws file loads,
  distributeStructures off numProcs false excludeRank0 draws file = Some loads -> 1 <= numProcs ->
  concat loads = combine (seq 0 (length file)) (map off file).
Proof. exact @distribute_sequential. Qed.
Print Assumptions C48_sequential_blocks.
(** The distribution ends if there are enough structures and every process is drawn often enough. *)
Theorem C48_succeeds : forall (A : Type) (off : A -> A) numProcs randomize (excludeRank0 : bool) draws file, 1 <= numProcs ->
  (excludeRank0 = true -> 2 <= numProcs) -> (if excludeRank0 then numProcs - 1 else numProcs) <= length file ->
  (randomize = true -> forall p, p < numProcs ->
     length file / (if excludeRank0 then numProcs - 1 else numProcs) + 1 <= count_occ Nat.eq_dec draws p) ->
  exists loads, distributeStructures off numProcs randomize excludeRank0 draws file = Some loads.
Proof. exact @distribute_succeeds. Qed.
Print Assumptions C48_succeeds.
Example C48_nontrivial_random : distributeStructures (fun x => x + 100) 3 true true [2; 0; 1; 2; 1; 1] [10; 20; 30]
  = Some [[]; [(1, 120); (2, 130)]; [(0, 110)]].
Proof. exact ex_distribute. Qed.
Example C48_nontrivial_sequential : distributeStructures (fun x => x) 3 false false [] [10; 20; 30; 40; 50]
  = Some [[(0, 10)]; [(1, 20); (2, 30)]; [(3, 40); (4, 50)]].
Proof. exact ex_distribute_seq. Qed.

(** Over all processes: the unaltered structure first, and then every displacement (atom, coordinate, sign) once; the
    positions are those of the displacement named in the comment. *)
Theorem C50_every_displacement_once : forall remap numProcs delta pos, 1 <= numProcs ->
  let all := concat (map (fun p => prepareNumericForces remap numProcs p delta pos) (seq 0 numProcs)) in
  map comment_label all = None :: map Some (displacements (length pos)) /\
  (forall s, In s all -> match comment_label s with
                         | None => n_pos s = pos
                         | Some d => displaced_positions remap delta pos d (n_pos s) end).
Proof. exact numeric_forces. Qed.
Print Assumptions C50_every_displacement_once.
(** The list of displacements contains every combination of atom, coordinate and sign exactly once. *)
Theorem C50_displacements : forall n, NoDup (displacements n) /\
  forall atom xyz sign, In (atom, xyz, sign) (displacements n) <-> atom < n /\ xyz < 3 /\ (sign = (-1)%Z \/ sign = 1%Z).
Proof. exact displacements_NoDup. Qed.
Print Assumptions C50_displacements.
Example C50_nontrivial : length (prepareNumericForces (fun x => x) 4 1 (1 / 10)%R [mkVec 0 0 0; mkVec 1 0 0]) = 3.
Proof. reflexivity. Qed.

(** Collective output, from every previous content of the file and for every interleaving: when all processes are done
    the file consists of the blocks in order of the structure index; the processes never block each other; every
    execution ends. *)
Theorem C51_complete_and_ordered : forall (Line : Type) (file : list Line) loads blocks w,
  distributed loads blocks -> loads <> [] -> steps (length blocks) (startWorld file loads) w ->
  (finished (length blocks) w -> w_file w = concat blocks) /\
  (finished (length blocks) w \/ exists w', step (length blocks) w w') /\
  Acc (fun x y => step (length blocks) y x) w.
Proof. exact @collective_output. Qed.
Print Assumptions C51_complete_and_ordered.
(** Every result of distributeStructures is such a distribution. *)
Theorem C51_distributions : forall (A : Type) (off : A -> A) numProcs randomize excludeRank0 draws file loads,
  distributeStructures off numProcs randomize excludeRank0 draws file = Some loads -> 1 <= numProcs ->
  distributed loads (map off file) /\ loads <> [].
Proof. exact @distribute_distributed. Qed.
Print Assumptions C51_distributions.
Example C51_nontrivial : distributed [[(1, [20; 21])]; [(0, [10]); (2, [30])]] [[10]; [20; 21]; [30]].
Proof. exact ex_distributed. Qed.

(** combineFiles: contents in rank order, files of the processes removed; a missing file is reported. *)
Theorem C51_combine : forall (Byte : Type) numProcs proc (contents : nat -> list Byte),
  (forall i, i < numProcs -> proc i = Some (contents i)) ->
  exists f, combineFiles numProcs proc = (true, f) /\ f_combined f = concat (map contents (seq 0 numProcs)) /\
  forall i, f_proc f i = if Nat.ltb i numProcs then None else proc i.
Proof. exact @combine_files. Qed.
Print Assumptions C51_combine.
Theorem C51_combine_missing : forall (Byte : Type) numProcs (proc : nat -> option (list Byte)) i, i < numProcs -> proc i = None ->
  fst (combineFiles numProcs proc) = false.
Proof. exact @combine_missing. Qed.
Print Assumptions C51_combine_missing.
Example C51_combine_nontrivial :
  fst (combineFiles 3 (fun i => match i with 0 => Some [1; 2] | 1 => Some [] | 2 => Some [3] | _ => None end)) = true /\
  f_combined (snd (combineFiles 3 (fun i => match i with 0 => Some [1; 2] | 1 => Some [] | 2 => Some [3] | _ => None end))) = [1; 2; 3].
Proof. exact ex_combine. Qed.
