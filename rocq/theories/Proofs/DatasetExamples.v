(** Results of a distribution as input of collective output; concrete cases. *)
From Coq Require Import List Arith Lia Permutation Sorted.
From Verif Require Import Base.Loop Model.Dataset Spec.DatasetSpec Proofs.DistributeProofs Proofs.CollectiveProofs.
Import ListNotations.

Lemma distribute_distributed {A} (off : A -> A) P rnd ex draws file loads : distributeStructures off P rnd ex draws file = Some loads -> 1 <= P ->
  distributed loads (map off file) /\ loads <> [].
Proof.
  intros H HP. destruct (distribute_once off _ _ _ _ _ _ H HP) as [L Q]. split.
  - split. { now rewrite map_length. } eapply distribute_sorted; eauto.
  - intros ->. cbn in L. lia.
Qed.
Lemma collective_output {Line} (file : list Line) loads blocks w : distributed loads blocks -> loads <> [] ->
  steps (length blocks) (startWorld file loads) w ->
  (finished (length blocks) w -> w_file w = concat blocks) /\
  (finished (length blocks) w \/ exists w', step (length blocks) w w') /\
  Acc (fun x y => step (length blocks) y x) w.
Proof.
  intros HD HP S. split; [|split].
  - apply (output_complete loads blocks HD HP file w S).
  - apply (output_progress loads blocks HD HP file w S).
  - apply (output_terminates loads blocks HD HP file w S).
Qed.
Lemma ex_distribute : distributeStructures (fun x => x + 100) 3 true true [2; 0; 1; 2; 1; 1] [10; 20; 30]
  = Some [[]; [(1, 120); (2, 130)]; [(0, 110)]].
Proof. reflexivity. Qed.
Lemma ex_distribute_seq : distributeStructures (fun x => x) 3 false false [] [10; 20; 30; 40; 50]
  = Some [[(0, 10)]; [(1, 20); (2, 30)]; [(3, 40); (4, 50)]].
Proof. reflexivity. Qed.
Lemma ex_too_few : distributeStructures (fun x : nat => x) 3 false false [] [10; 20] = None.
Proof. reflexivity. Qed.
Lemma ex_distributed : distributed [[(1, [20; 21])]; [(0, [10]); (2, [30])]] [[10]; [20; 21]; [30]].
Proof.
  split.
  - cbn. apply perm_swap.
  - intros l [<-|[<-|[]]]; cbn; repeat constructor.
Qed.
Lemma ex_combine : fst (combineFiles 3 (fun i => match i with 0 => Some [1; 2] | 1 => Some [] | 2 => Some [3] | _ => None end)) = true /\
  f_combined (snd (combineFiles 3 (fun i => match i with 0 => Some [1; 2] | 1 => Some [] | 2 => Some [3] | _ => None end))) = [1; 2; 3].
Proof. split; reflexivity. Qed.
