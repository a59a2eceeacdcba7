From Coq Require Import List Arith ZArith Reals Bool Ascii Lia String.
From Coq Require Import List.
From Verif Require Import Base.Vec3 Model.Strings Model.Transfer Spec.TransferSpec Proofs.TransferProofs.
Import ListNotations.

Definition byte_sizes (t : ty) : nat := match t with TChar => 1 | TInt => 4 | _ => 8 end.
Definition v0 := mkVec 0 0 0.
Definition empty_structure (comment : str) : tstruct :=
  mkTS false false false false false 0 0 0 0 (0, 0, 0)%Z 0 0 0 0 0 0 comment (v0, v0, v0) (v0, v0, v0) [] [].
Definition some_atom : tatom :=
  mkTA true false false true 3 4 (-5)%Z 1 1 1 2 1 2 3 4 v0 v0 v0 [7] [0; 1] [2] [0] [1%R; 2%R] [] [] [] [v0; mkVec 1 2 3]
    [mkTN 9 (-1)%Z 1 5 (mkVec 3 4 0) [1%R] [v0]] true [(1%R, 1)].
Definition some_structure (comment : str) : tstruct :=
  mkTS true false true false false 12 1 2 1 (1, 2, -1)%Z 1 2 3 4 5 1 comment (v0, mkVec 1 0 0, v0) (v0, v0, v0) [0; 1] [some_atom].

Lemma ex_transfer : respects_switches true false (some_structure (lit "abc")) /\ plain_comment (some_structure (lit "abc")) /\
  fresh (empty_structure []) /\ calculateBufferSize true false byte_sizes (some_structure (lit "abc")) = 725.
Proof.
  split; [|split; [|split]].
  - intros a H. split; [discriminate|]. intros _. destruct H as [<-|[]]. reflexivity.
  - unfold plain_comment. cbn. intuition discriminate.
  - split; reflexivity.
  - vm_compute. reflexivity.
Qed.
Lemma stale : exists s s0 hi buf s', plain_comment s /\ respects_switches true false s /\
  sendStructure true false byte_sizes hi s = Some (calculateBufferSize true false byte_sizes s, calculateBufferSize true false byte_sizes s, buf) /\
  recvStructure true false s0 buf = Some (s', []) /\ ts_atoms s = [] /\ ts_numAtoms s' = 0 /\ length (ts_atoms s') = 1.
Proof.
  exists (empty_structure []), (some_structure []), (0, 0, 0)%Z. eexists _, _. split; [intros []|]. split; [intros a []|].
  split; [apply send_ok|]. split; [reflexivity|]. repeat split; reflexivity.
Qed.
Lemma nul_comment : exists s s0 hi buf s', fresh s0 /\ respects_switches true false s /\
  sendStructure true false byte_sizes hi s = Some (calculateBufferSize true false byte_sizes s, calculateBufferSize true false byte_sizes s, buf) /\
  recvStructure true false s0 buf = Some (s', []) /\ ts_comment s' <> ts_comment s.
Proof.
  exists (empty_structure [zero; "a"%char]), (empty_structure []), (0, 0, 0)%Z. eexists _, _. split; [split; reflexivity|]. split; [intros a []|].
  split; [apply send_ok|]. split; [reflexivity|]. cbn. discriminate.
Qed.
