From Coq Require Import List Arith ZArith Reals Bool Ascii Lia.
From Verif Require Import Base.Vec3 Model.Strings Model.Transfer Spec.TransferSpec.
Import ListNotations.

Section T.
Variables (cacheOn fullSfd : bool) (size : ty -> nat).

(** * Size *)
Lemma sumOver_app {A} (f : A -> nat) l l' : sumOver f (l ++ l') = sumOver f l + sumOver f l'.
Proof. induction l; cbn; auto. rewrite IHl. lia. Qed.
Lemma sumOver_ext {A} (f g : A -> nat) l : (forall x, In x l -> f x = g x) -> sumOver f l = sumOver g l.
Proof. intros H. induction l; cbn; auto. rewrite H by now left. rewrite IHl; auto. intros. apply H. now right. Qed.
Lemma sumOver_plus {A} (f g : A -> nat) l : sumOver (fun x => f x + g x) l = sumOver f l + sumOver g l.
Proof. induction l; cbn; auto. rewrite IHl. lia. Qed.
Lemma sumOver_const {A} c (l : list A) : sumOver (fun _ => c) l = length l * c.
Proof. induction l; cbn; auto. Qed.
Notation bytes := (bytes size).
Definition cbytes (calls : list (list item)) : nat := sumOver bytes calls.
Lemma cbytes_app a b : cbytes (a ++ b) = cbytes a + cbytes b.
Proof. apply sumOver_app. Qed.
Lemma cbytes_cons a b : cbytes (a :: b) = bytes a + cbytes b.
Proof. reflexivity. Qed.
Lemma bytes_map {A} (f : A -> item) t l : (forall x, ty_of (f x) = t) -> bytes (map f l) = length l * size t.
Proof. intros H. unfold Transfer.bytes. induction l; cbn; auto. rewrite H. rewrite IHl. reflexivity. Qed.
Lemma cbytes_packVec {A} (f : A -> item) t l : (forall x, ty_of (f x) = t) -> cbytes (packVec f l) = size TSize + length l * size t.
Proof.
  intros H. unfold packVec. rewrite cbytes_cons. unfold Transfer.bytes at 1. cbn [sumOver ty_of cN].
  destruct l as [|x l]. { cbn. lia. }
  cbn [length Nat.ltb Nat.leb]. rewrite cbytes_cons. rewrite (bytes_map f t) by auto. unfold cbytes. cbn. lia.
Qed.
Lemma cbytes_packVecs l : cbytes (packVecs l) = size TSize + length l * 3 * size TDouble.
Proof.
  unfold packVecs. rewrite cbytes_cons. unfold Transfer.bytes at 1. cbn [sumOver ty_of cN].
  assert (G : forall l, cbytes (map cV l) = length l * 3 * size TDouble).
  { clear. induction l; cbn; auto. unfold cbytes in *. cbn. rewrite IHl. unfold Transfer.bytes. cbn. lia. }
  destruct l as [|x l]. { cbn. lia. } cbn [length Nat.ltb Nat.leb]. rewrite G. cbn [length]. lia.
Qed.
Lemma cbytes_flat {A} (f : A -> list (list item)) l : cbytes (flat_map f l) = sumOver (fun x => cbytes (f x)) l.
Proof. induction l; cbn; auto. rewrite cbytes_app. lia. Qed.
Lemma cbytes_neighbor n : cbytes (packNeighbor cacheOn n) = bufNeighbor cacheOn size n.
Proof.
  unfold packNeighbor, bufNeighbor. rewrite !cbytes_app, cbytes_packVecs.
  destruct cacheOn; [rewrite (cbytes_packVec ID TDouble) by auto|]; unfold cbytes, Transfer.bytes; cbn -[Nat.mul]; lia.
Qed.
Definition atomFixed : nat := 4 * size TChar + 6 * size TSize + size TInt64 + 4 * size TDouble + 3 * 3 * size TDouble.
Lemma cbytes_atom a : cbytes (packAtom cacheOn fullSfd a) = atomFixed + bufAtom cacheOn fullSfd size a.
Proof.
  unfold packAtom, bufAtom. rewrite !cbytes_app, !cbytes_cons. change (cbytes []) with 0.
  rewrite !(cbytes_packVec cN TSize), !(cbytes_packVec ID TDouble), cbytes_packVecs by auto.
  assert (E : cbytes (if Nat.ltb 0 (length (ta_neighbors a)) then flat_map (packNeighbor cacheOn) (ta_neighbors a) else [])
              = sumOver (bufNeighbor cacheOn size) (ta_neighbors a)).
  { destruct (ta_neighbors a) as [|n l]; auto. cbn [length Nat.ltb Nat.leb]. rewrite cbytes_flat. apply sumOver_ext. intros. apply cbytes_neighbor. }
  rewrite E. unfold atomFixed.
  destruct cacheOn, fullSfd; rewrite ?(cbytes_packVec cN TSize), ?(cbytes_packVec ID TDouble) by auto;
    unfold Transfer.bytes; cbn [sumOver ty_of cB cN cV]; change (cbytes []) with 0; lia.
Qed.
Lemma cbytes_structure hi s : cbytes (packStructure cacheOn fullSfd hi s) = calculateBufferSize cacheOn fullSfd size s.
Proof.
  destruct hi as [[h1 h2] h3]. unfold packStructure, calculateBufferSize.
  destruct (ts_pbc s) as [[p0 p1] p2], (ts_box s) as [[b0 b1] b2], (ts_invbox s) as [[i0 i1] i2].
  rewrite !cbytes_app.
  assert (E1 : cbytes (if Nat.ltb 0 (length (ts_atoms s)) then flat_map (packAtom cacheOn fullSfd) (ts_atoms s) else [])
     = length (ts_atoms s) * atomFixed + sumOver (bufAtom cacheOn fullSfd size) (ts_atoms s)).
  { destruct (ts_atoms s) as [|a l]; auto. cbn [length Nat.ltb Nat.leb]. rewrite cbytes_flat.
    change (S (length l)) with (length (a :: l)). rewrite <- sumOver_const, <- sumOver_plus. apply sumOver_ext. intros. apply cbytes_atom. }
  assert (E2 : cbytes (if Nat.ltb 0 (length (ts_numAtomsPerElement s)) then [map cN (ts_numAtomsPerElement s)] else [])
     = length (ts_numAtomsPerElement s) * size TSize).
  { destruct (ts_numAtomsPerElement s) as [|a l]; auto. cbn [length Nat.ltb Nat.leb]. rewrite cbytes_cons, (bytes_map cN TSize) by auto.
    unfold cbytes. cbn. lia. }
  rewrite !cbytes_cons, !cbytes_app, E2, !cbytes_cons, E1. rewrite (bytes_map cChar TChar), app_length by auto.
  unfold atomFixed, cbytes, Transfer.bytes. cbn [sumOver ty_of cB cN cV cTs length app]. lia.
Qed.
Lemma packAll_ok bs : forall calls p buf, p + cbytes calls <= bs ->
  packAll size bs calls (p, buf) = Some (p + cbytes calls, buf ++ concat calls).
Proof.
  induction calls as [|c calls IH]; intros p buf H.
  - cbn. rewrite app_nil_r. unfold cbytes. cbn. now rewrite Nat.add_0_r.
  - rewrite cbytes_cons in *. cbn [packAll mpiPack]. destruct (Nat.leb_spec (p + bytes c) bs); [|lia].
    rewrite IH by lia. cbn [concat]. rewrite app_assoc. f_equal. f_equal. lia.
Qed.
Lemma send_ok hi s : sendStructure cacheOn fullSfd size hi s =
  Some (calculateBufferSize cacheOn fullSfd size s, calculateBufferSize cacheOn fullSfd size s, concat (packStructure cacheOn fullSfd hi s)).
Proof. unfold sendStructure. rewrite packAll_ok by (rewrite cbytes_structure; lia). rewrite cbytes_structure. reflexivity. Qed.

(** * Reading back *)
Definition reads {A} (r : reader A) (w : list item) (a : A) : Prop := forall rest, r (w ++ rest) = Some (a, rest).
Lemma reads_ret {A} (a : A) : reads (ret a) [] a.
Proof. intros rest. reflexivity. Qed.
Lemma reads_bind {A B} (r : reader A) (k : A -> reader B) w w' a b : reads r w a -> reads (k a) w' b -> reads (bindr r k) (w ++ w') b.
Proof. intros H1 H2 rest. unfold bindr. rewrite <- app_assoc, H1. apply H2. Qed.
Lemma reads_bind1 {A B} (r : reader A) (k : A -> reader B) i w' a b : reads r [i] a -> reads (k a) w' b -> reads (bindr r k) (i :: w') b.
Proof. apply (reads_bind r k [i]). Qed.
Lemma reads_bind_nil {A B} (r : reader A) (k : A -> reader B) w' a b : reads r [] a -> reads (k a) w' b -> reads (bindr r k) w' b.
Proof. apply (reads_bind r k []). Qed.
Lemma reads_Z t z : reads (unpackZ t) [IZ t z] z.
Proof. intros rest. cbn. now destruct t. Qed.
Lemma reads_D x : reads rD [ID x] x.
Proof. intros rest. reflexivity. Qed.
Lemma reads_B b : reads rB [cB b] b.
Proof. intros rest. now destruct b. Qed.
Lemma reads_N n : reads rN [cN n] n.
Proof. intros rest. unfold rN, bindr, cN. cbn. destruct (Z.ltb_spec (Z.of_nat n) 0); [lia|]. unfold ret. now rewrite Nat2Z.id. Qed.
Lemma reads_char c : reads rChar [cChar c] c.
Proof. intros rest. unfold rChar, bindr, cChar. cbn. unfold ret. now rewrite Nat2Z.id, ascii_nat_embedding. Qed.
Lemma reads_V v : reads rV (cV v) v.
Proof. intros rest. now destruct v. Qed.
Lemma reads_Ts hi n : (Z.of_nat n < 2147483648)%Z -> reads rTs [cTs hi n] (Z.of_nat n).
Proof.
  intros H rest. unfold rTs, bindr, cTs. cbn [unpackZ app ty_eqb]. cbv zeta. unfold ret.
  replace (Z.of_nat n + 4294967296 * hi)%Z with (Z.of_nat n + hi * 4294967296)%Z by ring. rewrite Z_mod_plus_full.
  rewrite Z.mod_small by lia. destruct (Z.ltb_spec (Z.of_nat n) 2147483648); [reflexivity|lia].
Qed.
Lemma reads_rep {A} (r : reader A) (f : A -> list item) (g : A -> A) l : (forall x, In x l -> reads r (f x) (g x)) ->
  reads (rRep (length l) r) (flat_map f l) (map g l).
Proof.
  induction l as [|x l IH]; intros H. { apply reads_ret. }
  cbn [length rRep flat_map map]. apply reads_bind with (a := g x). { apply H. now left. }
  rewrite <- (app_nil_r (flat_map f l)). apply reads_bind with (a := map g l). { apply IH. intros. apply H. now right. } apply reads_ret.
Qed.
Lemma reads_vec {A} (r : reader A) (f : A -> list item) (g : A -> A) l : (forall x, In x l -> reads r (f x) (g x)) ->
  reads (unpackVec r []) (cN (length l) :: flat_map f l) (map g l).
Proof.
  intros H. unfold unpackVec. apply reads_bind1 with (a := length l). { apply reads_N. }
  destruct l as [|x l]. { apply reads_ret. } cbn [length Nat.ltb Nat.leb]. apply (reads_rep r f g (x :: l)). auto.
Qed.
Lemma concat_packVec {A} (f : A -> item) l : concat (packVec f l) = cN (length l) :: flat_map (fun x => [f x]) l.
Proof. unfold packVec. cbn [concat app]. f_equal. destruct l; auto. cbn [length Nat.ltb Nat.leb concat]. rewrite app_nil_r, flat_map_concat_map.
  induction (a :: l); auto. cbn. now f_equal. Qed.
Lemma concat_packVecs l : concat (packVecs l) = cN (length l) :: flat_map cV l.
Proof. unfold packVecs. cbn [concat app]. f_equal. destruct l; auto. now rewrite flat_map_concat_map. Qed.
Lemma reads_packVec {A} (r : reader A) (f : A -> item) l : (forall x, reads r [f x] x) -> reads (unpackVec r []) (concat (packVec f l)) l.
Proof. intros H. rewrite concat_packVec. rewrite <- (map_id l) at 3. apply (reads_vec r (fun x => [f x]) (fun x => x)). auto. Qed.
Lemma reads_packVecs l : reads (unpackVec rV []) (concat (packVecs l)) l.
Proof. rewrite concat_packVecs. rewrite <- (map_id l) at 3. apply (reads_vec rV cV (fun x => x)). intros. apply reads_V. Qed.
Lemma reads_opt {A} (sw : bool) (r : reader (list A)) w l : reads r w l -> (sw = false -> l = []) -> reads (if sw then r else ret []) (if sw then w else []) l.
Proof. intros H1 H2. destruct sw; auto. rewrite H2 by auto. apply reads_ret. Qed.
Lemma concat_if (b : bool) {A} (x : list (list A)) : concat (if b then x else []) = if b then concat x else [].
Proof. now destruct b. Qed.
Lemma concat_cat {A} (a b : list (list A)) : concat (a ++ b) = concat a ++ concat b.
Proof. apply concat_app. Qed.
Lemma cV_app v w : cV v ++ w = ID (vx v) :: ID (vy v) :: ID (vz v) :: w.
Proof. reflexivity. Qed.

Ltac rd1 := first [ apply reads_Z | apply reads_D | apply reads_B | apply reads_N | apply reads_char ].

Lemma reads_neighbor n : (cacheOn = false -> n_cache n = []) -> reads (unpackNeighbor cacheOn) (concat (packNeighbor cacheOn n)) n.
Proof.
  intros Hc. unfold packNeighbor, unpackNeighbor. rewrite !concat_cat. cbn [concat app].
  do 3 (eapply reads_bind1; [rd1|]). eapply reads_bind1; [rd1|].
  rewrite <- ?app_assoc. eapply reads_bind; [apply reads_V|]. cbn [app].
  rewrite concat_if. eapply reads_bind; [apply reads_opt; [apply reads_packVec, reads_D|auto]|].
  rewrite <- (app_nil_r (concat (packVecs _))). eapply reads_bind; [apply reads_packVecs|].
  destruct n. apply reads_ret.
Qed.
Definition atom_ok (a : tatom) : Prop := (cacheOn = false -> ta_cacheSizes a = [] /\ forall n, In n (ta_neighbors a) -> n_cache n = []) /\
    (fullSfd = false -> ta_dGdxia a = []).
Lemma reads_atom a : atom_ok a -> reads (unpackAtom cacheOn fullSfd) (concat (packAtom cacheOn fullSfd a)) (received_atom a).
Proof.
  intros [Hc Hx]. unfold packAtom, unpackAtom. rewrite !concat_cat. cbn [concat app].
  do 15 (eapply reads_bind1; [rd1|]).
  rewrite <- ?app_assoc. do 3 (eapply reads_bind; [apply reads_V|]; rewrite <- ?app_assoc; cbn [app]).
  do 3 (eapply reads_bind; [apply reads_packVec, reads_N|]).
  rewrite !concat_if. eapply reads_bind; [apply reads_opt; [apply reads_packVec, reads_N|intros E; apply (Hc E)]|].
  do 3 (eapply reads_bind; [apply reads_packVec, reads_D|]).
  eapply reads_bind; [apply reads_opt; [apply reads_packVec, reads_D|auto]|].
  eapply reads_bind; [apply reads_packVecs|].
  match goal with |- reads _ ?w _ => rewrite <- (app_nil_r w) end.
  eapply reads_bind.
  - match goal with |- reads _ (?x :: (if ?c then ?y else [])) _ => replace (if c then y else []) with (flat_map (fun n => concat (packNeighbor cacheOn n)) (ta_neighbors a)) end.
    + apply (reads_vec (unpackNeighbor cacheOn) (fun n => concat (packNeighbor cacheOn n)) (fun x => x)).
      intros n Hn. apply reads_neighbor. intros E. apply (proj2 (Hc E)). auto.
    + assert (G : forall l, flat_map (fun n => concat (packNeighbor cacheOn n)) l = concat (flat_map (packNeighbor cacheOn) l)).
      { induction l; cbn [flat_map]; auto. rewrite IHl, concat_cat. auto. }
      rewrite G. destruct (ta_neighbors a); reflexivity.
  - rewrite map_id. destruct a. apply reads_ret.
Qed.
Lemma reads_vecTs {A} (r : reader A) (f : A -> list item) (g : A -> A) hi l : (Z.of_nat (length l) < 2147483648)%Z ->
  (forall x, In x l -> reads r (f x) (g x)) -> reads (unpackVecTs r []) (cTs hi (length l) :: flat_map f l) (map g l).
Proof.
  intros Hl H. unfold unpackVecTs. apply reads_bind1 with (a := Z.of_nat (length l)). { apply reads_Ts; auto. }
  rewrite Nat2Z.id. destruct l as [|x l]. { apply reads_ret. }
  destruct (Z.ltb_spec 0 (Z.of_nat (length (x :: l)))) as [L|L]; [|cbn [length] in L; lia]. apply reads_rep. auto.
Qed.
Lemma cstring_plain c : ~ In zero c -> cstring (c ++ [zero]) = Some c.
Proof.
  induction c as [|x c IH]; intros H. { reflexivity. }
  cbn. destruct (Ascii.eqb_spec x zero) as [E|E]. { exfalso. apply H. now left. }
  rewrite IH; auto. intros I. apply H. now right.
Qed.
Lemma reads_box b : reads rBox (let '(b0, b1, b2) := b in cV b0 ++ cV b1 ++ cV b2) b.
Proof. destruct b as [[[? ? ?] [? ? ?]] [? ? ?]]. intros rest. reflexivity. Qed.

Lemma reads_structure hi s s0 : (forall a, In a (ts_atoms s) -> atom_ok a) -> ~ In zero (ts_comment s) ->
  (Z.of_nat (length (ts_comment s) + 1) < 2147483648)%Z -> (Z.of_nat (length (ts_numAtomsPerElement s)) < 2147483648)%Z ->
  (Z.of_nat (length (ts_atoms s)) < 2147483648)%Z -> ts_atoms s0 = [] -> ts_numAtomsPerElement s0 = [] ->
  reads (unpackStructure cacheOn fullSfd s0) (concat (packStructure cacheOn fullSfd hi s)) (received s).
Proof.
  intros Ha Hz H1 H2 H3 E1 E2. destruct hi as [[h1 h2] h3]. unfold packStructure, unpackStructure. rewrite E1, E2.
  destruct (ts_pbc s) as [[p0 p1] p2] eqn:Ep.
  rewrite !concat_cat. cbn [concat app].
  do 18 (eapply reads_bind1; [rd1|]).
  eapply reads_bind1; [apply reads_Ts; auto|]. destruct (Z.ltb_spec (Z.of_nat (length (ts_comment s) + 1)) 0); [lia|].
  rewrite <- ?app_assoc. rewrite Nat2Z.id.
  assert (Ec : map cChar (ts_comment s ++ [zero]) = flat_map (fun c => [cChar c]) (ts_comment s ++ [zero])).
  { induction (ts_comment s ++ [zero]); cbn; [reflexivity|now f_equal]. }
  rewrite Ec. eapply reads_bind.
  { replace (length (ts_comment s) + 1) with (length (ts_comment s ++ [zero])) by (rewrite app_length; reflexivity).
    apply (reads_rep rChar (fun c => [cChar c]) (fun c => c)). intros. apply reads_char. }
  rewrite map_id, cstring_plain by auto.
  replace (concat (let '(b0, b1, b2) := ts_box s in [cV b0; cV b1; cV b2])) with (let '(b0, b1, b2) := ts_box s in cV b0 ++ cV b1 ++ cV b2)
    by (destruct (ts_box s) as [[? ?] ?]; reflexivity).
  replace (concat (let '(b0, b1, b2) := ts_invbox s in [cV b0; cV b1; cV b2])) with (let '(b0, b1, b2) := ts_invbox s in cV b0 ++ cV b1 ++ cV b2)
    by (destruct (ts_invbox s) as [[? ?] ?]; reflexivity).
  cbn [app]. rewrite <- ?app_assoc.
  eapply reads_bind; [apply reads_box|]. eapply reads_bind; [apply reads_box|].
  rewrite concat_cat. cbn [concat app].
  match goal with |- reads _ (cTs h2 ?n :: ?x ++ ?y) _ => change (cTs h2 n :: x ++ y) with ((cTs h2 n :: x) ++ y) end.
  eapply reads_bind.
  { replace (concat (if Nat.ltb 0 (length (ts_numAtomsPerElement s)) then [map cN (ts_numAtomsPerElement s)] else [])) with (flat_map (fun n => [cN n]) (ts_numAtomsPerElement s)).
    - apply (reads_vecTs rN (fun n => [cN n]) (fun n => n)); auto. intros. apply reads_N.
    - destruct (ts_numAtomsPerElement s) as [|x l]; auto. cbn [length Nat.ltb Nat.leb concat]. rewrite app_nil_r. 
      induction (x :: l); cbn; [reflexivity|now f_equal]. }
  match goal with |- reads _ ?w _ => rewrite <- (app_nil_r w) end.
  eapply reads_bind.
  { match goal with |- reads _ (?x :: ?y) _ => replace y with (flat_map (fun a => concat (packAtom cacheOn fullSfd a)) (ts_atoms s)) end.
    - apply (reads_vecTs (unpackAtom cacheOn fullSfd) (fun a => concat (packAtom cacheOn fullSfd a)) received_atom); auto.
      intros a Hi. apply reads_atom. auto.
    - assert (G : forall l, flat_map (fun n => concat (packAtom cacheOn fullSfd n)) l = concat (flat_map (packAtom cacheOn fullSfd) l)).
      { induction l; cbn [flat_map]; auto. rewrite IHl, concat_cat. auto. }
      rewrite G. destruct (ts_atoms s); reflexivity. }
  rewrite map_id. unfold received. rewrite Ep. apply reads_ret.
Qed.
End T.

Lemma size_bounds cacheOn fullSfd size s : (forall t, 1 <= size t) ->
  length (ts_comment s) + 1 <= calculateBufferSize cacheOn fullSfd size s /\
  length (ts_numAtomsPerElement s) <= calculateBufferSize cacheOn fullSfd size s /\
  length (ts_atoms s) <= calculateBufferSize cacheOn fullSfd size s.
Proof.
  intros H. pose proof (H TChar). pose proof (H TSize). unfold calculateBufferSize. repeat split; nia.
Qed.

Lemma transfer cacheOn fullSfd size hi s s0 : (forall t, 1 <= size t) -> respects_switches cacheOn fullSfd s -> plain_comment s ->
  (Z.of_nat (calculateBufferSize cacheOn fullSfd size s) < 2147483648)%Z -> fresh s0 ->
  exists buf, sendStructure cacheOn fullSfd size hi s = Some (calculateBufferSize cacheOn fullSfd size s, calculateBufferSize cacheOn fullSfd size s, buf) /\
  recvStructure cacheOn fullSfd s0 buf = Some (received s, []).
Proof.
  intros Hs Hw Hc Hb [F1 F2]. eexists. split; [apply send_ok|]. unfold recvStructure.
  destruct (size_bounds cacheOn fullSfd size s Hs) as (B1 & B2 & B3).
  rewrite <- (app_nil_r (concat _)). apply reads_structure; auto; lia.
Qed.
