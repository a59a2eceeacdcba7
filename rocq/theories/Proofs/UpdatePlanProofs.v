From Coq Require Import Reals Lra Bool Arith Lia.
From Verif Require Import Base.SumR Model.SymFunctions Model.UpdatePlan Spec.UpdatePlanSpec.
From Coq Require Import List.
Import ListNotations.

(** * Lists *)
Lemma nth_store {B} (v : list B) p z d q : p < length v -> nth q (firstn p v ++ z :: skipn (S p) v) d = if Nat.eqb q p then z else nth q v d.
Proof.
  revert p q. induction v as [|a v IH]; intros p q H; [cbn in H; lia|]. destruct p as [|p]; [destruct q; reflexivity|].
  destruct q as [|q]; [reflexivity|]. cbn in H |- *. apply IH. lia.
Qed.
Lemma length_store {B} (v : list B) p z : p < length v -> length (firstn p v ++ z :: skipn (S p) v) = length v.
Proof. intros H. rewrite app_length. cbn [length]. rewrite firstn_length, skipn_length. lia. Qed.
Lemma prefix_sums : forall l g (off : list nat), fold_left (fun (st : nat * list nat) e => let '(g, off) := st in (g + e, off ++ [g])) l (g, off)
  = (g + list_sum l, off ++ map (fun r => g + list_sum (firstn r l)) (seq 0 (length l))).
Proof.
  induction l as [|a l IH]; intros g off. { cbn. rewrite Nat.add_0_r, app_nil_r. reflexivity. }
  cbn [fold_left]. rewrite IH. cbn [length seq map firstn]. change (list_sum (a :: l)) with (a + list_sum l). change (list_sum []) with 0. f_equal; [lia|].
  rewrite <- app_assoc. f_equal. cbn [app]. f_equal; [lia|]. rewrite <- seq_shift, map_map. apply map_ext. intros r. cbn [firstn].
  change (list_sum (a :: firstn r l)) with (a + list_sum (firstn r l)). lia.
Qed.
Lemma sum_firstn_cons a l r : list_sum (firstn (S r) (a :: l)) = a + list_sum (firstn r l).
Proof. reflexivity. Qed.
Lemma firstn_nth_sum l r : r < length l -> list_sum (firstn (S r) l) = list_sum (firstn r l) + nth r l 0.
Proof. revert r. induction l as [|a l IH]; intros r H; [cbn in H; lia|]. destruct r as [|r]. { cbn. lia. } cbn in H. rewrite !sum_firstn_cons. rewrite IH by lia. cbn [nth]. lia. Qed.
Lemma prefix_mono l r r' : r <= r' -> list_sum (firstn r l) <= list_sum (firstn r' l).
Proof.
  revert r r'. induction l as [|a l IH]; intros r r' H; [rewrite !firstn_nil; lia|]. destruct r; [cbn; lia|]. destruct r'; [lia|].
  rewrite !sum_firstn_cons. specialize (IH r r' ltac:(lia)). lia.
Qed.
Lemma prefix_all l r : r < length l -> list_sum (firstn r l) + nth r l 0 <= list_sum l.
Proof. intros H. rewrite <- firstn_nth_sum by auto. rewrite <- (firstn_all l) at 2. apply prefix_mono. lia. Qed.
Lemma ones_sum {A} (l : list A) r : list_sum (firstn r (map (fun _ => 1) l)) = min r (length l).
Proof. revert r. induction l; intros r; [rewrite firstn_nil; cbn; lia|]. destruct r; [reflexivity|]. cbn [map]. rewrite sum_firstn_cons, IHl. cbn [length]. lia. Qed.
Lemma rsum_single (f : nat -> R) n k : k < n -> (forall i, i < n -> i <> k -> f i = 0%R) -> rsum (map f (seq 0 n)) = f k.
Proof.
  intros Hk H. assert (G : forall m a, (forall i, a <= i < a + m -> i <> k -> f i = 0%R) -> rsum (map f (seq a m)) = if (Nat.leb a k && Nat.ltb k (a + m))%bool then f k else 0%R).
  { induction m as [|m IH]; intros a G. { cbn [seq map rsum]. destruct (Nat.leb_spec a k), (Nat.ltb_spec k (a + 0)); cbn; auto; lia. }
    cbn [seq map rsum]. rewrite IH by (intros; apply G; lia). destruct (Nat.eq_dec a k) as [E|E].
    - subst a. destruct (Nat.leb_spec (S k) k); [lia|]. destruct (Nat.leb_spec k k); [|lia]. destruct (Nat.ltb_spec k (k + S m)); [|lia]. cbn. lra.
    - rewrite (G a) by lia. destruct (Nat.leb_spec (S a) k), (Nat.leb_spec a k), (Nat.ltb_spec k (S a + m)), (Nat.ltb_spec k (a + S m)); cbn; try lia; lra. }
  rewrite G by (intros; apply H; lia). destruct (Nat.leb_spec 0 k); [|lia]. destruct (Nat.ltb_spec k (0 + n)); [reflexivity|lia].
Qed.
Lemma nth_error_nth_nat (l : list nat) i : i < length l -> natAt l i = Some (nth i l 0).
Proof. intros H. unfold natAt. now apply nth_error_nth'. Qed.

(** * Accumulation *)
Definition cell (a : list (list R)) (u p : nat) : R := nth p (nth u a []) 0%R.
Lemma storeAt_add (a : list (list R)) u p x : u < length a -> p < length (nth u a []) ->
  exists a', storeAt (addAt p x) u a = Some a' /\ length a' = length a /\ (forall u', length (nth u' a' []) = length (nth u' a [])) /\
  forall u' p', cell a' u' p' = (cell a u' p' + (if Nat.eqb u u' && Nat.eqb p p' then x else 0))%R.
Proof.
  intros Hu Hp. unfold storeAt at 1. rewrite (nth_error_nth' a [] Hu). unfold addAt, storeAt. rewrite (nth_error_nth' (nth u a []) 0%R Hp).
  eexists. split; [reflexivity|]. split; [now apply length_store|]. split.
  - intros u'. rewrite nth_store by auto. destruct (Nat.eqb_spec u' u) as [E|E]; [|reflexivity]. subst. now apply length_store.
  - intros u' p'. unfold cell. rewrite nth_store by auto. rewrite (Nat.eqb_sym u u'), (Nat.eqb_sym p p'). destruct (Nat.eqb_spec u' u) as [E|E]; cbn [andb]; [|lra].
    subst. rewrite nth_store by auto. destruct (Nat.eqb_spec p' p) as [E|E]; [subst; reflexivity|lra].
Qed.
Lemma accumulate {C} (f : C -> list (list R) -> option (list (list R))) (tu tp : C -> nat) (v : C -> R) (ts : list C) :
  (forall t a, In t ts -> f t a = storeAt (addAt (tp t) (v t)) (tu t) a) -> forall a,
  (forall t, In t ts -> tu t < length a /\ tp t < length (nth (tu t) a [])) ->
  exists a', ofold f ts a = Some a' /\ length a' = length a /\ (forall u, length (nth u a' []) = length (nth u a [])) /\
  forall u p, cell a' u p = (cell a u p + rsum (map v (filter (fun t => Nat.eqb (tu t) u && Nat.eqb (tp t) p) ts)))%R.
Proof.
  induction ts as [|t ts IH]; intros F a H.
  - exists a. split; [reflexivity|]. split; [reflexivity|]. split; [reflexivity|]. intros. cbn. lra.
  - destruct (H t (or_introl eq_refl)) as [Hu Hp]. destruct (storeAt_add a (tu t) (tp t) (v t) Hu Hp) as (a1 & A1 & A2 & A3 & A4).
    cbn [ofold]. rewrite (F t a (or_introl eq_refl)), A1.
    destruct (IH (fun t' a I => F t' a (or_intror I)) a1) as (a' & B1 & B2 & B3 & B4).
    { intros t' I. rewrite A2, A3. apply H. now right. }
    exists a'. split; [exact B1|]. split; [congruence|]. split; [intros; now rewrite B3|]. intros u p. rewrite B4, A4. cbn [filter].
    destruct (Nat.eqb (tu t) u && Nat.eqb (tp t) p); cbn [map rsum]; lra.
Qed.

Lemma accumulate_add {C} (f : C -> list (list R) -> option (list (list R))) (tu tp : C -> nat) (v : C -> R) (ts : list C) (n : nat) (len : nat -> nat) :
  (forall t a, In t ts -> f t a = storeAt (addAt (tp t) (v t)) (tu t) a) ->
  (forall t, In t ts -> tu t < n /\ tp t < len (tu t)) ->
  exists a', ofold f ts (map (fun u => repeat 0%R (len u)) (seq 0 n)) = Some a' /\ length a' = n /\ (forall u, u < n -> length (nth u a' []) = len u) /\
  forall u p, u < n -> cell a' u p = rsum (map v (filter (fun t => Nat.eqb (tu t) u && Nat.eqb (tp t) p) ts)).
Proof.
  intros F H. set (z := map (fun u => repeat 0%R (len u)) (seq 0 n)).
  assert (Z : forall u, u < n -> nth u z [] = repeat 0%R (len u)).
  { intros u Hu. unfold z. rewrite (nth_indep _ [] (repeat 0%R (len 0))) by (rewrite map_length, seq_length; auto). rewrite (map_nth (fun u => repeat 0%R (len u)) (seq 0 n) 0). now rewrite seq_nth. }
  assert (Lz : length z = n) by (unfold z; rewrite map_length, seq_length; auto).
  destruct (accumulate f tu tp v ts F z) as (a' & A1 & A2 & A3 & A4).
  { intros t I. destruct (H t I). rewrite Lz. split; [auto|]. rewrite Z by auto. now rewrite repeat_length. }
  exists a'. split; [exact A1|]. split; [congruence|]. split. { intros u Hu. rewrite A3, Z by auto. apply repeat_length. }
  intros u p Hu. rewrite A4. unfold cell. rewrite Z by auto. rewrite nth_repeat. lra.
Qed.

(** * Offsets *)
Section Y.
Variable y : layout.
Lemma errorsPerTask_length : length (errorsPerTask y) = numProcs y.
Proof. unfold errorsPerTask, numProcs. now rewrite map_length. Qed.
Lemma offset_at r : r < numProcs y -> natAt (offsetPerTask y) r = Some (list_sum (firstn r (errorsPerTask y))).
Proof.
  intros H. unfold offsetPerTask, offsets. rewrite prefix_sums. cbn [snd app]. unfold natAt.
  rewrite (nth_error_nth' _ (list_sum (firstn 0 (errorsPerTask y)))) by (rewrite map_length, seq_length, errorsPerTask_length; auto).
  rewrite (map_nth (fun r => 0 + list_sum (firstn r (errorsPerTask y))) _ 0). rewrite seq_nth by (rewrite errorsPerTask_length; auto). reflexivity.
Qed.
Lemma offset_length : length (offsetPerTask y) = numProcs y.
Proof. unfold offsetPerTask, offsets. rewrite prefix_sums. cbn [snd app]. now rewrite map_length, seq_length, errorsPerTask_length. Qed.
Lemma global_errors : numErrorsGlobal y = list_sum (errorsPerTask y).
Proof. unfold numErrorsGlobal, offsets. now rewrite prefix_sums. Qed.
Lemma errors_rows : l_jac y <> JM_SUM -> list_sum (errorsPerTask y) = rows y.
Proof.
  intros H. unfold errorsPerTask, rows, numProcs. destruct (l_jac y); [contradiction| |now rewrite map_id].
  rewrite <- (firstn_all (map _ _)), ones_sum, map_length. lia.
Qed.
Lemma errors_row r : l_jac y <> JM_SUM -> r < numProcs y -> list_sum (firstn r (errorsPerTask y)) = row y r 0.
Proof.
  intros H Hr. unfold errorsPerTask, row, numProcs in *. destruct (l_jac y); [contradiction| |rewrite map_id; lia].
  rewrite ones_sum. lia.
Qed.
Lemma errors_nth r : r < numProcs y -> nth r (errorsPerTask y) 0 = match l_jac y with JM_FULL => nth r (l_batch y) 0 | _ => 1 end.
Proof.
  intros H. unfold errorsPerTask. rewrite (nth_indep _ 0 (match l_jac y with JM_FULL => 0 | _ => 1 end)) by (rewrite map_length; exact H).
  now rewrite (map_nth (fun n => match l_jac y with JM_FULL => n | _ => 1 end)).
Qed.

Lemma combined_memory : forall l g off, fold_left (fun (st : nat * list nat) n => let '(numWeights, off) := st in let off := off ++ [numWeights] in let numWeights := numWeights + n in ((if l_hardness y then S numWeights else numWeights), off)) l (g, off)
  = fold_left (fun (st : nat * list nat) e => let '(g, off) := st in (g + e, off ++ [g])) (map (fun n => n + if l_hardness y then 1 else 0) l) (g, off).
Proof. induction l as [|n l IH]; intros g off; [reflexivity|]. cbn [fold_left map]. rewrite IH. f_equal. f_equal. destruct (l_hardness y); lia. Qed.
Lemma slots_list : map (slots y) (seq 0 (numElements y)) = map (fun n => n + match l_strat y with US_COMBINED => if l_hardness y then 1 else 0 | US_ELEMENT => 0 end) (l_conn y).
Proof.
  unfold slots, numElements. generalize (match l_strat y with US_COMBINED => if l_hardness y then 1 else 0 | US_ELEMENT => 0 end). intros k.
  induction (l_conn y) as [|n l IH]; [reflexivity|]. cbn [length seq map]. f_equal. rewrite <- seq_shift, map_map. exact IH.
Qed.
Lemma snoc_all (l acc : list nat) : fold_left (fun acc n => acc ++ [n]) l acc = acc ++ l.
Proof. revert acc. induction l; intros acc; cbn; [now rewrite app_nil_r|]. rewrite IHl, <- app_assoc. reflexivity. Qed.
Lemma width_at u : u < numUpdaters y -> natAt (numWeightsPerUpdater y) u = Some (width y u).
Proof.
  unfold numUpdaters, numWeightsPerUpdater, weightsMemory, width. pose proof slots_list as SL. unfold slots in *. destruct (l_strat y).
  - intros H. assert (u = 0) by lia. subst. rewrite combined_memory, prefix_sums. cbn. f_equal. now rewrite <- SL.
  - intros H. rewrite snoc_all. cbn [fst app]. rewrite nth_error_nth_nat by exact H. f_equal. lia.
Qed.
Lemma position_at i : i < numElements y -> l_strat y = US_COMBINED -> natAt (weightsOffset y) i = Some (position y i 0).
Proof.
  intros H S. unfold weightsOffset, weightsMemory, position. pose proof slots_list as SL. rewrite S in *. rewrite combined_memory, prefix_sums. cbn [snd app].
  rewrite <- SL. rewrite map_length, seq_length. unfold natAt.
  rewrite (nth_error_nth' _ (list_sum (firstn 0 (map (slots y) (seq 0 (numElements y)))))) by (rewrite map_length, seq_length; auto).
  rewrite (map_nth (fun r => 0 + list_sum (firstn r (map (slots y) (seq 0 (numElements y))))) _ 0). rewrite seq_nth by auto. cbn [Nat.add].
  rewrite firstn_map. replace (firstn i (seq 0 (numElements y))) with (seq 0 i). 2:{ replace (numElements y) with (i + (numElements y - i)) by lia. rewrite seq_app, firstn_app, seq_length, Nat.sub_diag. cbn. rewrite app_nil_r. symmetry. apply firstn_all2. rewrite seq_length. lia. }
  f_equal. lia.
Qed.
Lemma position_bound i j : i < numElements y -> j < slots y i -> position y i j < width y (updater y i).
Proof.
  intros Hi Hj. unfold position, width, updater. destruct (l_strat y) eqn:S; [|exact Hj].
  assert (L : i < length (map (slots y) (seq 0 (numElements y)))) by (rewrite map_length, seq_length; auto).
  pose proof (prefix_all (map (slots y) (seq 0 (numElements y))) i L) as P. rewrite firstn_map in P.
  replace (firstn i (seq 0 (numElements y))) with (seq 0 i) in P. 2:{ replace (numElements y) with (i + (numElements y - i)) by lia. rewrite seq_app, firstn_app, seq_length, Nat.sub_diag. cbn. rewrite app_nil_r. symmetry. apply firstn_all2. rewrite seq_length. lia. }
  rewrite (nth_indep _ 0 (slots y 0)) in P by auto. rewrite map_nth, seq_nth in P by auto. cbn in P. lia.
Qed.
Lemma updater_bound i : i < numElements y -> updater y i < numUpdaters y.
Proof. unfold updater, numUpdaters. destruct (l_strat y); lia. Qed.
Lemma row_bound r b : r < numProcs y -> b < nth r (l_batch y) 0 -> row y r b < rows y.
Proof. unfold row, rows. destruct (l_jac y); intros Hr Hb; [lia|exact Hr|]. pose proof (prefix_all (l_batch y) r Hr). lia. Qed.

(** Local row. *)
Definition lrow (r b : nat) : nat :=
  (match l_par y, l_jac y with PM_TRAIN_ALL, JM_TASK | PM_TRAIN_ALL, JM_FULL => row y r 0 | _, _ => 0 end) + match l_jac y with JM_FULL => b | _ => 0 end.
Definition lsize (r : nat) : nat :=
  match l_jac y with JM_SUM => 1 | _ => match l_par y with PM_TRAIN_ALL => rows y | PM_TRAIN_RK0 => if Nat.eqb r 0 then rows y else nth r (errorsPerTask y) 0 end end.
Lemma arraySize_ok r : r < numProcs y -> arraySize y r = Some (lsize r).
Proof.
  intros H. unfold arraySize, lsize. pose proof errors_rows as E. rewrite global_errors.
  destruct (l_jac y); [reflexivity| |]; destruct (l_par y); rewrite ?E by discriminate; try reflexivity; destruct (Nat.eqb r 0); try reflexivity; apply nth_error_nth_nat; now rewrite errorsPerTask_length.
Qed.
Lemma jacobianOffset_ok r b i : r < numProcs y -> i < numElements y -> jacobianOffset y r b i = Some (lrow r b * width y (updater y i) + position y i 0).
Proof.
  intros Hr Hi. unfold jacobianOffset. pose proof (width_at _ (updater_bound i Hi)) as W. pose proof (position_at i Hi) as P. pose proof (offset_at r Hr) as O. pose proof (errors_row r) as ER. unfold lrow.
  unfold updater in *. unfold position in *.
  destruct (l_strat y).
  - rewrite W, (P eq_refl), O. destruct (l_par y), (l_jac y); cbn [Nat.add]; f_equal; rewrite ?ER by (discriminate || auto); lia.
  - rewrite W, O. destruct (l_par y), (l_jac y); cbn [Nat.add]; f_equal; rewrite ?ER by (discriminate || auto); lia.
Qed.
Lemma errorOffset_ok r b : r < numProcs y -> errorOffset y r b = Some (lrow r b).
Proof.
  intros Hr. unfold errorOffset, lrow. pose proof (offset_at r Hr) as O. pose proof (errors_row r) as ER. rewrite O.
  destruct (l_par y), (l_jac y); cbn [Nat.add]; f_equal; rewrite ?ER by (discriminate || auto); lia.
Qed.
Lemma lrow_bound r b : r < numProcs y -> b < nth r (l_batch y) 0 -> lrow r b < lsize r.
Proof.
  intros Hr Hb. pose proof (row_bound r b Hr Hb) as RB. unfold lrow, lsize. rewrite (errors_nth r Hr). unfold row, rows in *.
  destruct (l_par y), (l_jac y); try lia; destruct (Nat.eqb_spec r 0) as [E|E]; try lia; subst; cbn [firstn] in RB; cbn in RB; lia.
Qed.
Lemma row_of_lrow r b b' : lrow r b = lrow r b' <-> row y r b = row y r b'.
Proof. unfold lrow, row. destruct (l_par y), (l_jac y); lia. Qed.

Lemma local_jacobian_ok r js : r < numProcs y -> (forall x, In x js -> valid_j y r x) ->
  exists a, localJacobian y r js = Some a /\ length a = numUpdaters y /\ (forall u, u < numUpdaters y -> length (nth u a []) = lsize r * width y u) /\
  forall u p, u < numUpdaters y -> cell a u p = rsum (map j_v (filter (fun x => Nat.eqb (updater y (j_i x)) u && Nat.eqb (lrow r (j_b x) * width y (updater y (j_i x)) + position y (j_i x) (j_j x)) p) js)).
Proof.
  intros Hr Hv. unfold localJacobian, zeros. rewrite (arraySize_ok r Hr).
  destruct (accumulate_add (fun j jac => match jacobianOffset y r (j_b j) (j_i j) with None => None | Some o => let iu := match l_strat y with US_ELEMENT => j_i j | US_COMBINED => 0 end in storeAt (addAt (o + j_j j) (j_v j)) iu jac end)
     (fun x => updater y (j_i x)) (fun x => lrow r (j_b x) * width y (updater y (j_i x)) + position y (j_i x) (j_j x)) j_v js (numUpdaters y) (fun u => lsize r * width y u)) as (a & A1 & A2 & A3 & A4).
  - intros x a I. destruct (Hv x I) as (V1 & V2 & V3). rewrite (jacobianOffset_ok r (j_b x) (j_i x) Hr V2). cbv zeta.
    replace (lrow r (j_b x) * width y (updater y (j_i x)) + position y (j_i x) 0 + j_j x) with (lrow r (j_b x) * width y (updater y (j_i x)) + position y (j_i x) (j_j x)); [reflexivity|]. unfold position. destruct (l_strat y); lia.
  - intros x I. destruct (Hv x I) as (V1 & V2 & V3). split; [now apply updater_bound|]. pose proof (lrow_bound r _ Hr V1). pose proof (position_bound _ _ V2 V3). nia.
  - exists a. split; [|auto]. rewrite <- A1. f_equal. apply map_ext_in. intros u Hu. apply in_seq in Hu. pose proof (width_at u ltac:(lia)) as W. unfold natAt in W. rewrite (nth_error_nth _ _ 0 W). reflexivity.
Qed.
Lemma local_error_ok r es : r < numProcs y -> (forall x, In x es -> valid_e y r x) ->
  exists a, localError y r es = Some a /\ length a = numUpdaters y /\ (forall u, u < numUpdaters y -> length (nth u a []) = lsize r * 1) /\
  forall u p, u < numUpdaters y -> cell a u p = rsum (map e_v (filter (fun x => Nat.eqb (e_u x) u && Nat.eqb (lrow r (e_b x)) p) es)).
Proof.
  intros Hr Hv. unfold localError, zeros. rewrite (arraySize_ok r Hr).
  destruct (accumulate_add (fun e err => match errorOffset y r (e_b e) with None => None | Some o => storeAt (if e_set e then setAt o (e_v e) else addAt o (e_v e)) (e_u e) err end)
     e_u (fun x => lrow r (e_b x)) e_v es (numUpdaters y) (fun u => lsize r * 1)) as (a & A1 & A2 & A3 & A4).
  - intros x a I. destruct (Hv x I) as (V1 & V2 & V3). now rewrite (errorOffset_ok r (e_b x) Hr), V3.
  - intros x I. destruct (Hv x I) as (V1 & V2 & V3). split; [auto|]. pose proof (lrow_bound r _ Hr V1). lia.
  - exists a. auto.
Qed.
End Y.

(** * All processes *)
Lemma allLocal_ok {C} (f : nat -> C -> option (list (list R))) w (cs : list C) (P : nat -> list (list R) -> Prop) (d : C) :
  (forall r, r < length cs -> exists a, f r (nth r cs d) = Some a /\ P r a) ->
  exists ls, allLocal f w cs = Some ls /\ length ls = length cs /\ forall r, r < length cs -> exists a, nth r ls [] = weighted w a /\ P r a.
Proof.
  intros H. unfold allLocal.
  assert (G : forall cs' k acc, (forall r, r < length cs' -> exists a, f (k + r) (nth r cs' d) = Some a /\ P (k + r) a) ->
     exists ls, ofold (fun rc acc => match f (fst rc) (snd rc) with None => None | Some a => Some (acc ++ [weighted w a]) end) (combine (seq k (length cs')) cs') acc = Some (acc ++ ls) /\
     length ls = length cs' /\ forall r, r < length cs' -> exists a, nth r ls [] = weighted w a /\ P (k + r) a).
  { clear H. induction cs' as [|c cs' IH]; intros k acc H. { exists []. cbn. rewrite app_nil_r. split; [reflexivity|]. split; [reflexivity|]. intros; lia. }
    destruct (H 0 ltac:(cbn; lia)) as (a & A1 & A2). rewrite Nat.add_0_r in *. cbn [nth] in A1. cbn [length seq combine ofold fst snd]. rewrite A1.
    destruct (IH (S k) (acc ++ [weighted w a])) as (ls & L1 & L2 & L3). { intros r Hr. destruct (H (S r) ltac:(cbn; lia)) as (a' & ?). exists a'. now rewrite Nat.add_succ_comm in *. }
    exists (weighted w a :: ls). split. { rewrite L1. rewrite <- app_assoc. reflexivity. } split; [cbn; lia|].
    intros [|r] Hr. { exists a. rewrite Nat.add_0_r. auto. } cbn [nth]. destruct (L3 r ltac:(cbn in Hr; lia)) as (a' & ?). exists a'. now rewrite Nat.add_succ_comm in *. }
  destruct (G cs 0 [] H) as (ls & L). exists ls. exact L.
Qed.
Lemma column_ok {C} (d : C) (ls : list (list C)) u : (forall r, r < length ls -> u < length (nth r ls [])) ->
  exists col, column ls u = Some col /\ length col = length ls /\ forall r, r < length ls -> nth r col d = nth u (nth r ls []) d.
Proof.
  intros H. unfold column.
  assert (G : forall ls acc, (forall r, r < length ls -> u < length (nth r ls [])) -> exists col, ofold (fun (l : list C) acc => match nth_error l u with None => None | Some a => Some (acc ++ [a]) end) ls acc = Some (acc ++ col) /\
    length col = length ls /\ forall r, r < length ls -> nth r col d = nth u (nth r ls []) d).
  { clear. induction ls as [|l ls IH]; intros acc H. { exists []. cbn. rewrite app_nil_r. split; [reflexivity|]. split; [reflexivity|]. intros; lia. }
    pose proof (H 0 ltac:(cbn; lia)) as H0. cbn [nth] in H0. cbn [ofold]. rewrite (nth_error_nth' l d H0).
    destruct (IH (acc ++ [nth u l d])) as (col & L1 & L2 & L3). { intros r Hr. apply (H (S r)). cbn. lia. }
    exists (nth u l d :: col). split. { rewrite L1, <- app_assoc. reflexivity. } split; [cbn; lia|]. intros [|r] Hr; [reflexivity|]. cbn [nth]. apply L3. cbn in Hr. lia. }
  destruct (G ls [] H) as (col & L). exists col. exact L.
Qed.

(** * Communication *)
Lemma paste_ok d s v : d + length s <= length v -> exists v', paste d s v = Some v' /\ length v' = length v /\
  forall p, nth p v' 0%R = if Nat.leb d p && Nat.ltb p (d + length s) then nth (p - d) s 0%R else nth p v 0%R.
Proof.
  intros H. unfold paste. destruct (Nat.leb_spec (d + length s) (length v)) as [L|L]; [|lia]. eexists. split; [reflexivity|]. split.
  - rewrite !app_length, firstn_length, skipn_length. lia.
  - intros p. destruct (Nat.leb_spec d p) as [A|A]; cbn [andb].
    + rewrite app_nth2 by (rewrite firstn_length; lia). rewrite firstn_length, min_l by lia. destruct (Nat.ltb_spec p (d + length s)) as [B|B].
      * rewrite app_nth1 by lia. reflexivity.
      * rewrite app_nth2 by lia. rewrite <- (firstn_skipn (d + length s) v) at 2. rewrite (app_nth2 (firstn _ v)) by (rewrite firstn_length; lia). rewrite firstn_length, min_l by lia. f_equal. lia.
    + rewrite app_nth1 by (rewrite firstn_length; lia). rewrite <- (firstn_skipn d v) at 2. rewrite app_nth1 by (rewrite firstn_length; lia). reflexivity.
Qed.
Lemma segment_ok d n v : d + n <= length v -> exists s, segment d n v = Some s /\ length s = n /\ forall p, p < n -> nth p s 0%R = nth (d + p) v 0%R.
Proof.
  intros H. unfold segment. destruct (Nat.leb_spec (d + n) (length v)) as [L|L]; [|lia]. eexists. split; [reflexivity|].
  assert (Ls : length (skipn d v) = length v - d) by apply skipn_length.
  split; [rewrite firstn_length; lia|]. intros p Hp. rewrite <- (firstn_skipn d v) at 2. rewrite app_nth2 by (rewrite firstn_length; lia). rewrite firstn_length, min_l by lia. replace (d + p - d) with p by lia.
  rewrite <- (firstn_skipn n (skipn d v)) at 2. rewrite app_nth1 by (rewrite firstn_length; lia). reflexivity.
Qed.
Lemma gather_loop (arrs : list (list R)) (counts displs : list nat) (src : nat -> nat) (g : nat -> list R -> option (list R)) (total : nat) :
  (forall r v, g r v = match nth_error arrs r, natAt counts r, natAt displs r with
               | Some a, Some n, Some d => match segment (src r) n a with None => None | Some s => paste d s v end
               | _, _, _ => None end) ->
  length counts = length arrs -> length displs = length arrs ->
  (forall r, r < length arrs -> src r + nth r counts 0 <= length (nth r arrs []) /\ nth r displs 0 + nth r counts 0 <= total) ->
  (forall r r', r < r' -> r' < length arrs -> nth r displs 0 + nth r counts 0 <= nth r' displs 0) ->
  forall m s v, s + m = length arrs -> length v = total ->
  (forall r k, r < s -> k < nth r counts 0 -> nth (nth r displs 0 + k) v 0%R = nth (src r + k) (nth r arrs []) 0%R) ->
  exists v', ofold g (seq s m) v = Some v' /\ length v' = total /\
  forall r k, r < length arrs -> k < nth r counts 0 -> nth (nth r displs 0 + k) v' 0%R = nth (src r + k) (nth r arrs []) 0%R.
Proof.
  intros Hg Lc Ld Hb Hd. induction m as [|m IH]; intros s v Hs Lv Hv.
  - exists v. split; [reflexivity|]. split; [exact Lv|]. intros r k Hr Hk. apply Hv; auto. lia.
  - cbn [seq ofold]. rewrite Hg. assert (Hsl : s < length arrs) by lia. destruct (Hb s Hsl) as [B1 B2].
    rewrite (nth_error_nth' arrs [] Hsl), (nth_error_nth_nat counts s) by lia. rewrite (nth_error_nth_nat displs s) by lia.
    destruct (segment_ok _ _ _ B1) as (sg & S1 & S2 & S3). rewrite S1.
    destruct (paste_ok (nth s displs 0) sg v) as (v1 & V1 & V2 & V3). { rewrite S2, Lv. exact B2. }
    rewrite V1. apply IH; [lia|congruence|]. intros r k Hr Hk. rewrite V3, S2.
    destruct (Nat.eq_dec r s) as [E|E].
    + subst r. destruct (Nat.leb_spec (nth s displs 0) (nth s displs 0 + k)); [|lia]. destruct (Nat.ltb_spec (nth s displs 0 + k) (nth s displs 0 + nth s counts 0)); [|lia]. cbn [andb].
      replace (nth s displs 0 + k - nth s displs 0) with k by lia. now apply S3.
    + specialize (Hd r s ltac:(lia) Hsl). destruct (Nat.leb_spec (nth s displs 0) (nth r displs 0 + k)); [lia|]. cbn [andb]. apply Hv; lia.
Qed.
Lemma nth_added : forall (l m : list R) p, p < length l -> p < length m -> nth p (map (fun xy => (fst xy + snd xy)%R) (combine l m)) 0%R = (nth p l 0 + nth p m 0)%R.
Proof. induction l as [|a l IH]; intros m p H H'; [cbn in H; lia|]. destruct m as [|b m]; [cbn in H'; lia|]. destruct p; [reflexivity|]. cbn in *. apply IH; lia. Qed.
Lemma reduce_ok n : forall arrs, (forall r, r < length arrs -> n <= length (nth r arrs [])) ->
  exists s, reduceSum n arrs = Some s /\ length s = n /\ forall p, p < n -> nth p s 0%R = rsum (map (fun r => nth p (nth r arrs []) 0%R) (seq 0 (length arrs))).
Proof.
  intros arrs H. unfold reduceSum.
  assert (G : forall arrs s0, length s0 = n -> (forall r, r < length arrs -> n <= length (nth r arrs [])) ->
    exists s, ofold (fun a s => match segment 0 n a with None => None | Some a => Some (map (fun xy => (fst xy + snd xy)%R) (combine s a)) end) arrs s0 = Some s /\ length s = n /\
    forall p, p < n -> nth p s 0%R = (nth p s0 0 + rsum (map (fun r => nth p (nth r arrs []) 0%R) (seq 0 (length arrs))))%R).
  { clear. induction arrs as [|a arrs IH]; intros s0 L0 H. { exists s0. split; [reflexivity|]. split; [exact L0|]. intros. cbn. lra. }
    cbn [ofold]. destruct (segment_ok 0 n a) as (sg & S1 & S2 & S3). { apply (H 0). cbn. lia. } rewrite S1.
    destruct (IH (map (fun xy => (fst xy + snd xy)%R) (combine s0 sg))) as (s & X1 & X2 & X3). { rewrite map_length, combine_length. lia. } { intros r Hr. apply (H (S r)). cbn. lia. }
    exists s. split; [exact X1|]. split; [exact X2|]. intros p Hp. rewrite X3 by auto. cbn [length seq map rsum]. rewrite <- seq_shift, map_map. cbn [nth].
    rewrite nth_added by lia. rewrite S3 by auto. cbn [Nat.add]. lra. }
  destruct (G arrs (repeat 0%R n) (repeat_length _ _) H) as (s & S1 & S2 & S3). exists s. split; [exact S1|]. split; [exact S2|]. intros p Hp. rewrite S3 by auto. rewrite nth_repeat. lra.
Qed.
Lemma nth_map_nat (f : nat -> nat) l r : r < length l -> nth r (map f l) 0 = f (nth r l 0).
Proof. intros H. rewrite (nth_indep _ 0 (f 0)) by (rewrite map_length; auto). apply map_nth. Qed.
Lemma communicate_ok y W arrs q : holder y q -> length arrs = numProcs y -> (forall r, r < numProcs y -> length (nth r arrs []) = lsize y r * W) ->
  exists v, communicate y W arrs q = Some v /\ length v = rows y * W /\
  match l_jac y with
  | JM_SUM => forall c, c < W -> nth c v 0%R = rsum (map (fun r => nth c (nth r arrs []) 0%R) (seq 0 (numProcs y)))
  | _ => forall r b c, r < numProcs y -> b < nth r (l_batch y) 0 \/ l_jac y = JM_TASK -> c < W -> nth (row y r b * W + c) v 0%R = nth (lrow y r b * W + c) (nth r arrs []) 0%R
  end.
Proof.
  intros [Hq Hq0] La Hl. unfold communicate. pose proof (errors_rows y) as ERs. pose proof (fun r => errors_row y r) as ER. pose proof (errors_nth y) as EN.
  assert (G : l_jac y <> JM_SUM -> forall (src : nat -> nat) g counts displs,
     (forall r v, g r v = match nth_error arrs r, natAt counts r, natAt displs r with Some a, Some n, Some d => match segment (src r) n a with None => None | Some s => paste d s v end | _, _, _ => None end) ->
     length counts = length arrs -> length displs = length arrs ->
     (forall r, r < numProcs y -> nth r counts 0 = nth r (errorsPerTask y) 0 * W /\ nth r displs 0 = row y r 0 * W) ->
     (forall r, r < numProcs y -> src r = (lrow y r 0) * W) ->
     forall m s v0, s + m = length arrs -> length v0 = rows y * W -> (forall r k, r < s -> k < nth r counts 0 -> nth (nth r displs 0 + k) v0 0%R = nth (src r + k) (nth r arrs []) 0%R) ->
     exists v, ofold g (seq s m) v0 = Some v /\ length v = rows y * W /\ forall r b c, r < numProcs y -> b < nth r (l_batch y) 0 \/ l_jac y = JM_TASK -> c < W -> nth (row y r b * W + c) v 0%R = nth (lrow y r b * W + c) (nth r arrs []) 0%R).
  { intros NS src g counts displs Hg Lc Ld Hcd Hsrc m s v0 Hm Lv Hv.
    assert (RB : forall r, r < numProcs y -> row y r 0 + nth r (errorsPerTask y) 0 <= rows y).
    { intros r Hr. rewrite <- ER by auto. rewrite <- ERs by auto. apply prefix_all. now rewrite errorsPerTask_length. }
    destruct (gather_loop arrs counts displs src g (rows y * W) Hg Lc Ld) with (m := m) (s := s) (v := v0) as (v & V1 & V2 & V3); auto.
    - intros r Hr. rewrite La in Hr. destruct (Hcd r Hr) as [-> ->]. rewrite Hsrc, Hl by auto. specialize (RB r Hr). split; [|nia].
      assert (lrow y r 0 + nth r (errorsPerTask y) 0 <= lsize y r); [|nia]. unfold lrow, lsize. rewrite (EN r Hr) in *. unfold row, rows in *. destruct (l_par y), (l_jac y); try contradiction; try lia; destruct (Nat.eqb_spec r 0) as [E|E]; try lia; subst; cbn [firstn list_sum fold_right] in RB; lia.
    - intros r r' Hrr Hr'. rewrite La in Hr'. destruct (Hcd r ltac:(lia)) as [-> ->]. destruct (Hcd r' Hr') as [_ ->].
      assert (row y r 0 + nth r (errorsPerTask y) 0 <= row y r' 0); [|nia]. rewrite <- !ER by (auto || lia). rewrite <- firstn_nth_sum by (rewrite errorsPerTask_length; lia). apply prefix_mono. lia.
    - exists v. split; [exact V1|]. split; [exact V2|]. intros r b c Hr Hb Hc. destruct (Hcd r Hr) as [C D].
      set (b' := match l_jac y with JM_FULL => b | _ => 0 end).
      assert (R1 : row y r b = row y r 0 + b') by (unfold row, b'; destruct (l_jac y); try contradiction; lia).
      assert (R2 : lrow y r b = lrow y r 0 + b') by (unfold lrow, b'; destruct (l_jac y); lia).
      assert (R3 : b' < nth r (errorsPerTask y) 0). { rewrite (EN r Hr). unfold b'. destruct (l_jac y) eqn:J; try contradiction; [lia|]. destruct Hb; [assumption|discriminate]. }
      specialize (V3 r (b' * W + c) ltac:(lia) ltac:(rewrite C; nia)). rewrite D, Hsrc in V3 by auto. rewrite R1, R2. rewrite !Nat.mul_add_distr_r. rewrite <- !Nat.add_assoc in *. exact V3. }
  assert (P1 : 0 < numProcs y) by lia.
  assert (UN : forall r, r < numProcs y -> nth r (map (fun _ : list R => W) arrs) 0 = W).
  { intros r Hr. rewrite (nth_indep _ 0 W) by (rewrite map_length; lia). apply (map_nth (fun _ : list R => W) arrs []). }
  assert (BL : forall r, r < numProcs y -> nth r (map (fun r => r * W) (seq 0 (length arrs))) 0 = r * W).
  { intros r Hr. rewrite nth_map_nat by (rewrite seq_length; lia). rewrite seq_nth by lia. reflexivity. }
  assert (WT : forall r, r < numProcs y -> nth r (weightsPerTask y W) 0 = nth r (errorsPerTask y) 0 * W).
  { intros r Hr. unfold weightsPerTask. apply nth_map_nat. now rewrite errorsPerTask_length. }
  assert (OJ : l_jac y <> JM_SUM -> forall r, r < numProcs y -> nth r (offsetJacobian y W) 0 = row y r 0 * W).
  { intros NS r Hr. unfold offsetJacobian. rewrite nth_map_nat by (rewrite offset_length; auto). pose proof (offset_at y r Hr) as O. unfold natAt in O. rewrite (nth_error_nth _ _ 0 O). now rewrite ER. }
  assert (LW : length (weightsPerTask y W) = length arrs) by (unfold weightsPerTask; rewrite map_length, errorsPerTask_length; lia).
  assert (LO : length (offsetJacobian y W) = length arrs) by (unfold offsetJacobian; rewrite map_length, offset_length; lia).
  pose proof (Hl 0 P1) as H0. pose proof (Hl q Hq) as Hlq.
  assert (A0 : exists rest, arrs = nth 0 arrs [] :: rest). { destruct arrs as [|a0 rest]; [cbn in La; lia|]. exists rest. reflexivity. }
  destruct (l_jac y) eqn:J.
  - assert (Lz : forall r, r < numProcs y -> length (nth r arrs []) = W). { intros r Hr. rewrite Hl by auto. unfold lsize. rewrite J. lia. }
    destruct (reduce_ok W arrs) as (s & S1 & S2 & S3). { intros r Hr. rewrite Lz by lia. lia. } rewrite S1. rewrite (nth_error_nth' arrs []) by lia.
    destruct (paste_ok 0 s (nth q arrs [])) as (v & V1 & V2 & V3). { rewrite S2, Lz by auto. lia. }
    rewrite V1. exists v. split; [reflexivity|]. split. { rewrite V2, Lz by auto. unfold rows. rewrite J. lia. }
    intros c Hc. rewrite V3, S2. cbn [Nat.leb Nat.add andb]. destruct (Nat.ltb_spec c W); [|lia]. rewrite Nat.sub_0_r, S3, La by auto. reflexivity.
  - destruct (l_par y) eqn:Pm.
    + unfold gather0. destruct A0 as (rest & A0). destruct arrs as [|a0 rest0]; [discriminate|]. cbn [nth] in H0.
      apply (G ltac:(discriminate) (fun _ => 0) _ (map (fun _ => W) (a0 :: rest0)) (map (fun r => r * W) (seq 0 (length (a0 :: rest0))))).
      * reflexivity.
      * now rewrite map_length.
      * now rewrite map_length, seq_length.
      * intros r Hr. rewrite UN, BL, EN by auto. unfold row. rewrite J. lia.
      * intros r Hr. unfold lrow. rewrite Pm, J. lia.
      * cbn. lia.
      * rewrite H0. unfold lsize. rewrite J, Pm. reflexivity.
      * intros r k Hr Hk. assert (r = 0) by lia. subst r. rewrite BL by auto. reflexivity.
    + unfold gatherAll. rewrite (nth_error_nth' arrs []) by lia.
      apply (G ltac:(discriminate) (fun r => nth r (map (fun r => r * W) (seq 0 (length arrs))) 0) _ (map (fun _ => W) arrs) (map (fun r => r * W) (seq 0 (length arrs)))).
      * intros r v. destruct (nth_error arrs r) eqn:E; [|reflexivity]. assert (r < length arrs) by (apply nth_error_Some; congruence).
        rewrite (nth_error_nth_nat (map (fun r => r * W) (seq 0 (length arrs)))) by (rewrite map_length, seq_length; auto). reflexivity.
      * now rewrite map_length.
      * now rewrite map_length, seq_length.
      * intros r Hr. rewrite UN, BL, EN by auto. unfold row. rewrite J. lia.
      * intros r Hr. rewrite BL by auto. unfold lrow, row. rewrite Pm, J. lia.
      * lia.
      * rewrite Hlq. unfold lsize. rewrite J, Pm. reflexivity.
      * intros; lia.
  - destruct (l_par y) eqn:Pm.
    + unfold gather0. destruct A0 as (rest & A0). destruct arrs as [|a0 rest0]; [discriminate|]. cbn [nth] in H0.
      apply (G ltac:(discriminate) (fun _ => 0) _ (weightsPerTask y W) (offsetJacobian y W)); auto.
      * intros r Hr. split; [now apply WT|now apply OJ].
      * intros r Hr. unfold lrow. rewrite Pm, J. lia.
      * cbn. lia.
      * rewrite H0. unfold lsize. rewrite J, Pm. reflexivity.
      * intros r k Hr Hk. assert (r = 0) by lia. subst r. rewrite OJ by (auto || discriminate). unfold row. rewrite J. reflexivity.
    + unfold gatherAll. rewrite (nth_error_nth' arrs []) by lia.
      apply (G ltac:(discriminate) (fun r => nth r (offsetJacobian y W) 0) _ (weightsPerTask y W) (offsetJacobian y W)); auto.
      * intros r v. destruct (nth_error arrs r) eqn:E; [|reflexivity]. assert (r < length arrs) by (apply nth_error_Some; congruence).
        rewrite (nth_error_nth_nat (offsetJacobian y W)) by lia. reflexivity.
      * intros r Hr. split; [now apply WT|now apply OJ].
      * intros r Hr. rewrite OJ by (auto || discriminate). unfold lrow. rewrite Pm, J. f_equal. lia.
      * rewrite Hlq. unfold lsize. rewrite J, Pm. reflexivity.
      * intros; lia.
Qed.

(** * Main statements *)
Lemma row_distinct y r b r' b' : l_jac y <> JM_SUM -> r < numProcs y -> r' < numProcs y -> (l_jac y = JM_FULL -> b < nth r (l_batch y) 0 /\ b' < nth r' (l_batch y) 0) ->
  row y r b = row y r' b' -> r = r' /\ (l_jac y = JM_FULL -> b = b').
Proof.
  intros NS Hr Hr' Hb E. unfold row in E. destruct (l_jac y); [contradiction| |].
  - split; [exact E|discriminate].
  - destruct (Hb eq_refl) as [B B'].
    assert (M : forall s s', s < s' -> s' < numProcs y -> list_sum (firstn s (l_batch y)) + nth s (l_batch y) 0 <= list_sum (firstn s' (l_batch y))).
    { intros s s' H H'. rewrite <- firstn_nth_sum by (unfold numProcs in H'; lia). apply prefix_mono. lia. }
    destruct (Nat.lt_trichotomy r r') as [L|[L|L]].
    + specialize (M r r' L Hr'). lia.
    + subst. split; [reflexivity|]. intros _. lia.
    + specialize (M r' r L Hr). lia.
Qed.
Lemma row_exists y e : l_jac y <> JM_SUM -> e < rows y -> exists r b, r < numProcs y /\ (b < nth r (l_batch y) 0 \/ l_jac y = JM_TASK) /\ row y r b = e.
Proof.
  intros NS He. unfold row, rows, numProcs in *. destruct (l_jac y) eqn:J; [contradiction| |].
  - exists e, 0. auto.
  - clear NS J. revert e He. induction (l_batch y) as [|n l IH]; intros e He; [cbn in He; lia|]. change (list_sum (n :: l)) with (n + list_sum l) in He.
    destruct (le_lt_dec n e) as [L|L].
    + destruct (IH (e - n) ltac:(lia)) as (r & b & H1 & H2 & H3). exists (S r), b. split; [cbn; lia|]. split; [exact H2|]. rewrite sum_firstn_cons. lia.
    + exists 0, e. split; [cbn; lia|]. split; [left; exact L|]. cbn. lia.
Qed.
Lemma position_distinct y i j i' j' : i < numElements y -> i' < numElements y -> j < slots y i -> j' < slots y i' ->
  updater y i = updater y i' -> position y i j = position y i' j' -> i = i' /\ j = j'.
Proof.
  unfold updater, position. destruct (l_strat y) eqn:St; [|auto]. intros Hi Hi' Hj Hj' _ E.
  assert (M : forall s s', s < s' -> s' < numElements y -> list_sum (map (slots y) (seq 0 s)) + slots y s <= list_sum (map (slots y) (seq 0 s'))).
  { intros s s' H H'. replace s' with (S s + (s' - S s)) by lia. rewrite seq_app, map_app, list_sum_app, seq_S, map_app, list_sum_app. cbn. lia. }
  destruct (Nat.lt_trichotomy i i') as [L|[L|L]].
  - specialize (M i i' L Hi'). lia.
  - subst. lia.
  - specialize (M i' i L Hi). lia.
Qed.

Lemma weighted_cell w a u p : cell (weighted w a) u p = (cell a u p * w)%R.
Proof.
  unfold cell, weighted. destruct (le_lt_dec (length a) u) as [L|L].
  - rewrite (nth_overflow (map _ a)) by (rewrite map_length; auto). rewrite (nth_overflow a) by auto. destruct p; cbn; lra.
  - rewrite (nth_indep _ [] (map (fun x => (x * w)%R) [])) by (rewrite map_length; auto). rewrite map_nth.
    destruct (le_lt_dec (length (nth u a [])) p) as [Lp|Lp].
    + rewrite nth_overflow by (rewrite map_length; auto). rewrite (nth_overflow _ _ Lp). lra.
    + rewrite (nth_indep _ 0%R ((fun x => (x * w)%R) 0%R)) by (rewrite map_length; auto). apply (map_nth (fun x => (x * w)%R)) .
Qed.
Lemma weighted_length w a u : length (nth u (weighted w a) []) = length (nth u a []).
Proof.
  unfold weighted. destruct (le_lt_dec (length a) u) as [L|L].
  - rewrite !nth_overflow by (rewrite ?map_length; auto). reflexivity.
  - rewrite (nth_indep _ [] (map (fun x => (x * w)%R) [])) by (rewrite map_length; auto). rewrite map_nth. apply map_length.
Qed.
Lemma filter_rsum_ext {A} (v : A -> R) (f g : A -> bool) l : (forall x, In x l -> f x = g x) -> rsum (map v (filter f l)) = rsum (map v (filter g l)).
Proof. intros H. induction l as [|a l IH]; [reflexivity|]. cbn [filter]. rewrite (H a (or_introl eq_refl)). rewrite <- (IH (fun x I => H x (or_intror I))) at 1 || idtac. destruct (g a); cbn [map rsum]; rewrite IH; auto; intros; apply H; now right. Qed.
Lemma filter_rsum_none {A} (v : A -> R) (f : A -> bool) l : (forall x, In x l -> f x = false) -> rsum (map v (filter f l)) = 0%R.
Proof. intros H. induction l as [|a l IH]; [reflexivity|]. cbn [filter]. rewrite (H a (or_introl eq_refl)). apply IH. intros; apply H; now right. Qed.

(** Common part: an array of width W whose local cells are the sums of the contributions with the same local row and column. *)
Lemma collected {C} y q W (cs : list (list C)) (arrs : list (list R)) (w : R) (cb cc : C -> nat) (sel : C -> bool) (v : C -> R) :
  holder y q -> length cs = numProcs y -> length arrs = numProcs y ->
  (forall r x, r < numProcs y -> In x (nth r cs []) -> cb x < nth r (l_batch y) 0) ->
  (forall r, r < numProcs y -> length (nth r arrs []) = lsize y r * W) ->
  (forall r x, In x (nth r cs []) -> sel x = true -> cc x < W) ->
  (forall r p, r < numProcs y -> nth p (nth r arrs []) 0%R = (rsum (map v (filter (fun x => sel x && Nat.eqb (lrow y r (cb x) * W + cc x) p) (nth r cs []))) * w)%R) ->
  exists a, communicate y W arrs q = Some a /\ length a = rows y * W /\
  forall e c, e < rows y -> c < W -> nth (e * W + c) a 0%R = (w * rsum (map (fun r => rsum (map v (filter (fun x => Nat.eqb (row y r (cb x)) e && sel x && Nat.eqb (cc x) c) (nth r cs [])))) (seq 0 (length cs))))%R.
Proof.
  intros Hq Lc La Hb Hl Hc Hv. destruct (communicate_ok y W arrs q Hq La Hl) as (a & A1 & A2 & A3). exists a. split; [exact A1|]. split; [exact A2|].
  assert (DM : forall l c l' c', c < W -> c' < W -> Nat.eqb (l * W + c) (l' * W + c') = (Nat.eqb l l' && Nat.eqb c c')%bool).
  { intros l c l' c' H H'. destruct (Nat.eqb_spec l l') as [E|E]; cbn [andb].
    - subst. destruct (Nat.eqb_spec c c') as [E|E]; [subst; apply Nat.eqb_refl|]. apply Nat.eqb_neq. lia.
    - apply Nat.eqb_neq. intros F. apply E. assert (l = (l * W + c) / W). { apply (Nat.div_unique _ W l c); lia. } assert (l' = (l' * W + c') / W) by (apply (Nat.div_unique _ W l' c'); lia). congruence. }
  intros e c He Hcc.
  assert (NSUM : l_jac y <> JM_SUM -> nth (e * W + c) a 0%R = (w * rsum (map (fun r => rsum (map v (filter (fun x => Nat.eqb (row y r (cb x)) e && sel x && Nat.eqb (cc x) c) (nth r cs [])))) (seq 0 (length cs))))%R).
  { intros NS. destruct (row_exists y e NS He) as (r & b & Hr & Hbb & <-).
    assert (A4 : nth (row y r b * W + c) a 0%R = nth (lrow y r b * W + c) (nth r arrs []) 0%R) by (destruct (l_jac y); [contradiction|apply A3; auto|apply A3; auto]).
    rewrite A4, Hv by auto. rewrite Rmult_comm. f_equal. rewrite Lc. rewrite (rsum_single _ _ r Hr).
    - apply filter_rsum_ext. intros x I. destruct (sel x) eqn:Sx; cbn [andb]; [|now rewrite andb_false_r]. rewrite andb_true_r.
      rewrite DM by (auto; eapply Hc; eauto). f_equal. pose proof (row_of_lrow y r (cb x) b) as RL. destruct (Nat.eqb_spec (lrow y r (cb x)) (lrow y r b)), (Nat.eqb_spec (row y r (cb x)) (row y r b)); tauto.
    - intros r' Hr' NE. apply filter_rsum_none. intros x I. destruct (Nat.eqb_spec (row y r' (cb x)) (row y r b)) as [E|E]; [|reflexivity]. exfalso. apply NE.
      refine (proj1 (row_distinct y r' (cb x) r b NS Hr' Hr _ E)). intros F. split; [now apply Hb|]. destruct Hbb as [Hbb|Hbb]; [exact Hbb|congruence]. }
  destruct (l_jac y) eqn:J; [|apply NSUM; discriminate|apply NSUM; discriminate].
  unfold rows in He. rewrite J in He. assert (e = 0) by lia. subst e. cbn [Nat.mul Nat.add]. rewrite A3 by auto. rewrite Lc.
  rewrite <- rsum_scal. apply rsum_ext. intros r Hr. apply in_seq in Hr. rewrite Hv by lia. rewrite Rmult_comm. f_equal. apply filter_rsum_ext. intros x I. unfold lrow, row. rewrite J.
  destruct (sel x); [|now rewrite andb_false_r]. rewrite andb_true_r. cbn [Nat.eqb andb]. f_equal. destruct (l_par y); cbn; lia.
Qed.
Lemma jacobian_ok y w js q u : holder y q -> length js = numProcs y -> u < numUpdaters y -> (forall r x, r < numProcs y -> In x (nth r js []) -> valid_j y r x) ->
  exists a, updateJacobian y w js q u = Some a /\ length a = rows y * width y u /\
  forall e c, e < rows y -> c < width y u -> nth (e * width y u + c) a 0%R = (w * wanted_j y js e u c)%R.
Proof.
  intros Hq Lj Hu Hv. unfold updateJacobian.
  destruct (allLocal_ok (localJacobian y) w js (fun r a => length a = numUpdaters y /\ (forall u, u < numUpdaters y -> length (nth u a []) = lsize y r * width y u) /\
    forall u p, u < numUpdaters y -> cell a u p = rsum (map j_v (filter (fun x => Nat.eqb (updater y (j_i x)) u && Nat.eqb (lrow y r (j_b x) * width y (updater y (j_i x)) + position y (j_i x) (j_j x)) p) (nth r js [])))) []) as (ls & L1 & L2 & L3).
  { intros r Hr. rewrite Lj in Hr. apply local_jacobian_ok; auto. }
  rewrite L1. destruct (column_ok [] ls u) as (arrs & C1 & C2 & C3). { intros r Hr. rewrite L2 in Hr. destruct (L3 r Hr) as (a & -> & La & _). unfold weighted. rewrite map_length. lia. }
  rewrite C1, (width_at y u Hu).
  destruct (collected y q (width y u) js arrs w j_b (fun x => position y (j_i x) (j_j x)) (fun x => Nat.eqb (updater y (j_i x)) u) j_v) as (a & A1 & A2 & A3).
  - exact Hq.
  - exact Lj.
  - lia.
  - intros r x Hr I. apply (Hv r x Hr I).
  - intros r Hr. rewrite C3 by lia. destruct (L3 r ltac:(lia)) as (a & -> & _ & La & _). rewrite weighted_length. now apply La.
  - intros r x I S. apply Nat.eqb_eq in S. rewrite <- S. destruct (le_lt_dec (numProcs y) r) as [Hr|Hr]. { rewrite nth_overflow in I by lia. contradiction. } destruct (Hv r x Hr I) as (V1 & V2 & V3). now apply position_bound.
  - intros r p Hr. rewrite C3 by lia. destruct (L3 r ltac:(lia)) as (a & E & _ & _ & Lc). rewrite E. fold (cell (weighted w a) u p). rewrite weighted_cell, Lc by auto. f_equal. apply filter_rsum_ext. intros x I.
    destruct (Nat.eqb_spec (updater y (j_i x)) u) as [Eu|Eu]; [rewrite Eu|]; reflexivity.
  - exists a. split; [exact A1|]. split; [exact A2|]. exact A3.
Qed.
Lemma error_ok y w es q u : holder y q -> length es = numProcs y -> u < numUpdaters y -> (forall r x, r < numProcs y -> In x (nth r es []) -> valid_e y r x) ->
  exists a, updateError y w es q u = Some a /\ length a = rows y /\ forall e, e < rows y -> nth e a 0%R = (w * wanted_e y es e u)%R.
Proof.
  intros Hq Lj Hu Hv. unfold updateError.
  destruct (allLocal_ok (localError y) w es (fun r a => length a = numUpdaters y /\ (forall u, u < numUpdaters y -> length (nth u a []) = lsize y r * 1) /\
    forall u p, u < numUpdaters y -> cell a u p = rsum (map e_v (filter (fun x => Nat.eqb (e_u x) u && Nat.eqb (lrow y r (e_b x)) p) (nth r es [])))) []) as (ls & L1 & L2 & L3).
  { intros r Hr. rewrite Lj in Hr. apply local_error_ok; auto. }
  rewrite L1. destruct (column_ok [] ls u) as (arrs & C1 & C2 & C3). { intros r Hr. rewrite L2 in Hr. destruct (L3 r Hr) as (a & -> & La & _). unfold weighted. rewrite map_length. lia. }
  rewrite C1.
  destruct (collected y q 1 es arrs w e_b (fun _ => 0) (fun x => Nat.eqb (e_u x) u) e_v) as (a & A1 & A2 & A3).
  - exact Hq.
  - exact Lj.
  - lia.
  - intros r x Hr I. apply (Hv r x Hr I).
  - intros r Hr. rewrite C3 by lia. destruct (L3 r ltac:(lia)) as (a & -> & _ & La & _). rewrite weighted_length. now apply La.
  - intros. lia.
  - intros r p Hr. rewrite C3 by lia. destruct (L3 r ltac:(lia)) as (a & E & _ & _ & Lc). rewrite E. fold (cell (weighted w a) u p). rewrite weighted_cell, Lc by auto. f_equal. apply filter_rsum_ext. intros x I.
    rewrite Nat.mul_1_r, Nat.add_0_r. reflexivity.
  - exists a. split; [exact A1|]. split; [lia|]. intros e He. specialize (A3 e 0 He ltac:(lia)). rewrite Nat.mul_1_r, Nat.add_0_r in A3. rewrite A3. f_equal. unfold wanted_e.
    apply rsum_ext. intros r Hr. apply filter_rsum_ext. intros x I. cbn [Nat.eqb]. now rewrite andb_true_r.
Qed.
