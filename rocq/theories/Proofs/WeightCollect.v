(** What collectDGdxia sums up. *)
From Coq Require Import Reals Lra ZArith List Lia Bool Arith Permutation Sorted.
From Verif Require Import Base.RealBase Base.Loop Base.Vec3 Base.SumR Model.NeighborList Model.SymFunctions Model.SymSetup Model.Forces
  Model.WeightDerivatives Spec.NeighborSpec Spec.SymSpec Spec.SetupSpec
  Proofs.NeighborProofs Proofs.NeighborMore Proofs.SymGrad Proofs.SetupProofs Proofs.ForceAssembly.
Import ListNotations.
Local Open Scope R_scope.

Lemma ofold_at {A} (g : A -> (nat -> R) -> option (nat -> R)) (h : A -> nat -> R) n l :
  (forall a f, In a l -> exists f', g a f = Some f' /\ forall t, (t < n)%nat -> f' t = f t + h a t) ->
  forall f, exists f', ofold g l f = Some f' /\ forall t, (t < n)%nat -> f' t = f t + rsum (map (fun a => h a t) l).
Proof.
  induction l as [|a l IH]; intros H f; cbn [ofold map rsum].
  - exists f. split; auto. intros; cbn; lra.
  - destruct (H a f (or_introl eq_refl)) as (f1 & E & D). rewrite E.
    destruct (IH ltac:(intros; apply H; now right) f1) as (f2 & E2 & D2). exists f2. split; auto.
    intros t Ht. rewrite D2, D by auto. cbn. ring.
Qed.
Definition axis (c : nat) : vec := mkVec (if Nat.eqb c 0 then 1 else 0) (if Nat.eqb c 1 then 1 else 0) (if Nat.eqb c 2 then 1 else 0).
Lemma dot_axis v c : (c < 3)%nat -> dot v (axis c) = comp v c.
Proof. intros H. destruct c as [|[|[|]]]; try lia; unfold dot, axis; cbn; ring. Qed.
Lemma vget_comp v c : (c < 3)%nat -> vget v c = Some (comp v c).
Proof. intros H. destruct c as [|[|[|]]]; try lia; reflexivity. Qed.

(** What moving atom [ia] along [w] does to function [t] of atom [i]. *)
Definition pull (e : elem) (x : eatom) (i ia t : nat) (w : vec) : R :=
  (if Nat.eqb i ia then dot (st_D (e_store x) (LA t)) w else 0) +
  sumn (length (a_nbs (e_atom x))) (fun k => nthR (a_nbs (e_atom x)) (fun n =>
    if Nat.eqb (nb_index n) ia then entry e x k (nb_element n) t w else 0) k).

Lemma table_at N fs e x k el c f : numbered fs ->
  setupMemory N fs = (el_fs e, el_table e, el_nums e) -> (el < N)%nat -> (c < 3)%nat ->
  exists size, nth_error (el_nums e) el = Some size /\
  exists f', ofold (fun j g => match nth_error (el_table e el) j with
      | None => None
      | Some t => match vget (st_D (e_store x) (LN k j)) c with
                  | None => None
                  | Some d => if Nat.ltb t (length (el_fs e)) then Some (upd g t (g t + d)) else None end
      end) (seq 0 size) f = Some f' /\
    forall t, (t < length (el_fs e))%nat -> f' t = f t + entry e x k el t (axis c).
Proof.
  intros Hn E Hel Hc3. destruct (memory_tables N fs _ _ _ Hn E) as (_ & HL & T & F).
  destruct (T el Hel) as (T1 & T2 & T3). exists (length (el_table e el)). split; [exact T1|].
  assert (Hlt : forall t, In t (el_table e el) -> (t < length (el_fs e))%nat).
  { intros t Ht. apply T3 in Ht as (g & Hg & _). rewrite HL. apply nth_error_Some. congruence. }
  match goal with |- context [ofold ?F _ _] => edestruct (ofold_at F
     (fun j t => if Nat.eqb (nth j (el_table e el) 0%nat) t then comp (st_D (e_store x) (LN k j)) c else 0)
     (length (el_fs e)) (seq 0 (length (el_table e el)))) as (f' & Ef & Hf) end.
  { intros j g Hj. apply in_seq in Hj. rewrite (nth_error_nth' _ 0%nat) by lia. rewrite (vget_comp _ c Hc3).
    assert (X : Nat.ltb (nth j (el_table e el) 0%nat) (length (el_fs e)) = true).
    { apply Nat.ltb_lt, Hlt, nth_In. lia. }
    rewrite X. eexists. split; [reflexivity|]. intros t _. unfold upd. rewrite Nat.eqb_sym.
    destruct (Nat.eqb_spec (nth j (el_table e el) 0%nat) t) as [->|]; [reflexivity|ring]. }
  exists f'. split; [exact Ef|]. intros t Ht. rewrite Hf by auto. f_equal.
  change (sumn (length (el_table e el)) (fun j => (fun c' j => if Nat.eqb c' t then comp (st_D (e_store x) (LN k j)) c else 0) (nth j (el_table e el) 0%nat) j)
     = entry e x k el t (axis c)).
  rewrite (reindex (el_table e el) (length (el_fs e))
     (fun c => match nth_error (el_fs e) c with Some f => sf_perElement (sf_c f) el | None => 0%nat end)
     (fun c => match nth_error (el_fs e) c with Some f => depends (sf_kind f) el | None => false end)).
  - rewrite (sumn_single _ _ t); auto.
    + unfold entry. destruct (nth_error (el_fs e) t); [|reflexivity]. rewrite Nat.eqb_refl, dot_axis by auto. reflexivity.
    + intros q _ Hq. destruct (match nth_error (el_fs e) q with Some f0 => _ | None => _ end); auto. destruct (Nat.eqb_spec q t); congruence.
  - now apply sorted_NoDup.
  - intros q. rewrite T3. split.
    + intros (g & Hg & D). destruct (F q g Hg) as (g' & Hg' & K & _). rewrite Hg', K. split; auto. apply nth_error_Some. congruence.
    + intros [Hq D]. rewrite HL in Hq. destruct (nth_error fs q) as [g|] eqn:Eg; [|apply nth_error_None in Eg; lia].
      exists g. split; auto. destruct (F q g Eg) as (g' & Hg' & K & _). rewrite Hg', K in D. auto.
  - intros q Hq. rewrite HL in Hq. destruct (nth_error fs q) as [g|] eqn:Eg; [|apply nth_error_None in Eg; lia].
    destruct (F q g Eg) as (g' & Hg' & K & _ & _ & _ & X). rewrite Hg', K. intros D. apply X; auto.
Qed.

Lemma collect_ok N fs e x i ia c : numbered fs ->
  setupMemory N fs = (el_fs e, el_table e, el_nums e) -> (forall n, In n (a_nbs (e_atom x)) -> (nb_element n < N)%nat) ->
  a_numN (e_atom x) = length (a_nbs (e_atom x)) -> (c < 3)%nat ->
  exists g, collectDGdxia e x i ia c = Some g /\ forall t, (t < length (el_fs e))%nat -> g t = pull e x i ia t (axis c).
Proof.
  intros Hn E Hel HN Hc3. unfold collectDGdxia. rewrite HN.
  match goal with |- context [match ofold ?F _ _ with None => _ | Some _ => _ end] => edestruct (ofold_at F
     (fun k t => nthR (a_nbs (e_atom x)) (fun n => if Nat.eqb (nb_index n) ia then entry e x k (nb_element n) t (axis c) else 0) k)
     (length (el_fs e)) (seq 0 (length (a_nbs (e_atom x))))) as (g & Eg & Hg) end.
  { intros k f Hk. apply in_seq in Hk. unfold nthR. destruct (nth_error (a_nbs (e_atom x)) k) as [m|] eqn:Em.
    2:{ apply nth_error_None in Em. lia. }
    destruct (Nat.eqb (nb_index m) ia).
    - destruct (table_at N fs e x k (nb_element m) c f Hn E (Hel m (nth_error_In _ _ Em)) Hc3) as (size & -> & f' & Ef & Hf). eauto.
    - eexists. split; [reflexivity|]. intros; ring. }
  rewrite Eg. unfold pull. destruct (Nat.eqb i ia).
  - match goal with |- context [ofold ?F _ _] => edestruct (ofold_at F
      (fun j t => if Nat.eqb j t then comp (st_D (e_store x) (LA j)) c else 0) (length (el_fs e)) (seq 0 (length (el_fs e))) ) as (g' & Eg' & Hg') end.
    { intros j f _. rewrite (vget_comp _ c Hc3). eexists. split; [reflexivity|]. intros t _. unfold upd. rewrite Nat.eqb_sym.
      destruct (Nat.eqb_spec j t) as [->|]; [reflexivity|ring]. }
    exists g'. split; [exact Eg'|]. intros t Ht. rewrite Hg', Hg by auto. rewrite dot_axis by auto.
    fold (sumn (length (el_fs e)) (fun j => if Nat.eqb j t then comp (st_D (e_store x) (LA j)) c else 0)).
    rewrite (sumn_single _ _ t), Nat.eqb_refl; auto.
    + unfold sumn. ring.
    + intros q _ Hq. destruct (Nat.eqb_spec q t); congruence.
  - exists g. split; [reflexivity|]. intros t Ht. rewrite Hg by exact Ht. reflexivity.
Qed.
