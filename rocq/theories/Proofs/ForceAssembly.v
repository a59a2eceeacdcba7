(** What calculateForces sums up. *)
From Coq Require Import Reals Lra ZArith List Lia Bool Arith Permutation Sorted.
From Coquelicot Require Import Coquelicot.
From Coq Require Import List.
From Verif Require Import Base.RealBase Base.Vec3 Base.SumR Model.NeighborList Model.SymFunctions Model.SymSetup Model.Forces
  Spec.NeighborSpec Spec.SymSpec Spec.SetupSpec
  Proofs.NeighborProofs Proofs.NeighborMore Proofs.SymGrad Proofs.SetupProofs.
Import ListNotations.
Local Open Scope R_scope.

Lemma ofold_dot {A} (g : A -> vec -> option vec) (h : A -> vec -> R) l :
  (forall a f, In a l -> exists f', g a f = Some f' /\ forall w, dot f' w = dot f w + h a w) ->
  forall f, exists f', ofold g l f = Some f' /\ forall w, dot f' w = dot f w + rsum (map (fun a => h a w) l).
Proof.
  induction l as [|a l IH]; intros H f; cbn [ofold map rsum].
  - exists f. split; auto. intros; cbn; lra.
  - destruct (H a f (or_introl eq_refl)) as (f1 & E & D). rewrite E.
    destruct (IH ltac:(intros; apply H; now right) f1) as (f2 & E2 & D2). exists f2. split; auto.
    intros w. rewrite D2, D. cbn. ring.
Qed.
Lemma dot_vzero_l' w : dot vzero w = 0.
Proof. unfold dot; cbn; ring. Qed.
Lemma dot_sub_smul f s x w : dot (vsub f (smul s x)) w = dot f w + - (s * dot x w).
Proof. unfold dot, vsub, smul; cbn; ring. Qed.

Definition entry (e : elem) (x : eatom) (k : nat) (el : nat) (c : nat) (w : vec) : R :=
  match nth_error (el_fs e) c with
  | Some f => if depends (sf_kind f) el then dot (st_D (e_store x) (LN k (sf_perElement (sf_c f) el))) w else 0
  | None => 0
  end.
Definition PD (e : elem) (x : eatom) (k : nat) (n : neighbor) (w : vec) : R :=
  - sumn (length (el_fs e)) (fun c => e_dEdG x c * entry e x k (nb_element n) c w).

Lemma selfForce_dot n x w : dot (selfForce n x) w = - sumn n (fun c => e_dEdG x c * dot (st_D (e_store x) (LA c)) w).
Proof.
  unfold selfForce, sumn.
  assert (H : forall l f, dot (fold_left (fun f i => vsub f (smul (e_dEdG x i) (st_D (e_store x) (LA i)))) l f) w
     = dot f w - rsum (map (fun c => e_dEdG x c * dot (st_D (e_store x) (LA c)) w) l)).
  { induction l as [|c l IH]; intros f; cbn [fold_left map rsum]; [cbn; lra|]. rewrite IH, dot_sub_smul. cbn. ring. }
  rewrite H, dot_vzero_l'. ring.
Qed.

Lemma sorted_NoDup l : StronglySorted lt l -> NoDup l.
Proof.
  induction 1 as [|a l _ IH H]; constructor; auto. intros Hin. rewrite Forall_forall in H. specialize (H a Hin). lia.
Qed.
Lemma reindex (table : list nat) n (per : nat -> nat) (dep : nat -> bool) (F : nat -> nat -> R) :
  NoDup table -> (forall x, In x table <-> (x < n)%nat /\ dep x = true) ->
  (forall c, (c < n)%nat -> dep c = true -> nth_error table (per c) = Some c) ->
  sumn (length table) (fun i => F (nth i table 0%nat) i) = sumn n (fun c => if dep c then F c (per c) else 0).
Proof.
  intros Hnd Hin Hper.
  transitivity (sumn (length table) (fun i => sumn n (fun c => if Nat.eqb (nth i table 0%nat) c then F c i else 0))).
  { apply sumn_ext. intros i Hi. assert (In (nth i table 0%nat) table) by now apply nth_In. apply Hin in H as [H _].
    rewrite (sumn_single n _ (nth i table 0%nat)); auto.
    - now rewrite Nat.eqb_refl.
    - intros c _ Hc. destruct (Nat.eqb_spec (nth i table 0%nat) c); congruence. }
  rewrite sumn_swap. apply sumn_ext. intros c Hc. destruct (dep c) eqn:D.
  - assert (E := Hper c Hc D). assert (Hl : (per c < length table)%nat) by (apply nth_error_Some; congruence).
    rewrite (sumn_single _ _ (per c)); auto.
    + rewrite (nth_error_nth _ _ 0%nat E), Nat.eqb_refl. reflexivity.
    + intros i Hi Hne. destruct (Nat.eqb_spec (nth i table 0%nat) c) as [E'|]; auto. elim Hne.
      apply (proj1 (NoDup_nth_error table) Hnd); auto. rewrite E. rewrite <- E'. apply nth_error_nth'. auto.
  - apply sumn_zero. intros i Hi. destruct (Nat.eqb_spec (nth i table 0%nat) c) as [E'|]; auto.
    assert (In c table) by (rewrite <- E'; now apply nth_In). apply Hin in H as [_ H]. congruence.
Qed.

Lemma pairForce_ok N fs e x k n : numbered fs ->
  setupMemory N fs = (el_fs e, el_table e, el_nums e) -> (nb_element n < N)%nat ->
  exists p, pairForce e x k n = Some p /\ forall w, dot p w = PD e x k n w.
Proof.
  intros Hn E Hel. destruct (memory_tables N fs _ _ _ Hn E) as (_ & HL & T & F). set (el := nb_element n) in *.
  destruct (T el Hel) as (T1 & T2 & T3). unfold pairForce. fold el. rewrite T1.
  assert (Hlt : forall t, In t (el_table e el) -> (t < length (el_fs e))%nat).
  { intros t Ht. apply T3 in Ht as (f & Hf & _). rewrite HL. apply nth_error_Some. congruence. }
  edestruct (ofold_dot (fun i f => match nth_error (el_table e el) i with
      | None => None
      | Some t => if Nat.ltb t (length (el_fs e))
                  then Some (vsub f (smul (e_dEdG x t) (st_D (e_store x) (LN k i)))) else None
      end) (fun i w => - (e_dEdG x (nth i (el_table e el) 0%nat) * dot (st_D (e_store x) (LN k i)) w))
      (seq 0 (length (el_table e el)))) as (p & Ep & Hp).
  { intros i f Hi. apply in_seq in Hi. rewrite (nth_error_nth' _ 0%nat) by lia.
    assert (X : Nat.ltb (nth i (el_table e el) 0%nat) (length (el_fs e)) = true).
    { apply Nat.ltb_lt, Hlt, nth_In. lia. }
    rewrite X. eexists. split; [reflexivity|]. intros w. apply dot_sub_smul. }
  exists p. split; [exact Ep|]. intros w. rewrite Hp, dot_vzero_l', Rplus_0_l, rsum_opp. unfold PD. f_equal.
  change (rsum (map (fun x0 => e_dEdG x (nth x0 (el_table e el) 0%nat) * dot (st_D (e_store x) (LN k x0)) w)
     (seq 0 (length (el_table e el))))) with
     (sumn (length (el_table e el)) (fun i => (fun c i => e_dEdG x c * dot (st_D (e_store x) (LN k i)) w) (nth i (el_table e el) 0%nat) i)).
  rewrite (reindex (el_table e el) (length (el_fs e))
     (fun c => match nth_error (el_fs e) c with Some f => sf_perElement (sf_c f) el | None => 0%nat end)
     (fun c => match nth_error (el_fs e) c with Some f => depends (sf_kind f) el | None => false end)).
  - apply sumn_ext. intros c Hc. unfold entry. fold el. destruct (nth_error (el_fs e) c); [|ring]. destruct (depends _ _); ring.
  - now apply sorted_NoDup.
  - intros c. rewrite T3. split.
    + intros (f & Hf & D). destruct (F c f Hf) as (f' & Hf' & K & _). rewrite Hf', K. split; auto. apply nth_error_Some. congruence.
    + intros [Hc D]. rewrite HL in Hc. destruct (nth_error fs c) as [f|] eqn:Ef; [|apply nth_error_None in Ef; lia].
      exists f. split; auto. destruct (F c f Ef) as (f' & Hf' & K & _). rewrite Hf', K in D. auto.
  - intros c Hc. rewrite HL in Hc. destruct (nth_error fs c) as [f|] eqn:Ef; [|apply nth_error_None in Ef; lia].
    destruct (F c f Ef) as (f' & Hf' & K & _ & _ & _ & X). rewrite Hf', K. intros D. apply X; auto.
Qed.

(** The force contribution of atom j on atom i. *)
Definition QF (e : elem) (x : eatom) (i : nat) (w : vec) : R :=
  sumn (length (a_nbs (e_atom x))) (fun k =>
    nthR (a_nbs (e_atom x)) (fun n => if Nat.eqb (nb_index n) i then PD e x k n w else 0) k).
Lemma force_from_ok N fs elems xs maxrc i j x e : nth_error xs j = Some x ->
  nth_error elems (a_element (e_atom x)) = Some e -> numbered fs -> setupMemory N fs = (el_fs e, el_table e, el_nums e) ->
  (forall n, In n (a_nbs (e_atom x)) -> (nb_element n < N)%nat) ->
  getStoredMinNumNeighbors (e_atom x) maxrc = length (a_nbs (e_atom x)) ->
  forall f, exists f', force_from elems xs maxrc i j f = Some f' /\ forall w, dot f' w = dot f w + QF e x i w.
Proof.
  intros Hx He Hn Hm Hel Hst f. unfold force_from. rewrite Hx, He, Hst. unfold QF, sumn.
  apply (ofold_dot _ (fun k w => nthR (a_nbs (e_atom x)) (fun n => if Nat.eqb (nb_index n) i then PD e x k n w else 0) k)).
  intros k g Hk. apply in_seq in Hk. unfold nthR. destruct (nth_error (a_nbs (e_atom x)) k) as [n|] eqn:En.
  - destruct (Nat.eqb (nb_index n) i).
    + destruct (pairForce_ok N fs e x k n Hn Hm (Hel n (nth_error_In _ _ En))) as (p & Ep & D). rewrite Ep.
      eexists. split; [reflexivity|]. intros w. now rewrite dot_vadd_l, D.
    + eexists. split; [reflexivity|]. intros w. ring.
  - apply nth_error_None in En. lia.
Qed.

Lemma rsum_subset (U : list nat) n (F : nat -> R) : NoDup U -> (forall j, In j U -> (j < n)%nat) ->
  (forall j, (j < n)%nat -> ~ In j U -> F j = 0) -> rsum (map F U) = sumn n F.
Proof.
  intros Hnd Hin Hz. set (p := fun j => if in_dec Nat.eq_dec j U then true else false).
  transitivity (rsum (map F (filter p (seq 0 n)))).
  - apply rsum_perm, Permutation_map, NoDup_Permutation; auto. { apply NoDup_filter, seq_NoDup. }
    intros j. rewrite filter_In, in_seq. unfold p. destruct (in_dec Nat.eq_dec j U) as [H|H].
    + split; auto. intros _. specialize (Hin j H). split; auto. lia.
    + split; [tauto|]. intros [_ X]. discriminate.
  - rewrite rsum_filter. unfold sumn. apply rsum_ext. intros j Hj. apply in_seq in Hj. unfold p.
    destruct (in_dec Nat.eq_dec j U); auto. symmetry. apply Hz; auto. lia.
Qed.
