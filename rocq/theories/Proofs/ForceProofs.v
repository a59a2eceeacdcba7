(** Energies and forces (C34, C35). *)
From Coq Require Import Reals Lra ZArith List Lia Bool Arith Permutation Sorted.
From Coquelicot Require Import Coquelicot.
From Coq Require Import List.
From Verif Require Import Base.RealBase Base.Loop Base.Vec3 Base.SumR Model.NeuralNetwork Model.Scaling Model.Geometry Model.NeighborList
  Model.SymFunctions Model.SymSetup Model.Forces
  Spec.NetworkSpec Spec.GeometrySpec Spec.NeighborSpec Spec.SymSpec Spec.SetupSpec Spec.ForceSpec
  Proofs.NetForward Proofs.NeighborProofs Proofs.NeighborMore Proofs.SymEval Proofs.SymGrad Proofs.SymInv Proofs.SetupProofs
  Proofs.ForceNet Proofs.ForceLocal Proofs.ForceAssembly.
Import ListNotations.
Local Open Scope R_scope.

Lemma rsum_combine_seq {A} (g : nat * A -> R) (l : list A) :
  rsum (map g (List.combine (seq 0 (length l)) l)) = sumn (length l) (fun k => nthR l (fun x => g (k, x)) k).
Proof.
  unfold sumn. assert (H : forall o, rsum (map g (List.combine (seq o (length l)) l)) =
     rsum (map (fun k => nthR l (fun x => g (k, x)) (k - o)) (seq o (length l)))).
  { induction l as [|x l IH]; intros o; auto. cbn [length seq List.combine map rsum fold_right]. rewrite Nat.sub_diag. cbn [nthR nth_error].
    f_equal. rewrite IH. apply rsum_ext. intros k Hk. apply in_seq in Hk. replace (k - o)%nat with (S (k - S o)) by lia. reflexivity. }
  rewrite H. apply rsum_ext. intros k _. now rewrite Nat.sub_0_r.
Qed.
Lemma sumn_opp n (f : nat -> R) : sumn n (fun i => - f i) = - sumn n f.
Proof. unfold sumn. apply rsum_opp. Qed.

Section Evaluation.
Variables (N : nat) (rc : R) (P : potential) (s : structure).
Hypothesis HP : sensible N rc P.
Hypothesis Hrc : 0 <= rc.
Hypothesis HN : s_numElements s = N.
Hypothesis Hs : unprocessed rc s.
Let n := length (s_atoms s).
Let elems := setupMemoryAll N (map (p_fs P) (seq 0 N)).
Let Zw := p_weight P.

Definition el_of (e : nat) : elem := let '(fs', t, k) := setupMemory N (p_fs P e) in mkElem fs' t k.
Lemma el_of_memory e : setupMemory N (p_fs P e) = (el_fs (el_of e), el_table (el_of e), el_nums (el_of e)).
Proof. unfold el_of. destruct (setupMemory N (p_fs P e)) as [[fs' t] k]. reflexivity. Qed.
Lemma elem_at e : (e < N)%nat -> nth_error elems e = Some (el_of e).
Proof.
  intros H. unfold elems, setupMemoryAll. rewrite !nth_error_map, (nth_error_nth' _ 0%nat) by now rewrite seq_length.
  rewrite seq_nth by auto. reflexivity.
Qed.

(** ** The neighbor list *)
Definition listed (i : nat) (ai ai' : atom) : Prop :=
  a_element ai' = a_element ai /\ good_list ai' /\ (forall r, getStoredMinNumNeighbors ai' r = length (a_nbs ai')) /\
  (forall m, In m (a_nbs ai') -> (nb_element m < N)%nat /\ (nb_index m < n)%nat) /\
  (exists L, NoDup L /\ (forall j m, In (j, m) L <-> in_range s rc i j m) /\ Forall2 (stored s ai) L (a_nbs ai')) /\
  (exists U, a_unique ai' = i :: U /\ NoDup U /\ (forall j, In j U <-> j <> i /\ exists m, In m (a_nbs ai') /\ nb_index m = j)).

Lemma maxrc_eq : Rmax rc (s_maxrc s) = rc.
Proof. destruct Hs as (_ & _ & _ & _ & H). apply Rmax_left. auto. Qed.

Lemma list_stage nsort fuel s' : is_sort nsort -> calculateNeighborList nsort fuel rc false s = Some s' ->
  length (s_atoms s') = n /\
  (forall i ai, nth_error (s_atoms s) i = Some ai -> exists ai', nth_error (s_atoms s') i = Some ai' /\ listed i ai ai') /\
  (forall i j ai aj, nth_error (s_atoms s') i = Some ai -> nth_error (s_atoms s') j = Some aj ->
    Permutation (map nb_dr (filter (fun n => Nat.eqb (nb_index n) j) (a_nbs ai)))
              (map (fun n => vopp (nb_dr n)) (filter (fun n => Nat.eqb (nb_index n) i) (a_nbs aj)))).
Proof.
  intros Hsort H. destruct Hs as (Hl & Hz & Hc & Hw & Hm).
  destruct (list_correct nsort fuel rc false s s' Hsort Hl Hw) as (Hlen & HC); auto. { rewrite maxrc_eq. auto. }
  rewrite maxrc_eq in HC. split; auto. split.
  2:{ intros i j ai aj Hi Hj. eapply list_symmetric; eauto. }
  intros i ai Hi. destruct (HC i ai Hi) as (ai' & L & nbs & Ei & _ & Ee & Pm & F2 & ND & HL). exists ai'. split; auto.
  destruct (counters_correct nsort fuel rc false s s' i ai' Hsort Hl Hz H Ei) as (C1 & _ & _ & U & C2 & C3 & C4).
  assert (Cc : a_cutoffs ai' = []).
  { destruct (calculate_spec nsort fuel rc false s s' Hsort Hl H) as (pbc & _ & _ & _ & _ & _ & _ & _ & _ & HA).
    destruct (HA i ai Hi) as (a2 & E2 & (_ & _ & _ & B4 & _) & _). rewrite Ei in E2. injection E2 as <-. rewrite B4.
    apply Hc. eapply nth_error_In; eauto. }
  assert (X : exists L', Permutation L L' /\ Forall2 (stored s ai) L' (a_nbs ai')).
  { assert (F2' : Forall2 (fun x y => stored s ai y x) nbs L). { clear - F2. induction F2; constructor; auto. }
    destruct (Permutation_Forall2 (Permutation_sym Pm) F2') as (L' & P1 & P2). exists L'. split; auto.
    clear - P2. induction P2; constructor; auto. }
  destruct X as (L' & P1 & P2).
  assert (St : forall m, In m (a_nbs ai') -> exists p, In p L' /\ stored s ai p m).
  { intros m Hin. destruct (Forall2_in_r _ _ _ m P2 Hin) as (p & Hp & Hst). eauto. }
  assert (Gs : forall r, getStoredMinNumNeighbors ai' r = a_numN ai') by (intros r; unfold getStoredMinNumNeighbors; now rewrite Cc).
  split; auto. split; [|split; [|split; [|split]]].
  - split; auto. split.
    + intros m Hin. destruct (St m Hin) as (p & _ & aj & _ & _ & _ & _ & -> & ->). reflexivity.
    + intros r. rewrite Gs. split; auto. intros j m Hj E. rewrite C1 in Hj. apply nth_error_None in Hj. congruence.
  - intros r. rewrite Gs. auto.
  - intros m Hin. destruct (St m Hin) as (p & _ & aj & Ej & E1 & _ & E3 & _). rewrite E1, E3. split.
    + rewrite <- HN. apply Hl. eapply nth_error_In; eauto.
    + apply nth_error_Some. congruence.
  - exists L'. split; [eapply Permutation_NoDup; eauto|]. split; auto. intros j m. rewrite <- HL.
    split; apply Permutation_in; auto. now apply Permutation_sym.
  - exists U. split; auto. inversion C3; subst. split; auto.
Qed.
Lemma listed_neighbourhood i ai ai' : nth_error (s_atoms s) i = Some ai -> listed i ai ai' -> neighbourhood s rc i (env_of (a_nbs ai')).
Proof.
  intros Hi (_ & _ & _ & _ & (L & L1 & L2 & L3) & _). exists L. split; auto. split; auto.
  clear L1 L2. induction L3 as [|p m L nbs H _ IH]; constructor; auto.
  destruct H as (aj & Ej & _ & _ & E3 & E4 & _). exists ai, aj. rewrite E3, E4. auto.
Qed.

(** ** Symmetry functions *)
Definition sf_done (a : atom) (st : store) : Prop :=
  let fs := p_fs P (a_element a) in let e := el_of (a_element a) in
  length (el_fs e) = length fs /\
  forall c f, nth_error fs c = Some f -> exists f', nth_error (el_fs e) c = Some f' /\
    sf_kind f' = sf_kind f /\ sf_scaling (sf_c f') = sf_scaling (sf_c f) /\ sf_index (sf_c f') = c /\
    st_G st c = scale (sf_scaling (sf_c f)) (sf_value Zw (sf_kind f) (env_of (a_nbs a))) /\
    forall u v, table_directional f' (a_nbs a) (st_D st) u v =
      directional (sf_c f') (a_nbs a) (fun l => ev_at l (contributions Zw f' a)) u v.
Lemma sf_stage a : (a_element a < N)%nat -> good_list a -> (forall m, In m (a_nbs a) -> (nb_element m < N)%nat) ->
  (forall f, In f (p_fs P (a_element a)) -> evaluable (sf_kind f) (env_of (a_nbs a))) ->
  exists st, sf_atom Zw elems a = Some (mkEAtom a st (fun _ => 0) 0 vzero) /\ sf_done a st.
Proof.
  intros He Hg Hel Hev. destruct (HP _ He) as ((Hne & Hnum & Hf) & _).
  pose proof (el_of_memory (a_element a)) as EM.
  destruct (memory_entries Zw N _ _ _ _ a Hnum EM Hg Hel) as (st & Est & D).
  { intros f Hin. destruct (Hf f Hin) as (A & B & _). auto. }
  destruct (memory_tables N _ _ _ _ Hnum EM) as (_ & HL & _ & F).
  exists st. split.
  - unfold sf_atom. rewrite (elem_at _ He). destruct (Nat.eqb_spec (length (el_fs (el_of (a_element a)))) 0) as [E|_].
    + rewrite HL in E. elim Hne. apply length_zero_iff_nil. auto.
    + now rewrite Est.
  - split; auto. intros c f Hc. destruct (F c f Hc) as (f' & Hf' & K1 & K2 & _ & K4 & _). exists f'. split; auto. split; auto. split; auto.
    assert (K5 : sf_index (sf_c f') = c) by (rewrite K2; apply Hnum; auto). split; auto.
    destruct (D f' (nth_error_In _ _ Hf')) as (G & DD). rewrite K5, K4, K1 in G. auto.
Qed.

(** ** Networks *)
Definition net_done (x : eatom) : Prop :=
  let el := a_element (e_atom x) in
  e_energy x = getOutput (evaluate (p_net P el) (st_G (e_store x))) 0 /\
  forall c, (c < length (p_fs P el))%nat -> e_dEdG x c = calculateDEdG (evaluate (p_net P el) (st_G (e_store x))) c.
Lemma net_stage : forall xs nets, (forall e, (e < N)%nat -> alike (nets e) (p_net P e)) ->
  (forall x, In x xs -> (a_element (e_atom x) < N)%nat) ->
  forall ys nets', atomicNetworks nets xs = (ys, nets') ->
  Forall2 (fun x y => e_atom y = e_atom x /\ e_store y = e_store x /\ e_f y = e_f x /\ net_done y) xs ys.
Proof.
  induction xs as [|x xs IH]; intros nets Hn Hx ys nets' E; cbn [atomicNetworks] in E.
  - injection E as <- _. constructor.
  - set (el := a_element (e_atom x)) in *. change (propagate (setInput (st_G (e_store x)) (nets el))) with (evaluate (nets el) (st_G (e_store x))) in E.
    set (net := evaluate (nets el) (st_G (e_store x))) in *.
    destruct (atomicNetworks (upd nets el net) xs) as [r nets1] eqn:Er. injection E as <- <-.
    assert (Hel : (el < N)%nat) by (apply Hx; now left). destruct (HP el Hel) as (_ & Hwf & Hact & HI).
    destruct (numLayers (p_net P el)) as [|LT] eqn:EL; [destruct Hwf as [H3 _]; rewrite EL in H3; lia|].
    constructor.
    + cbn [e_atom e_store e_f]. split; auto. split; auto. split; auto. unfold net_done. cbn [e_atom e_store e_energy e_dEdG]. fold el.
      split.
      * apply (alike_output _ _ _ _ (Hn el Hel) Hwf Hact) with (LT := LT); auto.
      * intros c Hc. apply (alike_DEdG _ _ _ _ (Hn el Hel) Hwf Hact) with (LT := LT); auto. rewrite HI. auto.
    + apply (IH (upd nets el net) ) with (nets' := nets1); auto.
      * intros e He. destruct (Nat.eq_dec e el) as [->|Hne]; [|rewrite upd_other; auto]. rewrite upd_same.
        eapply alike_trans; [|apply Hn; auto]. apply alike_evaluate.
        -- apply (alike_well_formed _ _ (Hn el Hel)). auto.
        -- apply (alike_acts _ _ (Hn el Hel)). auto.
      * intros y Hy. apply Hx. now right.
Qed.

(** ** State before the forces *)
Definition with_functions (i : nat) (x : eatom) : Prop :=
  exists ai, nth_error (s_atoms s) i = Some ai /\ listed i ai (e_atom x) /\ sf_done (e_atom x) (e_store x).
Definition ready (i : nat) (x : eatom) : Prop :=
  exists ai, nth_error (s_atoms s) i = Some ai /\ listed i ai (e_atom x) /\ sf_done (e_atom x) (e_store x) /\ net_done x.
Lemma all_functions (l : list eatom) : (forall i x, nth_error l i = Some x -> ready i x) -> forall i x, nth_error l i = Some x -> with_functions i x.
Proof. intros H i x E. destruct (H i x E) as (ai & A & B & C & _). exists ai. auto. Qed.
Lemma all_done (l : list eatom) : (forall i x, nth_error l i = Some x -> ready i x) -> forall i x, nth_error l i = Some x -> net_done x.
Proof. intros H i x E. destruct (H i x E) as (ai & _ & _ & _ & D). exact D. Qed.
Variable xs : list eatom.
Hypothesis Hlen : length xs = n.
Hypothesis Hprep : forall i x, nth_error xs i = Some x -> with_functions i x.
Hypothesis Hsym : forall i j x y, nth_error xs i = Some x -> nth_error xs j = Some y ->
    Permutation (map nb_dr (filter (fun n => Nat.eqb (nb_index n) j) (a_nbs (e_atom x))))
              (map (fun n => vopp (nb_dr n)) (filter (fun n => Nat.eqb (nb_index n) i) (a_nbs (e_atom y)))).

Let d0 : eatom := mkEAtom (mkAtom 0 vzero false false 0 0 [] [] [] []) (mkStore (fun _ => 0) (fun _ => vzero) (fun _ _ => 0)) (fun _ => 0) 0 vzero.
Let X (i : nat) : eatom := nth i xs d0.
Let el (i : nat) : nat := a_element (e_atom (X i)).
Let nbs (i : nat) : list neighbor := a_nbs (e_atom (X i)).
Lemma X_at i : (i < n)%nat -> nth_error xs i = Some (X i).
Proof. intros H. apply nth_error_nth'. lia. Qed.
Lemma X_ready i : (i < n)%nat -> with_functions i (X i).
Proof. intros H. apply Hprep, X_at, H. Qed.
Lemma el_lt i : (i < n)%nat -> (el i < N)%nat.
Proof.
  intros H. destruct (X_ready i H) as (ai & Ei & (E & _) & _). unfold el. rewrite E, <- HN.
  destruct Hs as (Hl & _). apply Hl. eapply nth_error_In; eauto.
Qed.

Lemma index_pos_symmetric i j : (i < n)%nat -> (j < n)%nat ->
  (exists m, In m (nbs j) /\ nb_index m = i) -> exists m, In m (nbs i) /\ nb_index m = j.
Proof.
  intros Hi Hj (m & Hm & E). pose proof (Hsym i j _ _ (X_at i Hi) (X_at j Hj)) as Pm.
  assert (In (vopp (nb_dr m)) (map (fun n => vopp (nb_dr n)) (filter (fun n => Nat.eqb (nb_index n) i) (a_nbs (e_atom (X j)))))).
  { apply (in_map (fun n => vopp (nb_dr n))). apply filter_In. split; auto. now apply Nat.eqb_eq. }
  apply (Permutation_in _ (Permutation_sym Pm)) in H. apply in_map_iff in H as (m' & _ & H). apply filter_In in H as [H1 H2].
  exists m'. split; auto. now apply Nat.eqb_eq.
Qed.

Definition Fdot (i : nat) (w : vec) : R :=
  - sumn (length (p_fs P (el i))) (fun c => e_dEdG (X i) c * dot (st_D (e_store (X i)) (LA c)) w)
  + sumn n (fun j => if Nat.eqb j i then 0 else QF (el_of (el j)) (X j) i w).
Lemma fs_length i : (i < n)%nat -> length (el_fs (el_of (el i))) = length (p_fs P (el i)).
Proof. intros H. destruct (X_ready i H) as (ai & _ & _ & (L & _)). exact L. Qed.

Lemma force_stage : exists ys, calculateForces elems rc xs = Some ys /\ length ys = n /\
  forall i, (i < n)%nat -> exists y, nth_error ys i = Some y /\ e_atom y = e_atom (X i) /\ e_energy y = e_energy (X i) /\ e_dEdG y = e_dEdG (X i) /\
    e_store y = e_store (X i) /\ forall w, dot (e_f y) w = Fdot i w.
Proof.
  assert (H : forall i, (i < n)%nat -> exists y, force_atom elems xs rc i (X i) = Some y /\ e_atom y = e_atom (X i) /\ e_energy y = e_energy (X i) /\
    e_dEdG y = e_dEdG (X i) /\ e_store y = e_store (X i) /\ forall w, dot (e_f y) w = Fdot i w).
  { intros i Hi. destruct (X_ready i Hi) as (ai & Ei & (E1 & E2 & E3 & E4 & _ & U & EU & NU & HU) & _).
    unfold force_atom. fold (el i). rewrite (elem_at _ (el_lt i Hi)), EU.
    edestruct (ofold_dot (force_from elems xs rc i) (fun j w => QF (el_of (el j)) (X j) i w) U) as (f' & Ef & Df).
    { intros j f Hj. apply HU in Hj as (_ & m & Hm & <-). destruct (E4 m Hm) as (_ & Hj).
      destruct (X_ready _ Hj) as (aj & Ej & (_ & _ & G3 & G4 & _) & _). destruct (HP _ (el_lt _ Hj)) as ((_ & Hnum & _) & _).
      apply (force_from_ok N (p_fs P (el (nb_index m)))); auto.
      - now apply X_at.
      - apply elem_at. apply el_lt; auto.
      - apply el_of_memory.
      - intros m' Hm'. apply G4. auto. }
    rewrite Ef. eexists. split; [reflexivity|]. cbn [e_atom e_store e_energy e_dEdG e_f]. do 4 (split; [reflexivity|]).
    intros w. rewrite Df, vadd_0_l, selfForce_dot, (fs_length i Hi). unfold Fdot. f_equal.
    transitivity (rsum (map (fun j => if Nat.eqb j i then 0 else QF (el_of (el j)) (X j) i w) U)).
    { apply rsum_ext. intros j Hj. apply HU in Hj as [Hj _]. destruct (Nat.eqb_spec j i); congruence. }
    apply rsum_subset; auto.
    - intros j Hj. apply HU in Hj as (_ & m & Hm & <-). now apply E4.
    - intros j Hj HnU. destruct (Nat.eqb_spec j i) as [|Hne]; auto. unfold QF. apply sumn_zero. intros k _. unfold nthR.
      destruct (nth_error (a_nbs (e_atom (X j))) k) as [m|] eqn:Em; auto. destruct (Nat.eqb_spec (nb_index m) i) as [Em'|]; auto.
      elim HnU. apply HU. split; auto. apply (index_pos_symmetric i j Hi Hj). exists m. split; auto. eapply nth_error_In; eauto. }
  assert (HX : forall i x, nth_error xs i = Some x -> x = X i) by (intros i x E; symmetry; now apply nth_error_nth).
  destruct (sequence_some (mapi (force_atom elems xs rc) xs)) as [ys Eys].
  { intros o Ho. apply In_nth_error in Ho as (i & Ho). rewrite nth_error_mapi in Ho. destruct (nth_error xs i) as [x|] eqn:Ex; [|discriminate].
    cbn in Ho. assert (Hi : (i < n)%nat) by (rewrite <- Hlen; apply nth_error_Some; congruence).
    rewrite (HX i x Ex) in Ho. destruct (H i Hi) as (y & Ey & _). congruence. }
  exists ys. unfold calculateForces. split; auto. apply sequence_spec in Eys as [L E]. rewrite mapi_length in L.
  split; [congruence|]. intros i Hi. destruct (H i Hi) as (y & Ey & R). exists y. split; auto. symmetry. apply E.
  rewrite nth_error_mapi, (X_at i Hi). cbn. now rewrite Ey.
Qed.
Definition TD (j c : nat) (u : vec) (v : nat -> vec) : R :=
  match nth_error (el_fs (el_of (el j))) c with
  | Some f' => table_directional f' (nbs j) (st_D (e_store (X j))) u v
  | None => 0
  end.
Lemma TD_sum j u v : (j < n)%nat ->
  - sumn (length (p_fs P (el j))) (fun c => e_dEdG (X j) c * TD j c u v) =
  - sumn (length (p_fs P (el j))) (fun c => e_dEdG (X j) c * dot (st_D (e_store (X j)) (LA c)) u)
  + sumn (length (nbs j)) (fun k => nthR (nbs j) (fun m => PD (el_of (el j)) (X j) k m (v k)) k).
Proof.
  intros Hj. set (F := length (p_fs P (el j))).
  transitivity (- sumn F (fun c => e_dEdG (X j) c * dot (st_D (e_store (X j)) (LA c)) u
      + sumn (length (nbs j)) (fun k => e_dEdG (X j) c * nthR (nbs j) (fun m => entry (el_of (el j)) (X j) k (nb_element m) c (v k)) k))).
  { f_equal. apply sumn_ext. intros c Hc. rewrite sumn_scal, <- Rmult_plus_distr_l. f_equal.
    destruct (X_ready j Hj) as (ai & _ & _ & (_ & S)). fold (el j) in S.
    destruct (nth_error (p_fs P (el j)) c) as [f|] eqn:Ef; [|apply nth_error_None in Ef; unfold F in Hc; lia].
    destruct (S c f Ef) as (f' & Ef' & _ & _ & Ei & _). unfold TD. rewrite Ef'. unfold table_directional. rewrite Ei. f_equal.
    rewrite rsum_combine_seq. apply sumn_ext. intros k _. unfold nthR. destruct (nth_error (nbs j) k) as [m|]; auto.
    cbn [fst snd]. unfold entry. rewrite Ef'. reflexivity. }
  rewrite sumn_plus, Ropp_plus_distr. f_equal. rewrite sumn_swap. unfold sumn at 1. rewrite <- rsum_opp.
  apply sumn_ext. intros k Hk. unfold nthR. destruct (nth_error (nbs j) k) as [m|] eqn:Em.
  - unfold PD. rewrite (fs_length j Hj). reflexivity.
  - apply nth_error_None in Em. lia.
Qed.

(** Work done by the forces: all stored derivatives enter except those with
    respect to an atom's own images. *)
Definition others (u : nat -> vec) (j k : nat) : vec :=
  match nth_error (nbs j) k with Some m => if Nat.eqb (nb_index m) j then vzero else u (nb_index m) | None => vzero end.
Lemma QF_zero e x i : QF e x i vzero = 0.
Proof.
  unfold QF. apply sumn_zero. intros k _. unfold nthR. destruct (nth_error _ _); auto. destruct (Nat.eqb _ _); auto.
  unfold PD. rewrite sumn_zero; [ring|]. intros c _. unfold entry. destruct (nth_error _ _); [|ring]. destruct (depends _ _); [|ring].
  unfold dot; cbn; ring.
Qed.
Lemma PD_zero e x k m : PD e x k m vzero = 0.
Proof.
  unfold PD. rewrite sumn_zero; [ring|]. intros c _. unfold entry. destruct (nth_error _ _); [|ring]. destruct (depends _ _); [|ring].
  unfold dot; cbn; ring.
Qed.
Lemma work u : sumn n (fun i => Fdot i (u i)) =
  - sumn n (fun j => sumn (length (p_fs P (el j))) (fun c => e_dEdG (X j) c * TD j c (u j) (others u j))).
Proof.
  unfold Fdot. rewrite sumn_plus. unfold sumn at 5. rewrite <- rsum_opp. fold (sumn n (fun j => - sumn (length (p_fs P (el j))) (fun c => e_dEdG (X j) c * TD j c (u j) (others u j)))).
  transitivity (sumn n (fun j => - sumn (length (p_fs P (el j))) (fun c => e_dEdG (X j) c * dot (st_D (e_store (X j)) (LA c)) (u j))) +
     sumn n (fun j => sumn (length (nbs j)) (fun k => nthR (nbs j) (fun m => PD (el_of (el j)) (X j) k m (others u j k)) k))).
  2:{ rewrite <- sumn_plus. apply sumn_ext. intros j Hj. symmetry. now apply TD_sum. }
  f_equal. rewrite sumn_swap. apply sumn_ext. intros j Hj.
  transitivity (sumn n (fun i => sumn (length (nbs j)) (fun k => nthR (nbs j) (fun m =>
     if Nat.eqb (nb_index m) i then (if Nat.eqb j i then 0 else PD (el_of (el j)) (X j) k m (u i)) else 0) k))).
  { apply sumn_ext. intros i Hi. destruct (Nat.eqb j i).
    - symmetry. apply sumn_zero. intros k _. unfold nthR. destruct (nth_error _ _); auto. destruct (Nat.eqb _ _); auto.
    - unfold QF. apply sumn_ext. intros k _. reflexivity. }
  rewrite sumn_swap. apply sumn_ext. intros k _. unfold nthR, others. destruct (nth_error (nbs j) k) as [m|] eqn:Em.
  2:{ apply sumn_zero. auto. }
  assert (Hm : (nb_index m < n)%nat).
  { destruct (X_ready j Hj) as (ai & _ & (_ & _ & _ & H & _) & _). apply H. eapply nth_error_In; eauto. }
  rewrite (sumn_single n _ (nb_index m)); auto.
  - rewrite Nat.eqb_refl, Nat.eqb_sym. destruct (Nat.eqb (nb_index m) j); auto. now rewrite PD_zero.
  - intros i _ Hi. destruct (Nat.eqb_spec (nb_index m) i); congruence.
Qed.

(** ** Own images *)
Definition everyone (u : nat -> vec) (j k : nat) : vec :=
  match nth_error (nbs j) k with Some m => u (nb_index m) | None => vzero end.
Definition own (w : vec) (j k : nat) : vec :=
  match nth_error (nbs j) k with Some m => if Nat.eqb (nb_index m) j then w else vzero | None => vzero end.

Lemma directional_diff c l D u v w :
  directional c l D u v = directional c l D u w + directional c l D vzero (fun k => vsub (v k) (w k)).
Proof.
  unfold directional. rewrite !rsum_combine_seq. cbn [fst snd].
  rewrite (sumn_ext _ (fun k => nthR l (fun x => dot (D (LN k (sf_perElement c (nb_element x)))) (v k)) k)
    (fun k => nthR l (fun x => dot (D (LN k (sf_perElement c (nb_element x)))) (w k)) k
        + nthR l (fun x => dot (D (LN k (sf_perElement c (nb_element x)))) (vsub (v k) (w k))) k)).
  - rewrite sumn_plus. assert (H : dot (D (LA (sf_index c))) vzero = 0) by (unfold dot, vzero; cbn; ring). rewrite H. ring.
  - intros k _. unfold nthR. destruct (nth_error l k); [|ring]. unfold dot, vsub; cbn; ring.
Qed.
Lemma directional_ext c l D u v w : (forall k m, nth_error l k = Some m -> v k = w k) -> directional c l D u v = directional c l D u w.
Proof.
  intros H. unfold directional. f_equal. rewrite !rsum_combine_seq. apply sumn_ext. intros k _. unfold nthR.
  destruct (nth_error l k) as [m|] eqn:E; auto. cbn [fst snd]. now rewrite (H k m E).
Qed.

Lemma self_element j m : (j < n)%nat -> In m (nbs j) -> nb_index m = j -> nb_element m = el j.
Proof.
  intros Hj Hm E. destruct (X_ready j Hj) as (aj & Ej & (E1 & _ & _ & _ & (L & _ & _ & L3) & _) & _).
  destruct (Forall2_in_r _ _ _ m L3 Hm) as (p & _ & a & Ea & H1 & _ & H3 & _).
  unfold el. rewrite E1, H3. rewrite E in H1. rewrite <- H1 in Ea. congruence.
Qed.

(** Radial functions: derivatives with respect to opposite images cancel. *)
Lemma radial_own j f w : (j < n)%nat -> radial (sf_kind f) ->
  directional (sf_c f) (nbs j) (fun l => ev_at l (contributions Zw f (e_atom (X j)))) vzero (own w j) = 0.
Proof.
  intros Hj Hr. destruct (X_ready j Hj) as (aj & Ej & (E1 & (G1 & G2 & _) & G3 & _) & _).
  unfold contributions. fold (nbs j).
  destruct (body_of Zw (scalingFactor (sf_scaling (sf_c f))) (sf_kind f)) as [b|b] eqn:Eb.
  2:{ destruct (sf_kind f); cbn in Hr, Eb; try contradiction; discriminate. }
  assert (EB : bound (e_atom (X j)) (rb_stored b) = length (nbs j)).
  { unfold bound. destruct (rb_stored b); [apply G3|exact G1]. }
  rewrite EB, Pg_flat.
  set (h := fun m : neighbor => if rb_guard b m then rp1 b m else 0).
  assert (Hh : forall m m', nb_element m = nb_element m' -> nb_d m = nb_d m' -> h m = h m').
  { intros m m' A B. unfold h, rp1. destruct (sf_kind f); cbn in Hr, Eb; try contradiction; injection Eb as <-; cbn; rewrite A, B; reflexivity. }
  transitivity (- rsum (map (fun m => h m * dot (nb_dr m) w) (filter (fun m => Nat.eqb (nb_index m) j) (nbs j)))).
  { rewrite rsum_filter, <- rsum_opp. rewrite (rsum_nth (mkNb 0 0 0 0 vzero)). unfold sumn. apply rsum_ext. intros k Hk. apply in_seq in Hk.
    unfold at_nb. destruct (nth_error (nbs j) k) as [m|] eqn:Em; [|apply nth_error_None in Em; lia].
    rewrite Pg_radial by auto. rewrite (nth_error_nth _ _ _ Em). unfold own. rewrite Em. fold (h m).
    destruct (Nat.eqb (nb_index m) j); unfold dot, vsub; cbn; ring. }
  set (S := filter (fun m => Nat.eqb (nb_index m) j) (nbs j)).
  set (g := fun x : vec => h (mkNb 0 0 (el j) (norm x) x) * dot x w).
  assert (Eg : rsum (map (fun m => h m * dot (nb_dr m) w) S) = rsum (map g (map nb_dr S))).
  { rewrite map_map. apply rsum_ext. intros m Hm. apply filter_In in Hm as [Hm1 Hm2]. apply Nat.eqb_eq in Hm2. unfold g. f_equal.
    apply Hh; cbn.
    - apply self_element; auto.
    - apply G2. auto. }
  assert (Eo : rsum (map g (map nb_dr S)) = - rsum (map g (map nb_dr S))).
  { pose proof (Hsym j j _ _ (X_at j Hj) (X_at j Hj)) as Pm. fold (nbs j) in Pm. fold S in Pm.
    rewrite (rsum_perm _ _ (Permutation_map g Pm)) at 1. rewrite !map_map, <- rsum_opp. apply rsum_ext. intros m _.
    unfold g. rewrite (Hh _ (mkNb 0 0 (el j) (norm (nb_dr m)) (nb_dr m))); cbn; auto; [|apply norm_opp].
    unfold dot, vopp, smul; cbn. ring. }
  rewrite Eg. lra.
Qed.

Definition harmless : Prop := no_self_image s rc \/ forall e f, In f (p_fs P e) -> radial (sf_kind f).
Lemma TD_directional j c f : (j < n)%nat -> nth_error (p_fs P (el j)) c = Some f -> exists f', sf_kind f' = sf_kind f /\
  sf_scaling (sf_c f') = sf_scaling (sf_c f) /\
  forall u v, TD j c u v = directional (sf_c f') (nbs j) (fun l => ev_at l (contributions Zw f' (e_atom (X j)))) u v.
Proof.
  intros Hj Hf. destruct (X_ready j Hj) as (aj & Ej & _ & (_ & SD)). fold (el j) in SD.
  destruct (SD c f Hf) as (f' & Ef' & K & Sc & _ & _ & D). exists f'. split; auto. split; auto. intros u v. unfold TD. now rewrite Ef', D.
Qed.
Lemma TD_all u j c : harmless -> (j < n)%nat -> (c < length (p_fs P (el j)))%nat ->
  TD j c (u j) (others u j) = TD j c (u j) (everyone u j).
Proof.
  intros Hh Hj Hc. destruct (nth_error (p_fs P (el j)) c) as [f|] eqn:Ef; [|apply nth_error_None in Ef; lia].
  destruct (TD_directional j c f Hj Ef) as (f' & K & _ & D). rewrite !D. destruct Hh as [Hno|Hrad].
  - apply directional_ext. intros k m Em. unfold others, everyone. rewrite Em. destruct (Nat.eqb_spec (nb_index m) j) as [E|]; auto.
    exfalso. destruct (X_ready j Hj) as (aj & Ej & (_ & _ & _ & _ & (L & _ & L2 & L3) & _) & _).
    destruct (Forall2_in_r _ _ _ m L3 (nth_error_In _ _ Em)) as (p & Hp & a & Ea & H1 & _). destruct p as [q im]. cbn [fst] in *.
    apply L2 in Hp. rewrite <- H1, E in Hp. exact (Hno j im Hp).
  - rewrite (directional_diff (sf_c f') (nbs j) _ (u j) (everyone u j) (others u j)).
    rewrite (directional_ext _ _ _ vzero (fun k => vsub (everyone u j k) (others u j k)) (own (u j) j)).
    + rewrite (radial_own j f' (u j) Hj); [ring|]. rewrite K. apply (Hrad (el j)). eapply nth_error_In; eauto.
    + intros k m Em. unfold everyone, others, own. rewrite Em. destruct (Nat.eqb_spec (nb_index m) j) as [E|]; [rewrite E|]; vring.
Qed.

(** ** C35 *)
Lemma total_force : harmless -> forall w, sumn n (fun i => Fdot i w) = 0.
Proof.
  intros Hh w. rewrite (work (fun _ => w)). rewrite sumn_zero; [ring|]. intros j Hj. apply sumn_zero. intros c Hc.
  pose proof (TD_all (fun _ => w) j c Hh Hj Hc) as HT. cbn beta in HT. rewrite HT.
  destruct (nth_error (p_fs P (el j)) c) as [f|] eqn:Ef; [|apply nth_error_None in Ef; lia].
  destruct (TD_directional j c f Hj Ef) as (f' & K & _ & D). rewrite D.
  rewrite (directional_ext _ _ _ w _ (fun _ => w)).
  - rewrite directional_const. unfold nbs. rewrite contributions_sum_zero, dot_vzero_l'. ring.
  - intros k m Em. unfold everyone. now rewrite Em.
Qed.

Lemma total_force_own w : sumn n (fun i => Fdot i w) =
  sumn n (fun j => sumn (length (p_fs P (el j))) (fun c => e_dEdG (X j) c * TD j c vzero (own w j))).
Proof.
  rewrite (work (fun _ => w)). rewrite <- sumn_opp. apply sumn_ext. intros j Hj. rewrite <- sumn_opp. apply sumn_ext. intros c Hc.
  destruct (nth_error (p_fs P (el j)) c) as [f|] eqn:Ef; [|apply nth_error_None in Ef; lia].
  destruct (TD_directional j c f Hj Ef) as (f' & K & _ & D). rewrite !D.
  assert (Z0 : directional (sf_c f') (nbs j) (fun l => ev_at l (contributions Zw f' (e_atom (X j)))) w (fun _ => w) = 0).
  { rewrite directional_const. unfold nbs. rewrite contributions_sum_zero. apply dot_vzero_l'. }
  rewrite (directional_diff _ _ _ w _ (others (fun _ => w) j)) in Z0.
  rewrite (directional_ext _ _ _ vzero _ (own w j)) in Z0; [nra|].
  intros k m Em. unfold others, own. rewrite Em. destruct (Nat.eqb (nb_index m) j); vring.
Qed.
(** A change of the positions of the own images. *)
Definition shifted (w : vec) (j : nat) (t : R) : env :=
  map (fun m => (nb_element m, vsub (nb_dr m) (smul t (if Nat.eqb (nb_index m) j then w else vzero)))) (nbs j).
Lemma own_derive w j c f : (j < n)%nat -> nth_error (p_fs P (el j)) c = Some f -> smooth_at (sf_kind f) (env_of (nbs j)) ->
  is_derive (fun t => scale (sf_scaling (sf_c f)) (sf_value Zw (sf_kind f) (shifted w j t))) 0 (TD j c vzero (own w j)).
Proof.
  intros Hj Hf Hsm. destruct (TD_directional j c f Hj Hf) as (f' & K & Sc & D). rewrite D.
  destruct (HP _ (el_lt j Hj)) as ((_ & _ & Hu) & _). destruct (Hu f (nth_error_In _ _ Hf)) as (_ & Ha & Hsc & _).
  destruct (X_ready j Hj) as (aj & Ej & (_ & Gl & _) & _).
  apply (is_derive_ext (fun t => scale (sf_scaling (sf_c f')) (sf_value Zw (sf_kind f') (displace vzero (own w j) t (env_of (nbs j)))))).
  { intros t. rewrite K, Sc. do 2 f_equal. unfold displace, env_of, shifted. rewrite map_length.
    assert (H : forall (l : list neighbor) o (v : nat -> vec), (forall k m, nth_error l k = Some m -> v (o + k)%nat = if Nat.eqb (nb_index m) j then w else vzero) ->
    map (fun jn => (fst (snd jn), vadd (snd (snd jn)) (smul t (vsub vzero (v (fst jn))))))
       (List.combine (seq o (length l)) (map (fun n => (nb_element n, nb_dr n)) l)) =
    map (fun m => (nb_element m, vsub (nb_dr m) (smul t (if Nat.eqb (nb_index m) j then w else vzero)))) l).
    { induction l as [|m l IH]; intros o v Hv; auto. cbn [map length seq List.combine fst snd]. f_equal.
      - rewrite <- (Hv 0%nat m) by reflexivity. rewrite Nat.add_0_r. f_equal. vring.
      - apply IH. intros k m' Em. rewrite <- (Hv (S k) m') by exact Em. f_equal. lia. }
    apply H. intros k m Em. unfold own. cbn. now rewrite Em. }
  apply contributions_gradient; auto; rewrite ?K, ?Sc; auto.
Qed.

(** ** Energy *)
Hypothesis Hnet : forall i x, nth_error xs i = Some x -> net_done x.
Lemma energy_stage : has_energy P rc s (calculateEnergy xs).
Proof.
  exists (map (fun x => env_of (a_nbs (e_atom x))) xs). split; [rewrite map_length; auto|]. split.
  - intros i e He. rewrite nth_error_map in He. destruct (nth_error xs i) as [x|] eqn:Ex; [|discriminate]. injection He as <-.
    destruct (Hprep i x Ex) as (ai & Ei & Hl & _). eapply listed_neighbourhood; eauto.
  - unfold calculateEnergy. rewrite fold_sum, Rplus_0_l, Rplus_0_r.
    assert (G : forall l l' , (forall i a x, nth_error l i = Some a -> nth_error l' i = Some x ->
        e_energy x = atomic_energy (p_weight P) (p_fs P (a_element a)) (p_net P (a_element a)) (env_of (a_nbs (e_atom x)))) ->
       length l = length l' ->
       rsum (map e_energy l') = rsum (map (fun p => atomic_energy (p_weight P) (p_fs P (a_element (fst p))) (p_net P (a_element (fst p))) (snd p))
                  (List.combine l (map (fun x => env_of (a_nbs (e_atom x))) l')))).
    { induction l as [|a l IH]; intros [|x l'] H L; cbn; try discriminate; auto. rewrite (H 0%nat a x) by reflexivity. f_equal.
      apply IH; auto. intros i b y Hb Hy. apply (H (S i)); auto. }
    apply G; [|symmetry; exact Hlen]. intros i a x Ha Hx. destruct (Hprep i x Hx) as (ai & Ei & (E1 & _) & (_ & SD)). destruct (Hnet i x Hx) as (En & _).
    rewrite Ha in Ei. injection Ei as <-. rewrite E1 in *. rewrite En. unfold atomic_energy.
    assert (He : (a_element a < N)%nat). { rewrite <- HN. apply Hs. eapply nth_error_In; eauto. }
    destruct (HP _ He) as (_ & Hwf & Hact & HI). destruct (numLayers (p_net P (a_element a))) as [|LT] eqn:EL; [destruct Hwf as [H3 _]; rewrite EL in H3; lia|].
    apply (alike_output _ _ _ _ (alike_refl _) Hwf Hact) with (LT := LT); auto.
    intros c Hc. rewrite HI in Hc. destruct (nth_error (p_fs P (a_element a)) c) as [f|] eqn:Ef; [|apply nth_error_None in Ef; lia].
    destruct (SD c f Ef) as (f' & _ & _ & _ & _ & G' & _). unfold sf_input. rewrite Ef. exact G'.
Qed.

(** ** C34 *)
Hypothesis Hsmooth : everywhere P rc s smooth_at.
Hypothesis Hregular : regular_networks P rc s.

Lemma moved_displace u t j : moved_env u j t (nbs j) = displace (u j) (everyone u j) t (env_of (nbs j)).
Proof.
  unfold moved_env, displace, env_of. rewrite map_length.
  assert (H : forall (l : list neighbor) o (v : nat -> vec), (forall k m, nth_error l k = Some m -> v (o + k)%nat = u (nb_index m)) ->
    map (fun n => (nb_element n, vadd (nb_dr n) (smul t (vsub (u j) (u (nb_index n)))))) l =
    map (fun jn => (fst (snd jn), vadd (snd (snd jn)) (smul t (vsub (u j) (v (fst jn))))))
       (List.combine (seq o (length l)) (map (fun n => (nb_element n, nb_dr n)) l))).
  { induction l as [|m l IH]; intros o v Hv; auto. cbn [map length seq List.combine fst snd]. f_equal.
    - rewrite <- (Hv 0%nat m) by reflexivity. now rewrite Nat.add_0_r.
    - apply IH. intros k m' Em. rewrite <- (Hv (S k) m') by exact Em. f_equal. lia. }
  apply H. intros k m Em. unfold everyone. cbn. now rewrite Em.
Qed.

Definition Et (u : nat -> vec) (j : nat) (t : R) : R :=
  getOutput (evaluate (p_net P (el j)) (sf_input Zw (p_fs P (el j)) (displace (u j) (everyone u j) t (env_of (nbs j))))) 0.
Lemma displace_0 u v e : displace u v 0 e = e.
Proof.
  unfold displace. assert (H : forall o, map (fun jn => (fst (snd jn), vadd (snd (snd jn)) (smul 0 (vsub u (v (fst jn))))))
       (List.combine (seq o (length e)) e) = e).
  { induction e as [|[a b] e IH]; intros o; auto. cbn [length seq List.combine map fst snd]. rewrite IH. f_equal. f_equal. vring. }
  apply H.
Qed.
Lemma Et_derive u j : (j < n)%nat -> is_derive (Et u j) 0
  (sumn (length (p_fs P (el j))) (fun c => e_dEdG (X j) c * TD j c (u j) (everyone u j))).
Proof.
  intros Hj. destruct (X_ready j Hj) as (aj & Ej & Hl & (_ & SD)). destruct (Hnet j (X j) (X_at j Hj)) as (_ & ND). fold (el j) in SD, ND.
  assert (Hel := el_lt j Hj). destruct (HP _ Hel) as ((_ & _ & Hf) & Hwf & Hact & HI).
  assert (Ee : el j = a_element aj) by apply Hl.
  assert (Hnb := listed_neighbourhood j aj _ Ej Hl). fold (nbs j) in Hnb.
  assert (Gs : good_list (e_atom (X j))) by apply Hl.
  destruct (numLayers (p_net P (el j))) as [|LT] eqn:EL; [destruct Hwf as [H3 _]; rewrite EL in H3; lia|].
  set (G := fun t => sf_input Zw (p_fs P (el j)) (displace (u j) (everyone u j) t (env_of (nbs j)))).
  assert (Hreg0 : every_neuron regular (evaluate (p_net P (el j)) (G 0))).
  { unfold G. rewrite displace_0, Ee. apply (Hregular j aj); auto. }
  assert (D := network_curve (p_net P (el j)) G (fun c => TD j c (u j) (everyone u j)) 0 Hwf Hreg0).
  rewrite HI in D. apply (is_derive_eq _ _ _ _ (D ltac:(
    intros c Hc; destruct (nth_error (p_fs P (el j)) c) as [f|] eqn:Ef; [|apply nth_error_None in Ef; lia];
    destruct (TD_directional j c f Hj Ef) as (f' & K & Sc & DD); rewrite DD; unfold G, sf_input; rewrite Ef, <- K, <- Sc;
    apply contributions_gradient; auto;
    [ rewrite K; apply (Hf f (nth_error_In _ _ Ef))
    | rewrite K; apply (Hsmooth j aj); auto; rewrite <- Ee; eapply nth_error_In; eauto
    | rewrite Sc; apply (Hf f (nth_error_In _ _ Ef)) ]))).
  apply sumn_ext. intros c Hc. f_equal. rewrite ND by auto.
  apply (alike_DEdG _ _ _ _ (alike_refl _) Hwf Hact) with (LT := LT); auto; [|rewrite HI; auto].
  intros q Hq. rewrite HI in Hq. destruct (nth_error (p_fs P (el j)) q) as [f|] eqn:Ef; [|apply nth_error_None in Ef; lia].
  destruct (SD q f Ef) as (f' & _ & _ & _ & _ & G' & _). unfold G, sf_input. now rewrite displace_0, Ef, G'.
Qed.
Lemma near_energy u : (s_periodic s = true -> det (s_box s) <> 0) -> exists d, 0 < d /\
  forall t E, Rabs t < d -> has_energy P rc (displaced u t s) E -> E = sumn n (fun j => Et u j t).
Proof.
  intros Hd. destruct (near_environment u s rc Hd) as (d & Hd0 & H). exists d. split; auto. intros t E Ht (es & Les & Hes & ->).
  rewrite (rsum_nth (@pair atom env (e_atom d0) [])). rewrite combine_length, Les, Nat.min_id, displaced_length. fold n.
  apply sumn_ext. intros j Hj. rewrite displaced_length in Les.
  assert (Ee : nth_error es j = Some (nth j es [])) by (apply nth_error_nth'; lia).
  assert (Ea := displaced_atom u t s j). destruct (X_ready j Hj) as (aj & Ej & Hl & _). rewrite Ej in Ea. cbn [option_map] in Ea.
  assert (En : nth j (List.combine (s_atoms (displaced u t s)) es) (@pair atom env (e_atom d0) []) = (nth j (s_atoms (displaced u t s)) (e_atom d0), nth j es [])).
  { apply combine_nth. rewrite displaced_length. auto. }
  rewrite En, (nth_error_nth _ _ _ Ea). cbn [fst snd a_element].
  assert (Eel : el j = a_element aj) by apply Hl.
  unfold Et, atomic_energy. rewrite Eel. apply evaluate_ext. intros c. unfold sf_input.
  destruct (nth_error (p_fs P (a_element aj)) c) as [f|] eqn:Ef; auto. f_equal.
  destruct (HP _ (el_lt j Hj)) as ((_ & _ & Hf) & _). rewrite Eel in Hf. destruct (Hf f (nth_error_In _ _ Ef)) as (_ & Ha & _ & Hc).
  rewrite <- moved_displace. unfold Zw.
  destruct Hl as (_ & _ & _ & _ & (L & L1 & L2 & L3) & _).
  unfold nbs. rewrite (stored_view u t s j aj L _ Ej L3). rewrite (sf_value_within _ _ rc (map _ L) Ha Hc).
  apply sf_value_permut. apply (H t Ht j L _ Hj L1 L2). apply Hes. exact Ee.
Qed.
Lemma force_gradient u E : (s_periodic s = true -> det (s_box s) <> 0) -> harmless ->
  (forall t, has_energy P rc (displaced u t s) (E t)) -> is_derive E 0 (- sumn n (fun i => Fdot i (u i))).
Proof.
  intros Hd Hh HE. destruct (near_energy u Hd) as (d & Hd0 & H).
  apply (is_derive_ext_loc (fun t => sumn n (fun j => Et u j t))).
  { exists (mkposreal d Hd0). intros t Ht. symmetry. apply H; auto. unfold ball in Ht; cbn in Ht. unfold AbsRing_ball in Ht.
    unfold abs, minus, plus, opp in Ht; cbn in Ht. now rewrite Ropp_0, Rplus_0_r in Ht. }
  eapply is_derive_eq.
  - apply (is_derive_sumn n (Et u)). intros j Hj. apply Et_derive. auto.
  - rewrite work, Ropp_involutive. apply sumn_ext. intros j Hj. apply sumn_ext. intros c Hc. now rewrite TD_all.
Qed.
End Evaluation.

(** ** Whole evaluation *)
Definition wfun (ys : list eatom) (i : nat) (w : vec) : R := match nth_error ys i with Some y => dot (e_f y) w | None => 0 end.

Lemma evaluation_stages_sf N rc P s nsort fuel s' : sensible N rc P -> 0 <= rc -> s_numElements s = N -> unprocessed rc s -> is_sort nsort ->
  calculateNeighborList nsort fuel rc false s = Some s' -> everywhere P rc s evaluable ->
  exists xs0 xs ys, calculateSymmetryFunctions (p_weight P) (setupMemoryAll N (map (p_fs P) (seq 0 N))) (s_atoms s') = Some xs0 /\
    Forall2 (fun x y => e_atom y = e_atom x /\ e_store y = e_store x) xs0 xs /\
    evaluateNNP nsort fuel (p_weight P) (setupMemoryAll N (map (p_fs P) (seq 0 N))) (p_net P) rc s = Some (calculateEnergy xs, ys) /\
    length xs = length (s_atoms s) /\ length ys = length (s_atoms s) /\
    (forall i x, nth_error xs i = Some x -> ready N rc P s i x) /\
    (forall i j x y, nth_error xs i = Some x -> nth_error xs j = Some y ->
      Permutation (map nb_dr (filter (fun n => Nat.eqb (nb_index n) j) (a_nbs (e_atom x))))
              (map (fun n => vopp (nb_dr n)) (filter (fun n => Nat.eqb (nb_index n) i) (a_nbs (e_atom y))))) /\
    forall i y, nth_error ys i = Some y -> exists x, nth_error xs i = Some x /\ e_energy y = e_energy x /\ forall w, dot (e_f y) w = Fdot N P s xs i w.
Proof.
  intros HP Hrc HN Hs Hsort Es' Hev.
  assert (Hper : s_periodic s = true -> det (s_box s) <> 0). { intros H. destruct Hs as (_ & _ & _ & Hw & _). now apply Hw. }
  destruct (list_stage N rc P s HP Hrc HN Hs nsort fuel s' Hsort Es') as (Ln & HL & HS).
  set (elems := setupMemoryAll N (map (p_fs P) (seq 0 N))).
  assert (Hatom : forall i ai', nth_error (s_atoms s') i = Some ai' -> exists ai, nth_error (s_atoms s) i = Some ai /\ listed N rc s i ai ai').
  { intros i ai' Hi. destruct (nth_error (s_atoms s) i) as [ai|] eqn:Ei.
    - destruct (HL i ai Ei) as (a & Ea & Hl). rewrite Hi in Ea. injection Ea as <-. eauto.
    - apply nth_error_None in Ei. assert (i < length (s_atoms s'))%nat by (apply nth_error_Some; congruence). lia. }
  assert (Hel : forall i ai', nth_error (s_atoms s') i = Some ai' -> (a_element ai' < N)%nat).
  { intros i ai' Hi. destruct (Hatom i ai' Hi) as (ai & Ei & (-> & _)). rewrite <- HN. apply Hs. eapply nth_error_In; eauto. }
  assert (HSF : forall i ai', nth_error (s_atoms s') i = Some ai' -> exists st,
     sf_atom (p_weight P) elems ai' = Some (mkEAtom ai' st (fun _ => 0) 0 vzero) /\ sf_done N P ai' st).
  { intros i ai' Hi. destruct (Hatom i ai' Hi) as (ai & Ei & Hl). apply (sf_stage N rc P HP).
    - eapply Hel; eauto.
    - apply Hl.
    - intros m Hm. now apply Hl.
    - intros f Hf. apply (Hev i ai); auto.
      + eapply listed_neighbourhood; eauto.
      + replace (a_element ai) with (a_element ai') by apply Hl. auto. }
  destruct (sequence_some (map (sf_atom (p_weight P) elems) (s_atoms s'))) as [xs0 Exs0].
  { intros o Ho. apply in_map_iff in Ho as (a & <- & Ha). apply In_nth_error in Ha as (i & Hi). destruct (HSF i a Hi) as (st & -> & _). discriminate. }
  assert (Exs0' := Exs0). apply sequence_spec in Exs0' as [L0 H0]. rewrite map_length in L0.
  assert (HX0 : forall i x, nth_error xs0 i = Some x -> exists ai', nth_error (s_atoms s') i = Some ai' /\ e_atom x = ai' /\ sf_done N P ai' (e_store x)).
  { intros i x Hx. destruct (nth_error (s_atoms s') i) as [a|] eqn:Ea.
    - destruct (HSF i a Ea) as (st & E & D). specialize (H0 i (Some (mkEAtom a st (fun _ => 0) 0 vzero))).
      rewrite nth_error_map, Ea in H0. cbn in H0. rewrite E in H0. specialize (H0 eq_refl). rewrite Hx in H0. injection H0 as <-. exists a. auto.
    - apply nth_error_None in Ea. assert (i < length xs0)%nat by (apply nth_error_Some; congruence). lia. }
  destruct (atomicNetworks (p_net P) xs0) as [xs nets'] eqn:Enet.
  assert (HN2 := net_stage N rc P s HP HN xs0 (p_net P) (fun e _ => alike_refl _)).
  specialize (HN2 ltac:(intros x Hx; apply In_nth_error in Hx as (i & Hi); destruct (HX0 i x Hi) as (a & Ea & -> & _); eapply Hel; eauto) xs nets' Enet).
  assert (Lx : length xs = length (s_atoms s)) by (clear - HN2 L0 Ln; assert (Q : length xs0 = length xs) by (clear - HN2; induction HN2; cbn; auto); congruence).
  assert (HX : forall i x, nth_error xs i = Some x -> exists ai', nth_error (s_atoms s') i = Some ai' /\ e_atom x = ai' /\
     sf_done N P ai' (e_store x) /\ net_done P x).
  { intros i x Hx. assert (Q : forall (l l' : list eatom) R, Forall2 R l l' -> forall i y, nth_error l' i = Some y -> exists x, nth_error l i = Some x /\ R x y).
    { intros l l' R HR. clear - HR. induction HR; intros [|q] z; cbn; try discriminate; [intros [= <-]; eauto|eauto]. }
    destruct (Q _ _ _ HN2 i x Hx) as (x0 & Hx0 & A & B & _ & D). destruct (HX0 i x0 Hx0) as (a & Ea & C & SD).
    exists a. rewrite A, B. auto. }
  assert (Hready : forall i x, nth_error xs i = Some x -> ready N rc P s i x).
  { intros i x Hx. destruct (HX i x Hx) as (a & Ea & <- & SD & ND). destruct (Hatom i _ Ea) as (ai & Ei & Hl). exists ai. auto. }
  assert (Hsym : forall i j x y, nth_error xs i = Some x -> nth_error xs j = Some y ->
    Permutation (map nb_dr (filter (fun n => Nat.eqb (nb_index n) j) (a_nbs (e_atom x))))
              (map (fun n => vopp (nb_dr n)) (filter (fun n => Nat.eqb (nb_index n) i) (a_nbs (e_atom y))))).
  { intros i j x y Hx Hy. destruct (HX i x Hx) as (a & Ea & -> & _). destruct (HX j y Hy) as (b & Eb & -> & _). apply HS; auto. }
  destruct (force_stage N rc P s HP HN Hs xs Lx (all_functions N rc P s xs Hready) Hsym) as (ys & Eys & Ly & HY).
  exists xs0, xs, ys. split; [exact Exs0|].
  split. { clear - HN2. induction HN2 as [|x y l l' (A & B & _) _ IH]; constructor; auto. }
  split.
  { unfold evaluateNNP. rewrite Es'. unfold calculateSymmetryFunctions. fold elems. rewrite Exs0, Enet. fold elems in Eys. now rewrite Eys. }
  do 4 (split; [auto|]). intros i y Ey.
  assert (Hi : (i < length (s_atoms s))%nat) by (rewrite <- Ly; apply nth_error_Some; congruence).
  destruct (HY i Hi) as (y' & Ey' & _ & B & _ & _ & D). rewrite Ey in Ey'. injection Ey' as <-.
  eexists. split; [apply nth_error_nth'; rewrite Lx; exact Hi|]. split; [exact B|exact D].
Qed.
Lemma evaluation_stages N rc P s nsort fuel s' : sensible N rc P -> 0 <= rc -> s_numElements s = N -> unprocessed rc s -> is_sort nsort ->
  calculateNeighborList nsort fuel rc false s = Some s' -> everywhere P rc s evaluable ->
  exists xs ys, evaluateNNP nsort fuel (p_weight P) (setupMemoryAll N (map (p_fs P) (seq 0 N))) (p_net P) rc s = Some (calculateEnergy xs, ys) /\
    length xs = length (s_atoms s) /\ length ys = length (s_atoms s) /\
    (forall i x, nth_error xs i = Some x -> ready N rc P s i x) /\
    (forall i j x y, nth_error xs i = Some x -> nth_error xs j = Some y ->
      Permutation (map nb_dr (filter (fun n => Nat.eqb (nb_index n) j) (a_nbs (e_atom x))))
              (map (fun n => vopp (nb_dr n)) (filter (fun n => Nat.eqb (nb_index n) i) (a_nbs (e_atom y))))) /\
    forall i y, nth_error ys i = Some y -> exists x, nth_error xs i = Some x /\ e_energy y = e_energy x /\ forall w, dot (e_f y) w = Fdot N P s xs i w.
Proof.
  intros HP Hrc HN Hs Hsort Es' Hev.
  destruct (evaluation_stages_sf N rc P s nsort fuel s' HP Hrc HN Hs Hsort Es' Hev) as (xs0 & xs & ys & _ & _ & H). exists xs, ys. exact H.
Qed.

Theorem evaluation N rc P s nsort fuel s' : sensible N rc P -> 0 <= rc -> s_numElements s = N -> unprocessed rc s -> is_sort nsort ->
  calculateNeighborList nsort fuel rc false s = Some s' -> everywhere P rc s evaluable ->
  exists E ys, evaluateNNP nsort fuel (p_weight P) (setupMemoryAll N (map (p_fs P) (seq 0 N))) (p_net P) rc s = Some (E, ys) /\
    has_energy P rc s E /\ length ys = length (s_atoms s) /\
    E = rsum (map e_energy ys) /\
    (harmless rc P s -> forall w, rsum (map (fun y => dot (e_f y) w) ys) = 0) /\
    (everywhere P rc s smooth_at -> regular_networks P rc s -> harmless rc P s ->
     forall u Ef, (forall t, has_energy P rc (displaced u t s) (Ef t)) ->
       is_derive Ef 0 (- rsum (map (fun iy => dot (e_f (snd iy)) (u (fst iy))) (List.combine (seq 0 (length ys)) ys)))).
Proof.
  intros HP Hrc HN Hs Hsort Es' Hev.
  assert (Hper : s_periodic s = true -> det (s_box s) <> 0). { intros H. destruct Hs as (_ & _ & _ & Hw & _). now apply Hw. }
  destruct (evaluation_stages N rc P s nsort fuel s' HP Hrc HN Hs Hsort Es' Hev) as (xs & ys & Ev & Lx & Ly & Hready & Hsym & HY).
  exists (calculateEnergy xs), ys. split; [exact Ev|].
  split. { eapply energy_stage; eauto using all_functions, all_done. }
  split; [auto|].
  assert (Hwork : forall u : nat -> vec, rsum (map (fun iy => dot (e_f (snd iy)) (u (fst iy))) (List.combine (seq 0 (length ys)) ys)) =
     sumn (length (s_atoms s)) (fun i => Fdot N P s xs i (u i))).
  { intros u. rewrite rsum_combine_seq, Ly. apply sumn_ext. intros i Hi.
    destruct (nth_error ys i) as [y|] eqn:Ey; [|apply nth_error_None in Ey; lia].
    destruct (HY i y Ey) as (x & _ & _ & D). unfold nthR. rewrite Ey. cbn [fst snd]. apply D. }
  split; [|split].
  - unfold calculateEnergy. rewrite fold_sum, Rplus_0_l, Rplus_0_r. f_equal.
    apply list_nth_ext. intros i. rewrite !nth_error_map. destruct (nth_error ys i) as [y|] eqn:Ey.
    + destruct (HY i y Ey) as (x & -> & E & _). cbn. now rewrite E.
    + apply nth_error_None in Ey. rewrite (proj2 (nth_error_None xs i)) by lia. reflexivity.
  - intros Hh w. rewrite <- (total_force N rc P s HN xs Lx (all_functions N rc P s xs Hready) Hsym Hh w), <- (Hwork (fun _ => w)).
    f_equal. apply list_nth_ext. intros i. rewrite !nth_error_map, nth_combine_seq. destruct (nth_error ys i); reflexivity.
  - intros Hsm Hre Hh u Ef HE. rewrite Hwork. eapply force_gradient; eauto using all_functions, all_done.
Qed.
