(** Derivatives of the electronegativities with respect to positions (Atom.cpp
    calculateDChidr) as directional derivatives. *)
From Coq Require Import Reals Lra ZArith List Lia Bool Arith Permutation Sorted.
From Coquelicot Require Import Coquelicot.
From Coq Require Import List.
From Verif Require Import Base.RealBase Base.Loop Base.Vec3 Base.SumR Model.Scaling Model.NeighborList Model.SymFunctions Model.SymSetup Model.Forces
  Model.Evaluation4G
  Spec.GeometrySpec Spec.NeighborSpec Spec.SymSpec Spec.SetupSpec Spec.ForceSpec
  Proofs.NeighborProofs Proofs.NeighborMore Proofs.SymInv Proofs.SymEval Proofs.SymGrad Proofs.SetupProofs Proofs.ForceAssembly Proofs.ForceProofs Proofs.Truncate Proofs.LongLists Proofs.CutForces.
Import ListNotations.
Local Open Scope R_scope.

(** The atom with cut list and dChidG in place of dEdG. *)
Definition chi_atom (rc : R) (x : fatom) : eatom := mkEAtom (cut_atom rc (e_atom (f_e x))) (e_store (f_e x)) (f_dChidG x) 0 vzero.

Lemma pair_sum (g : nat -> option nat) (h : nat -> nat -> vec) (b : nat -> bool) l : forall f f' v,
  ofold (fun i f => match g i with None => None | Some t => if b t then Some (vsub f (h t i)) else None end) l f = Some f' ->
  exists v', ofold (fun i v => match g i with None => None | Some t => if b t then Some (vadd v (h t i)) else None end) l v = Some v' /\
    forall w, dot v' w + dot f' w = dot v w + dot f w.
Proof.
  induction l as [|i l IH]; intros f f' v E; cbn [ofold] in *.
  - injection E as <-. exists v. auto.
  - destruct (g i) as [t|]; [|discriminate]. destruct (b t); [|discriminate].
    destruct (IH _ _ (vadd v (h t i)) E) as (v' & E' & D). exists v'. split; auto. intros w. rewrite D. unfold dot, vadd, vsub; cbn. ring.
Qed.

Section DChi.
Variables (N n : nat) (rc : R) (fs : list symfnc) (e : elem).
Hypothesis Hnum : numbered fs.
Hypothesis Hmem : setupMemory N fs = (el_fs e, el_table e, el_nums e).

Lemma dChidr_ok j x k : long N n rc j (e_atom (f_e x)) -> untouched (e_atom (f_e x)) rc (e_store (f_e x)) ->
  exists d, calculateDChidr e rc j x k = Some d /\ forall w, dot d w =
    (if Nat.eqb k j then sumn (length (el_fs e)) (fun c => f_dChidG x c * dot (st_D (e_store (f_e x)) (LA c)) w) else 0) - QF e (chi_atom rc x) k w.
Proof.
  intros HL Hu. unfold calculateDChidr. set (a := e_atom (f_e x)) in *. set (st := e_store (f_e x)) in *.
  set (self := if Nat.eqb k j then _ else vzero).
  assert (Hself : forall w, dot self w = if Nat.eqb k j then sumn (length (el_fs e)) (fun c => f_dChidG x c * dot (st_D st (LA c)) w) else 0).
  { intros w. unfold self. destruct (Nat.eqb k j); [|apply dot_vzero_l']. unfold sumn.
    assert (H : forall l f, dot (fold_left (fun v i => vadd v (smul (f_dChidG x i) (st_D st (LA i)))) l f) w
      = dot f w + rsum (map (fun c => f_dChidG x c * dot (st_D st (LA c)) w) l)).
    { induction l as [|c l IH]; intros f; cbn [fold_left map rsum]; [cbn; lra|]. rewrite IH. cbn [fold_right rsum map]. unfold dot, vadd, smul; cbn. ring. }
    rewrite H, dot_vzero_l'. ring. }
  set (step := fun (m : nat) (v : vec) => _).
  assert (Hstep : forall m nb v, nth_error (a_nbs a) m = Some nb -> exists v', step m v = Some v' /\
     forall w, dot v' w = dot v w - if Nat.eqb (nb_index nb) k then PD e (chi_atom rc x) m nb w else 0).
  { intros m nb v Em. unfold step. rewrite Em. destruct HL as (_ & _ & _ & Hv & _). destruct (Hv nb (nth_error_In _ _ Em)) as (He & _ & Et).
    rewrite Et. replace (Z.eqb (Z.of_nat (nb_index nb)) (Z.of_nat k)) with (Nat.eqb (nb_index nb) k).
    2:{ destruct (Nat.eqb_spec (nb_index nb) k) as [->|Hne]; [now rewrite Z.eqb_refl|]. symmetry. apply Z.eqb_neq. lia. }
    destruct (Nat.eqb (nb_index nb) k).
    - destruct (pairForce_ok N fs e (chi_atom rc x) m nb Hnum Hmem He) as (p & Ep & D). unfold pairForce in Ep.
      destruct (nth_error (el_nums e) (nb_element nb)) as [size|]; [|discriminate].
      destruct (pair_sum (nth_error (el_table e (nb_element nb))) (fun t i => smul (f_dChidG x t) (st_D st (LN m i))) (fun t => Nat.ltb t (length (el_fs e)))
         (seq 0 size) vzero p v Ep) as (v' & E' & D'). exists v'. split; auto. intros w. rewrite <- D. pose proof (D' w). rewrite dot_vzero_l' in H. lra.
    - exists v. split; auto. intros; ring. }
  rewrite (ofold_bounds0 step (getStoredMinNumNeighbors a rc) (count_below rc (a_nbs a))).
  2:{ intros m v [Hm|Hm]. { destruct HL as (_ & _ & H & _). lia. }
      destruct (nth_error (a_nbs a) m) as [nb|] eqn:Em.
      2:{ apply nth_error_None in Em. destruct HL as ((H1 & _ & H3) & _). pose proof (proj1 (H3 rc)). lia. }
      destruct (Hstep m nb v Em) as (v' & -> & D). f_equal.
      assert (Z0 : forall w, dot v' w = dot v w).
      { intros w. rewrite D. destruct (Nat.eqb (nb_index nb) k); [|ring]. unfold PD. rewrite sumn_zero; [ring|]. intros c _. unfold entry.
        destruct (nth_error (el_fs e) c); [|ring]. destruct (depends _ _); [|ring]. cbn [chi_atom e_store e_dEdG].
        pose proof (beyond _ _ _ _ _ HL m nb ltac:(lia) Em). fold st. rewrite (Hu m nb _ Em) by lra. rewrite dot_vzero_l'. ring. }
      destruct v' as [x1 y1 z1], v as [x2 y2 z2]. pose proof (Z0 (mkVec 1 0 0)). pose proof (Z0 (mkVec 0 1 0)). pose proof (Z0 (mkVec 0 0 1)).
      unfold dot in *; cbn in *. f_equal; lra. }
  destruct (ofold_dot step (fun m w => - nthR (near rc a) (fun nb => if Nat.eqb (nb_index nb) k then PD e (chi_atom rc x) m nb w else 0) m)
     (seq 0 (count_below rc (a_nbs a)))) with (f := self) as (d & Ed & D).
  { intros m v Hm. apply in_seq in Hm. pose proof (count_le rc (a_nbs a)).
    destruct (nth_error (a_nbs a) m) as [nb|] eqn:Em; [|apply nth_error_None in Em; lia].
    destruct (Hstep m nb v Em) as (v' & E' & D). exists v'. split; auto. intros w. rewrite D. unfold nthR. rewrite near_nth by lia. rewrite Em. ring. }
  exists d. split; auto. intros w. rewrite D, Hself. unfold QF. cbn [chi_atom e_atom cut_atom a_nbs]. rewrite near_length. fold a.
  unfold Rminus. f_equal. unfold sumn. apply rsum_opp.
Qed.
End DChi.

Section Rate.
Variables (N : nat) (rc : R) (P : potential) (s : structure).
Hypothesis HP : sensible N rc P.
Hypothesis HN : s_numElements s = N.
Hypothesis Hs : unprocessed rc s.
Let n := length (s_atoms s).
Let elems := setupMemoryAll N (map (p_fs P) (seq 0 N)).
Variable zs : list fatom.
Hypothesis Hlen : length zs = n.
Hypothesis Hprep : forall i x, nth_error zs i = Some x -> with_functions N rc P s i (chi_atom rc x).
Hypothesis Hlong : forall i x, nth_error zs i = Some x -> long N n rc i (e_atom (f_e x)).
Hypothesis Hfar : forall i x, nth_error zs i = Some x -> untouched (e_atom (f_e x)) rc (e_store (f_e x)).
Let xs := map (chi_atom rc) zs.

Lemma xs_len : length xs = n.
Proof. unfold xs. now rewrite map_length. Qed.
Lemma xs_prep i x : nth_error xs i = Some x -> with_functions N rc P s i x.
Proof. unfold xs. rewrite nth_error_map. destruct (nth_error zs i) eqn:E; [|discriminate]. intros [= <-]. eauto. Qed.
Lemma zs_el j x : nth_error zs j = Some x -> (a_element (e_atom (f_e x)) < N)%nat.
Proof.
  intros H. destruct (Hprep j x H) as (ai & Ei & (E & _) & _). cbn [chi_atom e_atom cut_atom a_element] in E. rewrite E, <- HN. apply Hs. eapply nth_error_In; eauto.
Qed.
Lemma zs_at j x : nth_error zs j = Some x -> forall d, nth j xs d = chi_atom rc x.
Proof. intros H d. unfold xs. apply nth_error_nth. now rewrite nth_error_map, H. Qed.

Lemma rows_ok : exists T, dChidr_rows elems rc zs = Some T /\ forall j x, nth_error zs j = Some x -> forall u,
  sumn n (fun a => dot (row_entry T j a) (u a)) =
  sumn (length (p_fs P (a_element (e_atom (f_e x))))) (fun c => f_dChidG x c * TD N P xs j c (u j) (everyone xs u j)).
Proof.
  set (row := fun j x => match nth_error elems (a_element (e_atom (f_e x))) with
    | None => None | Some e => sequence (map (calculateDChidr e rc j x) (seq 0 (length zs))) end).
  assert (Hent : forall j x k, nth_error zs j = Some x -> exists d, calculateDChidr (el_of N P (a_element (e_atom (f_e x)))) rc j x k = Some d /\ forall w, dot d w =
    (if Nat.eqb k j then sumn (length (el_fs (el_of N P (a_element (e_atom (f_e x)))))) (fun c => f_dChidG x c * dot (st_D (e_store (f_e x)) (LA c)) w) else 0)
      - QF (el_of N P (a_element (e_atom (f_e x)))) (chi_atom rc x) k w).
  { intros j x k Hx. destruct (HP _ (zs_el j x Hx)) as ((_ & Hnum & _) & _). eapply dChidr_ok; eauto using el_of_memory. }
  assert (Hrow : forall j x, nth_error zs j = Some x -> exists r, row j x = Some r /\ length r = n /\ forall k, (k < n)%nat ->
     calculateDChidr (el_of N P (a_element (e_atom (f_e x)))) rc j x k = nth_error r k).
  { intros j x Hx. unfold row. unfold elems. rewrite (elem_at N P _ (zs_el j x Hx)).
    destruct (sequence_some (map (calculateDChidr (el_of N P (a_element (e_atom (f_e x)))) rc j x) (seq 0 (length zs)))) as [r Er].
    { intros o Ho. apply in_map_iff in Ho as (k & <- & _). destruct (Hent j x k Hx) as (d & -> & _). discriminate. }
    exists r. split; auto. apply sequence_spec in Er as [L E]. rewrite map_length, seq_length in L. split; [lia|].
    intros k Hk. apply E. rewrite nth_error_map, (nth_error_nth' _ 0%nat) by (rewrite seq_length; lia). rewrite seq_nth by lia. reflexivity. }
  destruct (sequence_some (mapi row zs)) as [T ET].
  { intros o Ho. apply In_nth_error in Ho as (i & Ho). rewrite nth_error_mapi in Ho. destruct (nth_error zs i) as [x|] eqn:Ex; [|discriminate].
    cbn in Ho. injection Ho as <-. destruct (Hrow i x Ex) as (r & -> & _). discriminate. }
  exists T. split; [exact ET|]. apply sequence_spec in ET as [LT HT].
  intros j x Hx u. destruct (Hrow j x Hx) as (r & Er & Lr & Hr).
  assert (ETj : nth_error T j = Some r). { symmetry. apply HT. rewrite nth_error_mapi, Hx. cbn. now rewrite Er. }
  assert (Hj : (j < n)%nat) by (rewrite <- Hlen; apply nth_error_Some; congruence).
  set (E := el_of N P (a_element (e_atom (f_e x)))) in *.
  assert (S1 : sumn n (fun a => dot (row_entry T j a) (u a)) =
     sumn (length (el_fs E)) (fun c => f_dChidG x c * dot (st_D (e_store (f_e x)) (LA c)) (u j)) - sumn n (fun a => QF E (chi_atom rc x) a (u a))).
  { transitivity (sumn n (fun a => (if Nat.eqb a j then sumn (length (el_fs E)) (fun c => f_dChidG x c * dot (st_D (e_store (f_e x)) (LA c)) (u a)) else 0)
        - QF E (chi_atom rc x) a (u a))).
    { apply sumn_ext. intros a Ha. destruct (Hent j x a Hx) as (d & Ed & D). fold E in Ed, D. rewrite (Hr a Ha) in Ed.
      unfold row_entry. rewrite (nth_error_nth _ _ _ ETj), (nth_error_nth _ _ _ Ed). apply D. }
    rewrite sumn_minus. f_equal. rewrite (sumn_single n _ j Hj).
    - now rewrite Nat.eqb_refl.
    - intros a _ Ha. destruct (Nat.eqb_spec a j); congruence. }
  rewrite S1. clear S1.
  assert (TS := TD_sum N rc P s HN xs xs_len xs_prep j (u j) (everyone xs u j) Hj).
  set (d0 := mkEAtom (mkAtom 0 vzero false false 0 0 [] [] [] []) (mkStore (fun _ => 0) (fun _ => vzero) (fun _ _ => 0)) (fun _ => 0) 0 vzero) in *.
  cbv beta in TS. fold d0 in TS. rewrite (zs_at j x Hx d0) in TS. cbn [chi_atom e_atom e_dEdG e_store cut_atom a_element a_nbs] in TS. fold E in TS.
  assert (FL : length (el_fs E) = length (p_fs P (a_element (e_atom (f_e x))))).
  { destruct (Hprep j x Hx) as (ai & _ & _ & (L & _)). exact L. }
  rewrite FL. 
  assert (S2 : sumn n (fun a => QF E (chi_atom rc x) a (u a)) =
     sumn (length (near rc (e_atom (f_e x)))) (fun k => nthR (near rc (e_atom (f_e x))) (fun m => PD E (chi_atom rc x) k m (everyone xs u j k)) k)).
  { unfold QF. cbn [chi_atom e_atom cut_atom a_nbs]. fold (chi_atom rc x). rewrite sumn_swap. apply sumn_ext. intros k Hk. unfold nthR.
    unfold everyone. fold d0. rewrite (zs_at j x Hx d0). cbn [chi_atom e_atom cut_atom a_nbs]. fold (chi_atom rc x).
    destruct (nth_error (near rc (e_atom (f_e x))) k) as [m|] eqn:Em; [|apply sumn_zero; auto].
    assert (Hm : (nb_index m < n)%nat). { apply nth_error_In in Em. apply (near_in _ _ _ _ _ (Hlong j x Hx)) in Em as [Em _].
      destruct (Hlong j x Hx) as (_ & _ & _ & H & _). apply H. auto. }
    rewrite (sumn_single n _ (nb_index m) Hm). { now rewrite Nat.eqb_refl. }
    intros a _ Ha. destruct (Nat.eqb_spec (nb_index m) a); congruence. }
  rewrite S2. fold (chi_atom rc x) in TS. lra.
Qed.
End Rate.
