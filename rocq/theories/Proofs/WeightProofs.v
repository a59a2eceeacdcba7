(** The derivatives of energies and forces with respect to weights and biases. *)
From Coq Require Import Reals Lra Arith Lia Bool Permutation.
From Coquelicot Require Import Coquelicot.
From Coq Require Import List.
From Verif Require Import Base.RealBase Base.Vec3 Base.SumR Base.Loop Model.NeuralNetwork Model.Scaling Model.NeighborList Model.SymFunctions
  Model.SymSetup Model.Forces Model.WeightDerivatives
  Spec.NetworkSpec Spec.TrainWeightsSpec Spec.GeometrySpec Spec.NeighborSpec Spec.SymSpec Spec.SetupSpec Spec.ForceSpec Spec.WeightSpec
  Proofs.CutoffProofs Proofs.NetLayout Proofs.NetForward Proofs.NetGrad Proofs.NetProofs Proofs.ForceNet Proofs.NeighborProofs Proofs.SymGrad Proofs.SetupProofs Proofs.ForceAssembly Proofs.ForceProofs
  Proofs.GroupForces Proofs.WeightNet Proofs.WeightCollect Proofs.WeightSums.
Import ListNotations.
Local Open Scope R_scope.

Section Tune.
Variables (N : nat) (rc : R) (P : potential) (s : structure).
Hypothesis HP : sensible N rc P.
Hypothesis Hrc : 0 <= rc.
Hypothesis HN : s_numElements s = N.
Hypothesis Hs : unprocessed rc s.
Hypothesis Hone : one_output N P.
Hypothesis Hreg : regular_networks P rc s.

(** ** Atoms with symmetry functions *)
Definition primed (i : nat) (x : eatom) : Prop :=
  exists ai, nth_error (s_atoms s) i = Some ai /\ listed N rc s i ai (e_atom x) /\ sf_done N P (e_atom x) (e_store x).
Lemma primed_el i x : primed i x -> (a_element (e_atom x) < N)%nat.
Proof. intros (ai & Ei & (E & _) & _). rewrite E, <- HN. apply Hs. eapply nth_error_In; eauto. Qed.
Lemma primed_inputs i x : primed i x -> let e := a_element (e_atom x) in
  every_neuron regular (evaluate (p_net P e) (st_G (e_store x))).
Proof.
  intros H. assert (He := primed_el i x H). destruct H as (ai & Ei & Hl & SD). cbn zeta. destruct (HP _ He) as (_ & Hwf & Hact & HI).
  assert (R0 := Hreg i ai (env_of (a_nbs (e_atom x))) Ei (listed_neighbourhood N rc s i ai _ Ei Hl)).
  destruct Hl as (El & _). rewrite <- El in R0.
  apply (sn_regular (p_net P (a_element (e_atom x))) (p_net P (a_element (e_atom x))) _ _ (sn_refl _) Hwf Hact) with (2 := R0).
  intros c Hc. rewrite HI in Hc. destruct SD as (_ & SD). destruct (nth_error (p_fs P (a_element (e_atom x))) c) as [f|] eqn:Ef; [|apply nth_error_None in Ef; lia].
  destruct (SD c f Ef) as (f' & _ & _ & _ & _ & G' & _). unfold sf_input. rewrite Ef. exact G'.
Qed.

(** ** What one atom contributes *)
Definition share (q : quantity) (P' : potential) (i : nat) (x : eatom) : R :=
  let e := a_element (e_atom x) in
  match q with
  | Energy => getOutput (evaluate (p_net P' e) (st_G (e_store x))) 0
  | Force a c => - sumn (length (p_fs P e)) (fun t => calculateDEdG (evaluate (p_net P' e) (st_G (e_store x))) t * pull (el_of N P e) x i a t (axis c))
  end.
Definition component (q : quantity) : Prop := match q with Energy => True | Force _ c => (c < 3)%nat end.

Lemma share_const q i x e p t P' : primed i x -> tuned P e p t P' -> a_element (e_atom x) <> e -> share q P' i x = share q P i x.
Proof.
  intros Hx (_ & _ & _ & Ho) Hne. assert (He := primed_el i x Hx). destruct (HP _ He) as (_ & Hwf & Hact & HI).
  specialize (Ho _ Hne). unfold share. destruct q as [|a c].
  - apply sn_output; auto.
  - f_equal. apply sumn_ext. intros k Hk. f_equal. apply sn_DEdG; auto. now rewrite HI.
Qed.
Lemma share_derive q i x p w Pt net buf : primed i x -> component q ->
  let e := a_element (e_atom x) in
  (p < numConnections (p_net P e))%nat -> tuned P e p w P -> (forall t, tuned P e p t (Pt t)) -> same_network net (p_net P e) ->
  exists d, derivative q (el_of N P e) i x (evaluate net (st_G (e_store x))) buf = Some d /\ is_derive (fun t => share q (Pt t) i x) w (d p).
Proof.
  intros Hx Hc e Hp Hw HPt Hnet. assert (He := primed_el i x Hx). fold e in He. destruct (HP _ He) as ((_ & Hnum & _) & Hwf & Hact & HI).
  assert (Rg := primed_inputs i x Hx). cbn zeta in Rg. fold e in Rg.
  assert (HG : forall k, (k < numNeurons (p_net P e) 0)%nat -> st_G (e_store x) k = st_G (e_store x) k) by auto.
  assert (Hbt : forall t, tuned_network (p_net P e) p t (p_net (Pt t) e)) by (intros t; apply HPt).
  assert (Hw' : tuned_network (p_net P e) p w (p_net P e)) by apply Hw.
  destruct q as [|a c]; cbn [derivative share].
  - eexists. split; [reflexivity|]. fold e.
    apply (tuned_energy net (p_net P e) (st_G (e_store x)) (st_G (e_store x)) p w (fun t => p_net (Pt t) e) Hnet Hwf Hact (Hone e He) HG Hp Rg Hw' Hbt).
  - destruct Hx as (ai & Ei & (El & Gl & _ & Hnb & _) & SD). fold e. assert (EM := el_of_memory N P e).
    assert (LF : length (el_fs (el_of N P e)) = length (p_fs P e)) by apply SD.
    destruct (collect_ok N (p_fs P e) (el_of N P e) x i a c Hnum EM) as (g & Eg & Hg).
    { intros m Hm. now apply Hnb. } { apply Gl. } { exact Hc. }
    rewrite Eg. eexists. split; [reflexivity|]. rewrite <- HI.
    apply (tuned_force net (p_net P e) (st_G (e_store x)) (st_G (e_store x)) p w (fun t => p_net (Pt t) e) Hnet Hwf Hact (Hone e He) HG Hp Rg Hw' Hbt).
    intros k Hk. apply Hg. rewrite LF, <- HI. exact Hk.
Qed.

Definition D (q : quantity) (xs : list eatom) (i p : nat) : R :=
  nthR xs (fun x => let e := a_element (e_atom x) in
    match derivative q (el_of N P e) i x (evaluate (p_net P e) (st_G (e_store x))) (fun _ => 0) with Some d => d p | None => 0 end) i.

(** The potential with one parameter replaced. *)
Definition replace (e p : nat) (t : R) : potential :=
  mkPotential (p_fs P) (fun e' => if Nat.eqb e' e then setConnections (upd (getConnections (p_net P e) (fun _ => 0)) p t) (p_net P e) else p_net P e') (p_weight P).
Lemma replace_tuned e p t : (e < N)%nat -> tuned P e p t (replace e p t).
Proof.
  intros He. destruct (HP e He) as (_ & Hwf & _). split; [reflexivity|]. split; [reflexivity|]. cbn [replace p_net]. split.
  - rewrite Nat.eqb_refl. apply set_tuned. destruct Hwf as [H3 _]. clear - H3. lia.
  - intros e' Hne. rewrite (proj2 (Nat.eqb_neq _ _) Hne). apply sn_refl.
Qed.
Lemma current_tuned e p : (e < N)%nat -> tuned P e p (getConnections (p_net P e) (fun _ => 0) p) P.
Proof.
  intros He. destruct (HP e He) as (_ & Hwf & _). split; [reflexivity|]. split; [reflexivity|]. split.
  - apply value_tuned. destruct Hwf as [H3 _]. clear - H3. lia.
  - intros e' _. apply sn_refl.
Qed.

Lemma D_value q xs i x p net buf : nth_error xs i = Some x -> primed i x -> component q ->
  let e := a_element (e_atom x) in
  (p < numConnections (p_net P e))%nat -> same_network net (p_net P e) ->
  exists d, derivative q (el_of N P e) i x (evaluate net (st_G (e_store x))) buf = Some d /\ d p = D q xs i p.
Proof.
  intros Ex Hx Hc e Hp Hnet. assert (He := primed_el i x Hx). fold e in He.
  assert (Hw := current_tuned e p He). assert (Ht := fun t => replace_tuned e p t He).
  destruct (share_derive q i x p _ _ net buf Hx Hc Hp Hw Ht Hnet) as (d & E & Hd).
  destruct (share_derive q i x p _ _ (p_net P e) (fun _ => 0) Hx Hc Hp Hw Ht (sn_refl _)) as (d' & E' & Hd').
  exists d. split; auto. unfold D, nthR. rewrite Ex. cbn zeta. fold e. fold e in E'. rewrite E'.
  rewrite <- (is_derive_unique _ _ _ Hd). apply is_derive_unique. exact Hd'.
Qed.

(** ** Any atoms which have these symmetry functions *)
Variables (xs : list eatom).
Hypothesis Hlen : length xs = length (s_atoms s).
Hypothesis Hpr : forall i x, nth_error xs i = Some x -> primed i x.
Lemma summable_ok elems q : length elems = N -> (forall e, (e < N)%nat -> nth_error elems e = Some (el_of N P e)) -> component q ->
  summable elems (p_net P) q xs (D q xs).
Proof.
  intros Ln Hel Hc i x nets buf Ex Hnets. cbn zeta. assert (Hx := Hpr i x Ex). assert (He := primed_el i x Hx).
  set (e := a_element (e_atom x)) in *. destruct (HP e He) as (_ & Hwf & Hact & HI).
  assert (Hn : same_network (nets e) (p_net P e)) by (apply Hnets; lia).
  split; [lia|]. split; [apply sn_evaluate; auto|]. exists (el_of N P e). split; [auto|]. split.
  { rewrite HI. destruct Hx as (ai & _ & _ & (L & _)). exact L. }
  assert (Hd : exists d, derivative q (el_of N P e) i x (evaluate (nets e) (st_G (e_store x))) buf = Some d).
  { destruct q as [|a c]; cbn [derivative]; [eauto|]. destruct Hx as (ai & Ei & (El & Gl & _ & Hnb & _) & SD).
    destruct (HP e He) as ((_ & Hnum & _) & _).
    destruct (collect_ok N (p_fs P e) (el_of N P e) x i a c Hnum (el_of_memory N P e)) as (g & Eg & _).
    { intros m Hm. now apply Hnb. } { apply Gl. } { exact Hc. } rewrite Eg. eauto. }
  destruct Hd as (d & Hd). exists d. split; auto. intros p Hp.
  destruct (D_value q xs i x p (nets e) buf Ex Hx Hc Hp Hn) as (d' & E' & V). fold e in E'. rewrite Hd in E'. injection E' as <-. exact V.
Qed.

(** The sum of the contributions. *)
Lemma shares_derive q e p w Pt : component q -> (e < N)%nat -> (p < numConnections (p_net P e))%nat -> tuned P e p w P -> (forall t, tuned P e p t (Pt t)) ->
  is_derive (fun t => sumn (length xs) (fun i => nthR xs (share q (Pt t) i) i)) w (total xs (D q xs) e p).
Proof.
  intros Hc He Hp Hw HPt. unfold total, part. apply is_derive_sumn. intros i Hi. unfold nthR.
  destruct (nth_error xs i) as [x|] eqn:Ex; [|apply nth_error_None in Ex; lia]. assert (Hx := Hpr i x Ex).
  destruct (Nat.eqb_spec (a_element (e_atom x)) e) as [E|Hne].
  - subst e. destruct (share_derive q i x p w Pt (p_net P (a_element (e_atom x))) (fun _ => 0) Hx Hc Hp Hw HPt (sn_refl _)) as (d & Ed & Hd).
    unfold D, nthR. rewrite Ex. cbn zeta. rewrite Ed. exact Hd.
  - apply (is_derive_ext (fun _ => share q P i x)).
    { intros t. symmetry. eapply share_const; eauto. }
    exact (is_derive_const (V := R_NormedModule) (share q P i x) w).
Qed.
End Tune.

(** ** What the evaluation returns *)
Lemma tuned_sensible N rc P e p t P' : sensible N rc P -> (e < N)%nat -> tuned P e p t P' -> sensible N rc P'.
Proof.
  intros HP He (Ef & _ & Tn & Ho) e' He'. destruct (HP e' He') as (U & Wf & Ac & HI). rewrite Ef. split; [exact U|].
  assert (Sh : same_shape (p_net P' e') (p_net P e')).
  { destruct (Nat.eq_dec e' e) as [->|Hne]; [eapply tuned_shape; exact Tn|apply sn_shape; auto]. }
  split; [eapply shape_wf; eauto|]. split; [exact (shape_acts _ _ Sh Ac)|]. destruct Sh as (_ & -> & _). exact HI.
Qed.
Lemma tuned_el_of N P P' e : p_fs P' = p_fs P -> el_of N P' e = el_of N P e.
Proof. intros E. unfold el_of. now rewrite E. Qed.

Lemma TD_pull N rc P s xs (Hready : forall i x, nth_error xs i = Some x -> ready N rc P s i x) (Hlen : length xs = length (s_atoms s)) a w j x c :
  nth_error xs j = Some x -> (c < length (p_fs P (a_element (e_atom x))))%nat ->
  let u := fun i => if Nat.eqb i a then w else vzero in
  TD N P xs j c (u j) (everyone xs u j) = pull (el_of N P (a_element (e_atom x))) x j a c w.
Proof.
  intros Ex Hc u. destruct (Hready j x Ex) as (ai & _ & _ & (_ & SD) & _).
  destruct (nth_error (p_fs P (a_element (e_atom x))) c) as [f|] eqn:Ef; [|apply nth_error_None in Ef; lia].
  destruct (SD c f Ef) as (f' & Ef' & _ & _ & Ei & _).
  unfold TD, everyone. rewrite (nth_error_nth _ _ _ Ex), Ef'. unfold table_directional, pull. rewrite Ei. unfold u. f_equal.
  { destruct (Nat.eqb j a); auto. unfold dot; cbn; ring. }
  rewrite rsum_combine_seq. apply sumn_ext. intros k _. unfold nthR. destruct (nth_error (a_nbs (e_atom x)) k) as [m|] eqn:Em; auto.
  cbn [fst snd]. unfold entry. rewrite Ef', Em. destruct (depends (sf_kind f') (nb_element m)); destruct (Nat.eqb (nb_index m) a); auto.
  unfold dot; cbn; ring.
Qed.

Section Value.
Variables (N : nat) (rc : R) (P : potential) (s : structure) (nsort : list neighbor -> list neighbor) (fuel : nat) (s' : structure).
Hypothesis HP : sensible N rc P.
Hypothesis Hrc : 0 <= rc.
Hypothesis HN : s_numElements s = N.
Hypothesis Hs : unprocessed rc s.
Hypothesis Hsort : is_sort nsort.
Hypothesis Es' : calculateNeighborList nsort fuel rc false s = Some s'.
Hypothesis Hev : everywhere P rc s evaluable.
Let elems := setupMemoryAll N (map (p_fs P) (seq 0 N)).

Lemma functions_stage : exists xs0, calculateSymmetryFunctions (p_weight P) elems (s_atoms s') = Some xs0 /\ length xs0 = length (s_atoms s) /\
  forall i x, nth_error xs0 i = Some x -> primed N rc P s i x.
Proof.
  destruct (evaluation_stages_sf N rc P s nsort fuel s' HP Hrc HN Hs Hsort Es' Hev) as (xs0 & xs & ys & E0 & F & _ & L & _ & Rd & _).
  exists xs0. split; [exact E0|]. split; [rewrite <- L; clear - F; induction F; cbn; auto|]. intros i x Hx.
  assert (Q := F2_nth_error _ _ _ F i). rewrite Hx in Q. destruct (nth_error xs i) as [y|] eqn:Ey; [|contradiction]. destruct Q as (Qa & Qs).
  destruct (Rd i y Ey) as (ai & Ei & Hl & SD & _). exists ai. rewrite Qa, Qs in *. auto.
Qed.

Lemma tuned_value_in q e p t P' v xs0 : calculateSymmetryFunctions (p_weight P) elems (s_atoms s') = Some xs0 ->
  (e < N)%nat -> tuned P e p t P' -> force_complete P rc s q -> quantity_of s q -> value_in q (plain_evaluation N nsort fuel rc s P') v ->
  v = sumn (length xs0) (fun i => nthR xs0 (share N P q P' i) i).
Proof.
  intros E0 He HT Hfc Hq (E & ys & Eev & Hv). assert (HP' := tuned_sensible N rc P e p t P' HP He HT).
  destruct HT as (Ef & Ew & _).
  assert (Hev' : everywhere P' rc s evaluable) by (intros i a en f; rewrite Ef; apply Hev).
  destruct (evaluation_stages_sf N rc P' s nsort fuel s' HP' Hrc HN Hs Hsort Es' Hev') as (xs0' & xs & ys' & E0' & F & Eev' & L & Ly & Rd & Sy & HY).
  rewrite Ew, Ef in E0'. fold elems in E0'. rewrite E0 in E0'. injection E0' as <-.
  unfold plain_evaluation in Eev. rewrite Eev' in Eev. injection Eev as <- <-.
  assert (L0 : length xs0 = length xs) by (clear - F; induction F; cbn; auto).
  destruct q as [|a c].
  - subst v. unfold calculateEnergy. rewrite fold_sum, Rplus_0_l, Rplus_0_r. unfold sumn.
    clear - F Rd. assert (G : forall i x, nth_error xs i = Some x -> net_done P' x). { intros i x Hx. destruct (Rd i x Hx) as (ai & _ & _ & _ & Q). exact Q. }
    clear Rd. assert (X : forall o, rsum (map e_energy xs) = rsum (map (fun i => nthR xs0 (share N P Energy P' i) (i - o)) (seq o (length xs0)))).
    { induction F as [|x y l l' (A & B) F IH]; intros o; cbn [map length seq]; auto. rewrite Nat.sub_diag. 
      change (rsum (e_energy y :: map e_energy l')) with (e_energy y + rsum (map e_energy l')).
      match goal with |- _ = rsum (?u :: ?r) => change (rsum (u :: r)) with (u + rsum r) end. f_equal.
      - destruct (G 0%nat y eq_refl) as (G1 & _). rewrite G1. cbn. now rewrite A, B.
      - rewrite (IH (fun i => G (S i)) (S o)). f_equal. apply map_ext_in. intros i Hi. apply in_seq in Hi. replace (i - o)%nat with (S (i - S o)) by lia. reflexivity. }
    rewrite (X 0%nat). f_equal. apply map_ext. intros i. now rewrite Nat.sub_0_r.
  - destruct Hq as (Ha & Hc). destruct Hv as (y & Ey & ->). destruct (HY a y Ey) as (x & Ex & _ & Df).
    rewrite <- dot_axis by exact Hc. rewrite Df. set (w := axis c) in *.
    set (u := fun i => if Nat.eqb i a then w else vzero).
    assert (Hh : harmless rc P' s). { destruct Hfc as [H|H]; [now left|right]. intros e' f. rewrite Ef. apply H. }
    assert (W := work N rc P' s HN xs L (all_functions _ _ _ _ _ Rd) u).
    rewrite (sumn_single _ _ a) in W; auto.
    2:{ intros i Hi Hne. unfold Fdot, u. rewrite (proj2 (Nat.eqb_neq _ _) Hne). rewrite (sumn_zero (length (s_atoms s))), sumn_zero; [ring| |].
        - intros k _. unfold dot; cbn; ring.
        - intros k _. rewrite QF_zero. destruct (Nat.eqb k i); auto. }
    unfold u in W at 1. rewrite Nat.eqb_refl in W. rewrite W, L0, <- L, <- sumn_opp. apply sumn_ext. intros j Hj.
    destruct (nth_error xs j) as [z|] eqn:Ez; [|apply nth_error_None in Ez; lia].
    assert (Q := F2_nth_error _ _ _ F j). rewrite Ez in Q. unfold nthR. destruct (nth_error xs0 j) as [z0|] eqn:Ez0; [|contradiction]. destruct Q as (Qa & Qs).
    rewrite (nth_error_nth _ _ _ Ez). unfold share. rewrite <- Qa, <- Qs, <- Ef. f_equal. apply sumn_ext. intros k Hk.
    destruct (Rd j z Ez) as (aj & _ & _ & _ & (_ & Nd)). rewrite (Nd k Hk). f_equal.
    assert (TA := TD_all N rc P' s HN xs L (all_functions _ _ _ _ _ Rd) Sy u j k Hh). rewrite L in Hj. specialize (TA Hj). cbv beta in TA. rewrite (nth_error_nth _ _ _ Ez) in TA. rewrite (TA Hk).
    rewrite <- (tuned_el_of N P P' _ Ef). unfold u. rewrite (TD_pull N rc P' s xs Rd L a w j z k Ez Hk). unfold pull, entry. now rewrite Qa, Qs.
Qed.

Theorem total_derivative q e p xs0 : calculateSymmetryFunctions (p_weight P) elems (s_atoms s') = Some xs0 -> one_output N P -> regular_networks P rc s ->
  (e < N)%nat -> (p < numConnections (p_net P e))%nat -> quantity_of s q -> force_complete P rc s q ->
  parameter_derivative (plain_evaluation N nsort fuel rc s) P q e p (total xs0 (D N P q xs0) e p).
Proof.
  intros E0 Hone Hreg He Hp Hq Hfc w Pt f Hw Ht Hv.
  destruct functions_stage as (xs1 & E1 & L1 & Pr). rewrite E0 in E1. injection E1 as <-.
  apply (is_derive_ext (fun t => sumn (length xs0) (fun i => nthR xs0 (share N P q (Pt t) i) i))).
  { intros t. symmetry. apply (tuned_value_in q e p t (Pt t)); auto. }
  apply (shares_derive N rc P s HP HN Hs Hone Hreg); auto. destruct q; cbn; auto. apply Hq.
Qed.
End Value.
