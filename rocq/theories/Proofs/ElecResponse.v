(** Response of the charges to electronegativities, hardnesses and positions. *)
From Coq Require Import Reals ZArith List Bool Arith Lia Lra Sorted FunctionalExtensionality.
From Coquelicot Require Import Coquelicot.
From Coq Require Import List.
From Verif Require Import Base.Vec3 Base.Loop Base.SumR Base.Erf Base.Linear Model.CoreFunction Model.CompactScreening Model.Geometry Model.NeighborList
  Model.Kspace Model.SymFunctions Model.Electrostatics Spec.CompactSpec Spec.ElecSpec Proofs.CompactProofs Proofs.SymTerms Proofs.NeighborProofs Proofs.ElecCore Proofs.ElecFill
  Proofs.ElecQeq Proofs.ElecPeriodic Proofs.ElecLoops Proofs.ElecDerive Proofs.ElecForces Proofs.SetupProofs Proofs.ElecIsolated Proofs.ElecPerForces.
Import ListNotations.
Local Open Scope R_scope.

Lemma column N solve (A : matrix) src rhs : exact_solver solve -> nonsingular (N + 1) (border N A) ->
  (forall j, (j < N)%nat -> rhs j = - src j) -> rhs N = 0 ->
  response_of N (border N A) src (solve (N + 1)%nat (border N A) rhs).
Proof.
  intros Hsol Hns H1 H2. assert (S := Hsol _ _ rhs Hns). set (y := solve _ _ _) in *. split.
  - rewrite <- (mv_border_last N A). rewrite (S N) by lia. auto.
  - exists (- y N). intros k Hk. assert (E := S k ltac:(lia)). unfold mv in E. rewrite Nat.add_1_r, sumn_S, H1 in E by auto.
    assert (B : border N A k N = 1). { unfold border. destruct (Nat.eqb_spec k N); [lia|]. rewrite Nat.eqb_refl. reflexivity. }
    rewrite B in E. lra.
Qed.
Section Path.
Variables (N : nat) (solve : solver) (A : R -> matrix) (dA : matrix) (chi : R -> nat -> R) (chi' : nat -> R) (qref : R).
Hypothesis Hsol : exact_solver solve.
Hypothesis Hns : nonsingular (N + 1) (border N (A 0)).
Hypothesis HdA : forall i j, (i < N)%nat -> (j < N)%nat -> is_derive (fun t => A t i j) 0 (dA i j).
Hypothesis Hchi : forall i, (i < N)%nat -> is_derive (fun t => chi t i) 0 (chi' i).
Let Q t := solve (N + 1)%nat (border N (A t)) (fun i => if Nat.eqb i N then qref else - chi t i).
Lemma path_response rhs : (forall j, (j < N)%nat -> rhs j = - chi' j - sumn N (fun k => dA j k * Q 0 k)) -> rhs N = 0 ->
  forall i, (i < N)%nat -> is_derive (fun t => Q t i) 0 (solve (N + 1)%nat (border N (A 0)) rhs i).
Proof.
  intros H1 H2 i Hi. apply (response N solve A dA chi chi' qref Hsol Hns HdA Hchi (solve (N + 1)%nat (border N (A 0)) rhs)); [|lia].
  intros k Hk. rewrite (Hsol _ _ rhs Hns k Hk). unfold response_rhs. destruct (Nat.ltb_spec k N).
  - now apply H1.
  - replace k with N by lia. auto.
Qed.
End Path.

(** ** Electronegativities *)
Lemma mapi_from_nth {A B} (f : nat -> A -> B) l d d' : forall i, (i < length l)%nat -> nth i (mapi f l) d = f i (nth i l d').
Proof.
  intros i Hi. erewrite nth_error_nth; [reflexivity|]. rewrite nth_error_mapi, (nth_error_nth' _ d' Hi). reflexivity.
Qed.
Lemma with_chi_num chi s : cnum (with_chi chi s) = cnum s.
Proof. unfold cnum, with_chi; simpl. apply mapi_length. Qed.
Lemma with_chi_cna chi s : cna (with_chi chi s) = cna s.
Proof.
  apply functional_extensionality. intros i. unfold cna, cat, with_chi. cbn [cs_atoms].
  destruct (Nat.lt_ge_cases i (length (cs_atoms s))) as [H|H].
  - rewrite (mapi_from_nth _ _ _ no_catom i H). reflexivity.
  - rewrite !nth_overflow; auto. now rewrite mapi_length.
Qed.
Lemma with_chi_chi chi s i : (i < cnum s)%nat -> c_chi (cat (with_chi chi s) i) = chi i.
Proof. intros Hi. unfold cat, with_chi. cbn [cs_atoms]. now rewrite (mapi_from_nth _ _ _ no_catom i Hi). Qed.
Lemma with_chi_cel chi s : cel (with_chi chi s) = cel s.
Proof. unfold cel. now rewrite with_chi_cna. Qed.
Lemma with_chi_cpos chi s : cpos (with_chi chi s) = cpos s.
Proof. unfold cpos. now rewrite with_chi_cna. Qed.
Lemma with_chi_numN chi s : map (fun a => a_numN (c_atom a)) (cs_atoms (with_chi chi s)) = map (fun a => a_numN (c_atom a)) (cs_atoms s).
Proof.
  assert (G : forall (l l' : list nat), (forall i, nth_error l i = nth_error l' i) -> l = l').
  { induction l as [|x l IH]; intros [|y l'] H; auto; try (specialize (H 0%nat); discriminate). pose proof (H 0%nat) as H0. injection H0 as ->. f_equal. apply IH. intros i. exact (H (S i)). }
  apply G. intros i. unfold with_chi; cbn [cs_atoms]. rewrite !nth_error_map, nth_error_mapi.
  destruct (nth_error (cs_atoms s) i); reflexivity.
Qed.
Lemma with_chi_isolated P chi s : fill_isolated P (with_chi chi s) = fill_isolated P s.
Proof. unfold fill_isolated. now rewrite with_chi_num, with_chi_cel, with_chi_cpos. Qed.
Lemma with_chi_periodic P chi s W g b : fill_periodic P (with_chi chi s) W g b = fill_periodic P s W g b.
Proof.
  unfold fill_periodic, fill_row, fill_real, fill_reciprocal. now rewrite with_chi_num, with_chi_cel, with_chi_cpos, with_chi_cna.
Qed.
Lemma with_chi_screening P chi s A Q : calculateScreeningEnergy P (with_chi chi s) A Q = calculateScreeningEnergy P s A Q.
Proof. unfold calculateScreeningEnergy, screening_pair. now rewrite with_chi_num, with_chi_cel, with_chi_cpos, with_chi_cna. Qed.
Lemma ofold_some {A S T} (f : A -> S -> option S) (g : A -> T -> option T) :
  (forall a s s' t, f a s = Some s' -> exists t', g a t = Some t') -> forall l s s' t, ofold f l s = Some s' -> exists t', ofold g l t = Some t'.
Proof.
  intros H. induction l as [|a l IH]; intros s s' t E; simpl in *; [eauto|].
  destruct (f a s) as [s1|] eqn:E1; [|discriminate]. destruct (H a s s1 t E1) as (t1 & ->). eauto.
Qed.
Lemma screening_some P s A Q E A' Q' : calculateScreeningEnergy P s A Q = Some E -> exists E', calculateScreeningEnergy P s A' Q' = Some E'.
Proof.
  unfold calculateScreeningEnergy. destruct (cs_periodic s); [|eauto]. apply ofold_some. intros i x x' y. cbv zeta. apply ofold_some.
  intros k z z' w. unfold screening_pair. destruct (nth_error _ _); [|discriminate]. destruct (tag_index _ _); [|discriminate]. destruct (Nat.ltb _ _); eauto.
Qed.
Lemma with_chi_run solve fuel W P s r : calculateElectrostaticEnergy solve fuel W P s = Some r ->
  exists A, er_A r = border (cnum s) A /\
  forall chi, charges solve fuel W P (with_chi chi s) = solve (cnum s + 1)%nat (border (cnum s) A) (fun i => if Nat.eqb i (cnum s) then cs_chargeRef s else - c_chi (cat (with_chi chi s) i)).
Proof.
  intros E.
  assert (G2 : forall A b g, finish solve P s A b g = Some r -> er_A r = border (cnum s) A /\
     forall chi, match finish solve P (with_chi chi s) A b g with Some r => er_Q r | None => fun _ => 0 end
       = solve (cnum s + 1)%nat (border (cnum s) A) (fun i => if Nat.eqb i (cnum s) then cs_chargeRef s else - c_chi (cat (with_chi chi s) i))).
  { intros A b g F. unfold finish in *. destruct (calculateScreeningEnergy P s _ _) eqn:Es; [|discriminate]. injection F as <-. split; auto.
    intros chi. rewrite with_chi_screening, with_chi_num.
    match goal with |- context [calculateScreeningEnergy P s ?A' ?Q'] => destruct (screening_some P s _ _ _ A' Q' Es) as (E' & ->) end. reflexivity. }
  unfold charges, calculateElectrostaticEnergy in *. cbn [cs_periodic cs_sorted cs_box with_chi].
  destruct (cs_periodic s).
  - destruct (cs_sorted s); [|discriminate]. destruct (grid_setup _ _ _ _ _) as [g|]; [|discriminate].
    destruct (fill_periodic P s W (kg_kvectors g) (buf_reset (map (fun a => a_numN (c_atom a)) (cs_atoms s)) 2)) as [[A b]|] eqn:Ef; [|discriminate].
    exists A. destruct (G2 _ _ _ E) as [E1 E2]. split; auto. intros chi. rewrite <- E2. rewrite with_chi_periodic.
    change (mapi (fun i a => mkCAtom (c_atom a) (chi i)) (cs_atoms s)) with (cs_atoms (with_chi chi s)). rewrite with_chi_numN, Ef. reflexivity.
  - exists (fill_isolated P s). destruct (G2 _ _ _ E) as [E1 E2]. split; auto. intros chi. rewrite <- E2. rewrite with_chi_isolated.
    change (mapi (fun i a => mkCAtom (c_atom a) (chi i)) (cs_atoms s)) with (cs_atoms (with_chi chi s)). now rewrite with_chi_numN.
Qed.
Theorem chi_response : forall solve fuel W P s r, exact_solver solve -> calculateElectrostaticEnergy solve fuel W P s = Some r ->
  nonsingular (cnum s + 1) (er_A r) -> forall i, (i < cnum s)%nat ->
  response_of (cnum s) (er_A r) (fun k => if Nat.eqb k i then 1 else 0) (calculateDQdChi solve s (er_A r) i) /\
  forall j, (j < cnum s)%nat -> is_derive (fun t => charges solve fuel W P (shift_chi s i t) j) 0 (calculateDQdChi solve s (er_A r) i j).
Proof.
  intros solve fuel W P s r Hsol E Hns i Hi. destruct (with_chi_run solve fuel W P s r E) as (A & EA & HQ). rewrite EA in *.
  unfold calculateDQdChi. split.
  - apply column; auto.
    + intros j Hj. destruct (Nat.eqb j i); lra.
    + destruct (Nat.eqb_spec (cnum s) i); [lia|auto].
  - intros j Hj.
    assert (P1 := path_response (cnum s) solve (fun _ => A) (fun _ _ => 0) (fun t k => c_chi (cat (shift_chi s i t) k)) (fun k => if Nat.eqb k i then 1 else 0)
       (cs_chargeRef s) Hsol Hns).
    refine (is_derive_ext _ _ _ _ _ (P1 _ _ (fun j => if Nat.eqb j i then - (1) else 0) _ _ j Hj)).
    + intros t. cbv beta. unfold shift_chi. now rewrite HQ.
    + intros; apply is_derive_const'.
    + intros k Hk. apply (is_derive_ext (fun t => chi_of s k + (if Nat.eqb k i then t else 0))).
      { intros t. unfold shift_chi. now rewrite with_chi_chi. }
      destruct (Nat.eqb k i).
      * eapply is_derive_eq. apply (is_derive_plus (fun _ => chi_of s k) (fun t => t)). apply is_derive_const'. apply (is_derive_id 0). unfold plus, one; simpl. ring.
      * apply is_derive_const'.
    + intros k Hk. rewrite sumn_zero by (intros; ring). destruct (Nat.eqb k i); ring.
    + destruct (Nat.eqb_spec (cnum s) i); [lia|auto].
Qed.

(** ** Hardnesses *)
Lemma hardness_derive hardness e k : is_derive (fun t => shift_hardness hardness e t k) 0 (if Nat.eqb k e then 1 else 0).
Proof.
  unfold shift_hardness. destruct (Nat.eqb k e).
  - eapply is_derive_eq. apply (is_derive_plus (fun _ => hardness k) (fun t => t)). apply is_derive_const'. apply (is_derive_id 0). unfold plus, one; simpl. ring.
  - apply is_derive_const'.
Qed.
Lemma shift_zero hardness e : shift_hardness hardness e 0 = hardness.
Proof. apply functional_extensionality. intros k. unfold shift_hardness. destruct (Nat.eqb k e); ring. Qed.
Section Hardness.
Variables (hardness sigma : nat -> R) (fs : screening_function) (eps : R) (solve : solver) (s : cstruct) (e : nat).
Let N := cnum s.
Let P t := element_parameters (shift_hardness hardness e t) sigma fs eps.
Variables (A : R -> matrix) (U : nat -> nat -> R) (q : nat -> R).
Hypothesis Hsol : exact_solver solve.
Hypothesis HA : forall t i j, (i < N)%nat -> (j < N)%nat -> A t i j = (if Nat.eqb i j then J_of (shift_hardness hardness e t) s i else 0) + U i j.
Hypothesis Hns : nonsingular (N + 1) (border N (A 0)).
Let Q t := solve (N + 1)%nat (border N (A t)) (fun i => if Nat.eqb i N then cs_chargeRef s else - c_chi (cat s i)).
Lemma J_response : let y := calculateDQdJ solve s (border N (A 0)) (Q 0) e in
  response_of N (border N (A 0)) (fun k => if Nat.eqb (cel s k) e then Q 0 k else 0) y /\
  forall j, (j < N)%nat -> is_derive (fun t => Q t j) 0 (y j).
Proof.
  cbv zeta. unfold calculateDQdJ. fold N. split.
  - apply column; auto.
    + intros j Hj. destruct (Nat.ltb_spec j N); [|lia]. rewrite (Nat.eqb_sym e). destruct (Nat.eqb (cel s j) e); ring.
    + now rewrite Nat.ltb_irrefl.
  - intros j Hj. apply (path_response N solve A (fun i j => if Nat.eqb i j then (if Nat.eqb (cel s i) e then 1 else 0) else 0) (fun _ i => c_chi (cat s i)) (fun _ => 0) (cs_chargeRef s)); auto.
    + intros i k Hi Hk. apply (is_derive_ext (fun t => (if Nat.eqb i k then J_of (shift_hardness hardness e t) s i else 0) + U i k)). { intros t. symmetry. now apply HA. }
      eapply is_derive_eq. apply (is_derive_plus (fun t => if Nat.eqb i k then J_of (shift_hardness hardness e t) s i else 0) (fun _ => U i k)).
      2: apply is_derive_const'. 2: unfold plus; simpl; apply Rplus_0_r.
      destruct (Nat.eqb i k); [|apply is_derive_const']. apply hardness_derive.
    + intros; apply is_derive_const'.
    + intros k Hk. destruct (Nat.ltb_spec k N); [|lia]. rewrite (sumn_single N _ k Hk).
      * rewrite Nat.eqb_refl, (Nat.eqb_sym e). unfold Q. destruct (Nat.eqb (cel s k) e); ring.
      * intros i Hi Hne. destruct (Nat.eqb_spec k i); [congruence|ring].
    + now rewrite Nat.ltb_irrefl.
Qed.
End Hardness.
Theorem J_response_isolated : forall solve hardness sigma fs eps s fuel W, exact_solver solve -> 0 < eps -> (forall e, 0 < sigma e) ->
  cs_periodic s = false ->
  forall r, calculateElectrostaticEnergy solve fuel W (element_parameters hardness sigma fs eps) s = Some r -> nonsingular (cnum s + 1) (er_A r) -> forall e,
  response_of (cnum s) (er_A r) (fun k => if Nat.eqb (cel s k) e then er_Q r k else 0) (calculateDQdJ solve s (er_A r) (er_Q r) e) /\
  forall j, (j < cnum s)%nat ->
    is_derive (fun t => charges solve fuel W (element_parameters (shift_hardness hardness e t) sigma fs eps) s j) 0 (calculateDQdJ solve s (er_A r) (er_Q r) e j).
Proof.
  intros solve hardness sigma fs eps s fuel W Hsol He Hsg Hper r E Hns e.
  assert (R : forall t, exists r', calculateElectrostaticEnergy solve fuel W (element_parameters (shift_hardness hardness e t) sigma fs eps) s = Some r' /\
     er_A r' = border (cnum s) (fill_isolated (element_parameters (shift_hardness hardness e t) sigma fs eps) s) /\
     er_Q r' = solve (cnum s + 1)%nat (border (cnum s) (fill_isolated (element_parameters (shift_hardness hardness e t) sigma fs eps) s)) (fun i => if Nat.eqb i (cnum s) then cs_chargeRef s else - c_chi (cat s i))).
  { intros t. destruct (isolated_run (shift_hardness hardness e t) sigma fs eps He Hsg solve fuel W s Hper) as (r' & H1 & H2 & H3 & _). exists r'. auto. }
  destruct (R 0) as (r0 & H1 & H2 & H3). rewrite shift_zero in H1. rewrite E in H1. injection H1 as <-.
  rewrite H2, H3. rewrite H2 in Hns.
  destruct (J_response hardness solve s e (fun t => fill_isolated (element_parameters (shift_hardness hardness e t) sigma fs eps) s) (isolated_U sigma eps s) Hsol) as [J1 J2]; auto.
  { intros t i j Hi Hj. now apply fill_isolated_U. }
  split; auto. intros j Hj. refine (is_derive_ext _ _ _ _ _ (J2 j Hj)). intros t. cbv beta. unfold charges. destruct (R t) as (r' & -> & _ & ->). auto.
Qed.
Theorem J_response_periodic : forall solve hardness sigma fs eps s fuel W, exact_solver solve -> 0 < eps -> (forall e, 0 < sigma e) ->
  cs_periodic s = true -> cs_sorted s = true -> neighbors_valid s -> counts_valid s ->
  forall r, calculateElectrostaticEnergy solve fuel W (element_parameters hardness sigma fs eps) s = Some r -> nonsingular (cnum s + 1) (er_A r) -> forall e,
  response_of (cnum s) (er_A r) (fun k => if Nat.eqb (cel s k) e then er_Q r k else 0) (calculateDQdJ solve s (er_A r) (er_Q r) e) /\
  forall j, (j < cnum s)%nat ->
    is_derive (fun t => charges solve fuel W (element_parameters (shift_hardness hardness e t) sigma fs eps) s j) 0 (calculateDQdJ solve s (er_A r) (er_Q r) e j).
Proof.
  intros solve hardness sigma fs eps s fuel W Hsol He Hsg Hper Hsrt Hnb Hct r E Hns e.
  assert (G : exists g, grid_setup fuel (cs_box s) (ew_eta W) (ew_kCut W) grid_init = Some g).
  { unfold calculateElectrostaticEnergy in E. rewrite Hper, Hsrt in E. destruct (grid_setup _ _ _ _ _); [eauto|discriminate]. }
  destruct G as (g & Hg).
  assert (R : forall t, exists r', calculateElectrostaticEnergy solve fuel W (element_parameters (shift_hardness hardness e t) sigma fs eps) s = Some r' /\
     er_A r' = border (cnum s) (per_matrix (shift_hardness hardness e t) sigma fs eps W g s) /\
     er_Q r' = solve (cnum s + 1)%nat (border (cnum s) (per_matrix (shift_hardness hardness e t) sigma fs eps W g s)) (fun i => if Nat.eqb i (cnum s) then cs_chargeRef s else - c_chi (cat s i)) /\
     forall i j, (i < cnum s)%nat -> (j < cnum s)%nat -> per_matrix (shift_hardness hardness e t) sigma fs eps W g s i j = (if Nat.eqb i j then J_of (shift_hardness hardness e t) s i else 0) + perU (shift_hardness hardness e t) sigma fs eps W g s i j).
  { intros t. destruct (periodic_run (shift_hardness hardness e t) sigma fs eps He Hsg solve fuel W g s Hper Hsrt Hnb Hct Hg) as (HA & r' & H1 & H2 & H3 & _). exists r'. auto. }
  destruct (R 0) as (r0 & H1 & H2 & H3 & _). rewrite shift_zero in H1. rewrite E in H1. injection H1 as <-.
  rewrite H2, H3. rewrite H2 in Hns.
  destruct (J_response hardness solve s e (fun t => per_matrix (shift_hardness hardness e t) sigma fs eps W g s) (perU hardness sigma fs eps W g s) Hsol) as [J1 J2]; auto.
  { intros t i j Hi Hj. destruct (R t) as (_ & _ & _ & _ & ->); auto. f_equal. unfold perU, per_val. destruct (Nat.eqb_spec i j) as [Eij|Hne].
    - rewrite <- Eij. rewrite Nat.min_id, Nat.max_id, Nat.eqb_refl. unfold diag_val, J_of. simpl ep_hardness. unfold real_val, recip_val. simpl. ring.
    - destruct (Nat.eqb_spec (Nat.min i j) (Nat.max i j)); [lia|]. reflexivity. }
  split; auto. intros j Hj. refine (is_derive_ext _ _ _ _ _ (J2 j Hj)). intros t. cbv beta. unfold charges. destruct (R t) as (r' & -> & _ & -> & _). auto.
Qed.

(** ** Positions *)
Lemma rowrate_one N i c D b : (i < N)%nat -> (c < 3)%nat -> rowrate N (one_atom i c) D b = comp (D i b) c.
Proof.
  intros Hi Hc. unfold rowrate. rewrite (sumn_single N _ i Hi).
  - unfold one_atom. rewrite Nat.eqb_refl. assert (C : c = 0%nat \/ c = 1%nat \/ c = 2%nat) by lia. destruct C as [-> |[-> | ->]]; unfold dot, unit_vector, comp; simpl; ring.
  - intros a Ha Hne. unfold one_atom. destruct (Nat.eqb_spec a i); [congruence|]. unfold dot, vzero; simpl. ring.
Qed.
Theorem position_response_isolated : forall solve hardness sigma fs eps s fuel W, exact_solver solve -> 0 < eps -> (forall e, 0 < sigma e) ->
  cs_periodic s = false -> separated s -> distances_valid s ->
  forall r D d, chargeEquilibration solve fuel W (element_parameters hardness sigma fs eps) s = Some (r, D, d) -> nonsingular (cnum s + 1) (er_A r) ->
  forall i c, (i < cnum s)%nat -> (c < 3)%nat -> forall chi dChidr, (forall k, (k < cnum s)%nat -> chi 0 k = chi_of s k) ->
  (forall k, (k < cnum s)%nat -> is_derive (fun t => chi t k) 0 (comp (dChidr k i) c)) ->
  sumn (cnum s) (calculateDQdr solve s (er_A r) D dChidr i c) = 0 /\
  forall j, (j < cnum s)%nat ->
    is_derive (fun t => charges solve fuel W (element_parameters hardness sigma fs eps) (moved (one_atom i c) t (chi t) s) j) 0
      (calculateDQdr solve s (er_A r) D dChidr i c j).
Proof.
  intros solve hardness sigma fs eps s fuel W Hsol He Hsg Hper Hsep Hd r D d E Hns i c Hi Hc chi dChidr H0 Hchi.
  set (P := element_parameters hardness sigma fs eps) in *. set (v := one_atom i c).
  unfold chargeEquilibration in E. destruct (isolated_run hardness sigma fs eps He Hsg solve fuel W s Hper) as (r' & Er & EA & EQ & _). fold P in Er, EA, EQ. rewrite Er in E.
  unfold calculateDAdrQ in E. rewrite Hper in E. destruct (calculateElectrostaticEnergyDerivatives _ _ _ _ _); [|discriminate]. injection E as <- <- _.
  assert (M0 : moved v 0 (chi 0) s = s) by (apply moved_zero; auto).
  assert (Q0 : er_Q r' = charges solve fuel W P (moved v 0 (chi 0) s)). { rewrite M0. unfold charges. now rewrite Er. }
  assert (QC := fun t => iso_charges hardness sigma fs eps He Hsg solve fuel W s v chi Hper t). cbv zeta in QC. fold P in QC.
  rewrite EA in *. unfold calculateDQdr. split.
  - apply (column (cnum s) solve (fill_isolated P s) (fun j => comp (dChidr j i) c + comp (calculateDAdrQ_isolated P s (er_Q r') (fun _ _ => vzero) i j) c)); auto.
    + intros j Hj. destruct (Nat.ltb_spec j (cnum s)); [ring|lia].
    + now rewrite Nat.ltb_irrefl.
  - intros j Hj.
    assert (PR := path_response (cnum s) solve (fun t => fill_isolated P (moved v t (chi t) s)) (iso_dU hardness sigma fs eps s v)
       (fun t k => c_chi (cat (moved v t (chi t) s) k)) (fun k => comp (dChidr k i) c) (cs_chargeRef s) Hsol). cbv beta in PR. rewrite M0 in PR.
    refine (is_derive_ext _ _ _ _ _ (PR Hns _ _ _ _ _ j Hj)).
    + intros t. now rewrite QC.
    + intros a b Ha Hb. apply (is_derive_ext (fun t => (if Nat.eqb a b then J_of hardness s a else 0) + isoU sigma eps s v chi t a b)).
      { intros t. unfold P. rewrite fill_isolated_U by (now rewrite ?moved_num). unfold J_of, isoU. now rewrite moved_cel. }
      eapply is_derive_eq. apply (is_derive_plus (fun _ => if Nat.eqb a b then J_of hardness s a else 0) (fun t => isoU sigma eps s v chi t a b)). apply is_derive_const'.
      apply (isoU_derive hardness sigma fs eps); auto. unfold plus; cbn -[iso_dU]. apply Rplus_0_l.
    + intros k Hk. apply (is_derive_ext (fun t => chi t k)); auto. intros t. now rewrite moved_chi.
    + intros k Hk. destruct (Nat.ltb_spec k (cnum s)); [|lia]. rewrite <- EQ.
      assert (RR : comp (calculateDAdrQ_isolated P s (er_Q r') (fun _ _ => vzero) i k) c = sumn (cnum s) (fun b => iso_dU hardness sigma fs eps s v k b * er_Q r' b)).
      { rewrite <- (rowrate_one (cnum s) i c _ k Hi Hc). fold v. rewrite dAdrQ_isolated_rate by (auto; intros; apply iso_rate_sym). apply sumn_ext. intros b Hb. unfold iso_dU.
        rewrite (Nat.eqb_sym k b). fold P. destruct (Nat.eqb_spec b k); unfold ind; cbn [negb]; ring. }
      rewrite RR. ring.
    + now rewrite Nat.ltb_irrefl.
Qed.

Theorem position_response_periodic : forall solve hardness sigma fs eps s fuel W, exact_solver solve -> 0 < eps -> (forall e, 0 < sigma e) ->
  cs_periodic s = true -> cs_sorted s = true -> neighbors_valid s -> counts_valid s -> distances_valid s -> 0 < ew_eta W ->
  (forall i n, (i < cnum s)%nat -> In n (a_nbs (cna s i)) -> nb_dr n <> vzero) ->
  forall r D d, chargeEquilibration solve fuel W (element_parameters hardness sigma fs eps) s = Some (r, D, d) -> nonsingular (cnum s + 1) (er_A r) ->
  forall i c, (i < cnum s)%nat -> (c < 3)%nat -> forall chi dChidr, (forall k, (k < cnum s)%nat -> chi 0 k = chi_of s k) ->
  (forall k, (k < cnum s)%nat -> is_derive (fun t => chi t k) 0 (comp (dChidr k i) c)) ->
  sumn (cnum s) (calculateDQdr solve s (er_A r) D dChidr i c) = 0 /\
  forall j, (j < cnum s)%nat ->
    is_derive (fun t => charges solve fuel W (element_parameters hardness sigma fs eps) (moved (one_atom i c) t (chi t) s) j) 0
      (calculateDQdr solve s (er_A r) D dChidr i c j).
Proof.
  intros solve hardness sigma fs eps s fuel W Hsol He Hsg Hper Hsrt Hnb Hct Hd Heta Hdr r D d E Hns i c Hi Hc chi dChidr H0 Hchi.
  set (P := element_parameters hardness sigma fs eps) in *. set (v := one_atom i c).
  unfold chargeEquilibration in E. destruct (calculateElectrostaticEnergy solve fuel W P s) as [r1|] eqn:E1; [|discriminate].
  assert (G : exists g, grid_setup fuel (cs_box s) (ew_eta W) (ew_kCut W) grid_init = Some g).
  { unfold calculateElectrostaticEnergy in E1. rewrite Hper, Hsrt in E1. destruct (grid_setup _ _ _ _ _); [eauto|discriminate]. }
  destruct G as (g & Hg).
  destruct (periodic_run hardness sigma fs eps He Hsg solve fuel W g s Hper Hsrt Hnb Hct Hg) as (HA & r' & Er & EA & EQ & Eg & Hb & _).
  fold P in Er, EA, EQ, Hb. rewrite E1 in Er. injection Er as ->.
  destruct (periodic_dAdrQ_rate hardness sigma fs eps W g s v Hnb Hct (er_Q r') (er_buf r') Hb) as (D' & b' & ED & HDr). fold P in ED.
  unfold calculateDAdrQ in E. rewrite Hper, Eg, ED in E. destruct (calculateElectrostaticEnergyDerivatives _ _ _ _ _); [|discriminate]. injection E as <- <- _.
  assert (M0 : moved v 0 (chi 0) s = s) by (apply moved_zero; auto).
  assert (QC := fun t => per_charges hardness sigma fs eps He Hsg solve fuel W g s v chi Hper Hsrt Hnb Hct Hg t). cbv beta in QC. fold P in QC.
  rewrite EA in *. unfold calculateDQdr. split.
  - apply (column (cnum s) solve (per_matrix hardness sigma fs eps W g s) (fun j => comp (dChidr j i) c + comp (D' i j) c)); auto.
    + intros j Hj. destruct (Nat.ltb_spec j (cnum s)); [ring|lia].
    + now rewrite Nat.ltb_irrefl.
  - intros j Hj.
    assert (PR := path_response (cnum s) solve (fun t => per_matrix hardness sigma fs eps W g (moved v t (chi t) s)) (per_dU hardness sigma fs eps W g s v)
       (fun t k => c_chi (cat (moved v t (chi t) s) k)) (fun k => comp (dChidr k i) c) (cs_chargeRef s) Hsol). cbv beta in PR. rewrite M0 in PR.
    refine (is_derive_ext _ _ _ _ _ (PR Hns _ _ _ _ _ j Hj)).
    + intros t. now rewrite QC.
    + intros a b Ha Hb'. apply (is_derive_ext (fun t => (if Nat.eqb a b then J_of hardness s a else 0) + perU hardness sigma fs eps W g (moved v t (chi t) s) a b)).
      { intros t. symmetry. apply (per_matrix_entry hardness sigma fs eps He Hsg solve fuel W g s v chi Hper Hsrt Hnb Hct Hg t a b Ha Hb'). }
      eapply is_derive_eq. apply (is_derive_plus (fun _ => if Nat.eqb a b then J_of hardness s a else 0) (fun t => perU hardness sigma fs eps W g (moved v t (chi t) s) a b)). apply is_derive_const'.
      apply (perU_derive hardness sigma fs eps He Hsg W g s v chi Hd Hdr Heta a b Ha Hb'). unfold plus; cbn -[per_dU]. apply Rplus_0_l.
    + intros k Hk. apply (is_derive_ext (fun t => chi t k)); auto. intros t. now rewrite moved_chi.
    + intros k Hk. destruct (Nat.ltb_spec k (cnum s)); [|lia]. rewrite <- EQ.
      rewrite <- (rowrate_one (cnum s) i c D' k Hi Hc). fold v. rewrite HDr by auto. ring.
    + now rewrite Nat.ltb_irrefl.
Qed.
