(** Forces from Lagrange multipliers: the part common to isolated and periodic structures. *)
From Coq Require Import Reals ZArith List Bool Arith Lia Lra.
From Coquelicot Require Import Coquelicot.
From Coq Require Import List.
From Verif Require Import Base.Vec3 Base.Loop Base.SumR Base.Erf Base.Linear Model.CoreFunction Model.CompactScreening Model.Geometry Model.NeighborList
  Model.Kspace Model.SymFunctions Model.Electrostatics Spec.CompactSpec Spec.ElecSpec Proofs.CompactProofs Proofs.SymTerms Proofs.ElecCore Proofs.ElecFill
  Proofs.ElecLoops Proofs.ElecDerive.
Import ListNotations.
Local Open Scope R_scope.

(** A correction q_i q_j c(t) with c'(0) = d. *)
Record corr := mkCorr { co_j : nat; co_c : R -> R; co_d : R }.
Section Energy.
Variables (N : nat) (U : R -> nat -> nat -> R) (dU : nat -> nat -> R) (self : nat -> R) (cs : nat -> list corr).
Hypothesis HU : forall i j, (i < N)%nat -> (j < N)%nat -> is_derive (fun t => U t i j) 0 (dU i j).
Hypothesis HUs : forall i j, (i < N)%nat -> (j < N)%nat -> U 0 i j = U 0 j i.
Hypothesis Hcs : forall i x, (i < N)%nat -> In x (cs i) -> (co_j x < N)%nat /\ is_derive (co_c x) 0 (co_d x).
Definition energy (t : R) (q : nat -> R) : R :=
  1 / 2 * sumn N (fun i => sumn N (fun j => q i * U t i j * q j)) - sumn N (fun i => 1 / 2 * (self i * q i * q i))
  + sumn N (fun i => rsum (map (fun x => q i * q (co_j x) * co_c x t) (cs i))).
Lemma energy_path q q' : (forall i, (i < N)%nat -> is_derive (fun t => q t i) 0 (q' i)) ->
  is_derive (fun t => energy t (q t)) 0
   (sumn N (fun i => 1 / 2 * (q 0 i * sumn N (fun j => dU i j * q 0 j))
      + q' i * (sumn N (fun j => U 0 i j * q 0 j) - self i * q 0 i)
      + rsum (map (fun x => q 0 i * q 0 (co_j x) * co_d x + (q' i * q 0 (co_j x) + q 0 i * q' (co_j x)) * co_c x 0) (cs i)))).
Proof.
  intros Hq. unfold energy. eapply is_derive_eq.
  - apply (is_derive_plus (fun t => 1 / 2 * sumn N (fun i => sumn N (fun j => q t i * U t i j * q t j)) - sumn N (fun i => 1 / 2 * (self i * q t i * q t i)))
      (fun t => sumn N (fun i => rsum (map (fun x => q t i * q t (co_j x) * co_c x t) (cs i))))).
    + apply (is_derive_minus (fun t => 1 / 2 * sumn N (fun i => sumn N (fun j => q t i * U t i j * q t j))) (fun t => sumn N (fun i => 1 / 2 * (self i * q t i * q t i)))).
      * apply (is_derive_scal (fun t => sumn N (fun i => sumn N (fun j => q t i * U t i j * q t j))) 0 (1 / 2)).
        apply (is_derive_sumn N (fun i t => sumn N (fun j => q t i * U t i j * q t j))
          (fun i => sumn N (fun j => (q' i * U 0 i j + q 0 i * dU i j) * q 0 j + q 0 i * U 0 i j * q' j))).
        intros i Hi. apply (is_derive_sumn N (fun j t => q t i * U t i j * q t j)). intros j Hj.
        apply (is_derive_prod (fun t => q t i * U t i j) (fun t => q t j)); auto. apply (is_derive_prod (fun t => q t i) (fun t => U t i j)); auto.
      * apply (is_derive_sumn N (fun i t => 1 / 2 * (self i * q t i * q t i)) (fun i => 1 / 2 * ((self i * q' i) * q 0 i + self i * q 0 i * q' i))).
        intros i Hi. apply (is_derive_scal (fun t => self i * q t i * q t i) 0 (1 / 2)).
        apply (is_derive_prod (fun t => self i * q t i) (fun t => q t i)); auto. apply (is_derive_scal (fun t => q t i) 0 (self i)). auto.
    + apply (is_derive_sumn N (fun i t => rsum (map (fun x => q t i * q t (co_j x) * co_c x t) (cs i)))
         (fun i => rsum (map (fun x => (q' i * q 0 (co_j x) + q 0 i * q' (co_j x)) * co_c x 0 + q 0 i * q 0 (co_j x) * co_d x) (cs i)))).
      intros i Hi. apply (is_derive_rsum (fun x t => q t i * q t (co_j x) * co_c x t)). intros x Hx. destruct (Hcs i x Hi Hx) as [Hj Hc].
      apply (is_derive_prod (fun t => q t i * q t (co_j x)) (co_c x)); auto. apply (is_derive_prod (fun t => q t i) (fun t => q t (co_j x))); auto.
  - unfold plus, minus, opp, plus; simpl. 
    rewrite !sumn_plus.
    rewrite (sumn_ext N (fun i => rsum (map (fun x => (q' i * q 0 (co_j x) + q 0 i * q' (co_j x)) * co_c x 0 + q 0 i * q 0 (co_j x) * co_d x) (cs i)))
      (fun i => rsum (map (fun x => q 0 i * q 0 (co_j x) * co_d x + (q' i * q 0 (co_j x) + q 0 i * q' (co_j x)) * co_c x 0) (cs i)))).
    2:{ intros i Hi. apply rsum_ext. intros. ring. }
    apply (f_equal (fun z => z + _)).
    rewrite (sumn_ext N (fun i => sumn N (fun j => (q' i * U 0 i j + q 0 i * dU i j) * q 0 j + q 0 i * U 0 i j * q' j))
      (fun i => q' i * sumn N (fun j => U 0 i j * q 0 j) + q 0 i * sumn N (fun j => dU i j * q 0 j) + sumn N (fun j => q 0 i * U 0 i j * q' j))).
    2:{ intros i Hi. rewrite <- !sumn_scal, <- !sumn_plus. apply sumn_ext. intros. ring. }
    rewrite !sumn_plus.
    assert (S : sumn N (fun i => sumn N (fun j => q 0 i * U 0 i j * q' j)) = sumn N (fun i => q' i * sumn N (fun j => U 0 i j * q 0 j))).
    { rewrite sumn_swap. apply sumn_ext. intros j Hj. rewrite <- sumn_scal. apply sumn_ext. intros i Hi. rewrite (HUs i j) by auto. ring. }
    rewrite S.
    rewrite (sumn_ext N (fun i => q' i * (sumn N (fun j => U 0 i j * q 0 j) - self i * q 0 i))
       (fun i => q' i * sumn N (fun j => U 0 i j * q 0 j) - (1 / 2 * (self i * q' i * q 0 i + self i * q 0 i * q' i)))) by (intros; field).
    rewrite sumn_minus. rewrite !sumn_scal. field.
Qed.
End Energy.

(** ** The functional power + charge derivatives of a pair (pE, dQ) *)
Section Functional.
Variables (N : nat) (v : nat -> vec) (y : nat -> R).
Definition phi (st : pd) : R := sumn N (fun a => dot (fst st a) (v a)) + sumn N (fun b => snd st b * y b).
Lemma power_upd pE i x : (i < N)%nat -> sumn N (fun a => dot (upd pE i x a) (v a)) = sumn N (fun a => dot (pE a) (v a)) + dot (vsub x (pE i)) (v i).
Proof.
  intros Hi. apply (sumn_switch N _ _ i); auto.
  - rewrite upd_same, dot_vsub_l. ring.
  - intros a Ha Hne. now rewrite upd_other.
Qed.
Lemma charge_upd (dQ : nat -> R) i x : (i < N)%nat -> sumn N (fun b => upd dQ i x b * y b) = sumn N (fun b => dQ b * y b) + (x - dQ i) * y i.
Proof.
  intros Hi. apply (sumn_switch N _ _ i); auto.
  - rewrite upd_same. ring.
  - intros a Ha Hne. now rewrite upd_other.
Qed.
Lemma phi_pE pE dQ i x : (i < N)%nat -> phi (upd pE i x, dQ) = phi (pE, dQ) + dot (vsub x (pE i)) (v i).
Proof. intros Hi. unfold phi. cbn [fst snd]. rewrite power_upd by auto. ring. Qed.
Lemma phi_dQ pE dQ i x : (i < N)%nat -> phi (pE, upd dQ i x) = phi (pE, dQ) + (x - dQ i) * y i.
Proof. intros Hi. unfold phi. cbn [fst snd]. rewrite charge_upd by auto. ring. Qed.

Lemma loop_gain {X} (m : X -> R) n (f : nat -> X -> X) (g : nat -> R) x : (forall j z, (j < n)%nat -> m (f j z) = m z + g j) ->
  m (for_up n f x) = m x + sumn n g.
Proof. intros H. induction n; simpl; [rewrite sumn_0; ring|]. rewrite H by lia. rewrite IHn by (intros; apply H; lia). rewrite sumn_S. ring. Qed.
Lemma range_gain {X} (m : X -> R) i (f : nat -> X -> X) (g : nat -> R) x : (i < N)%nat -> (forall j z, (i < j < N)%nat -> m (f j z) = m z + g j) ->
  m (for_range (i + 1) N f x) = m x + sumn N (fun j => if Nat.ltb i j then g j else 0).
Proof.
  intros Hi H. pose proof (for_range_inv (fun j0 z => m z = m x + sumn j0 (fun j => if Nat.ltb i j then g j else 0)) (i + 1) N f x) as L.
  apply L; clear L; [lia| |].
  - rewrite sumn_zero; [ring|]. intros j Hj. destruct (Nat.ltb_spec i j); [lia|auto].
  - intros j z Hj E. rewrite H by lia. rewrite E, sumn_S. destruct (Nat.ltb_spec i j); [ring|lia].
Qed.
Variables (P : epar) (s : cstruct) (Q : nat -> R) (A : matrix) (D : vmatrix).
Hypothesis HN : cnum s = N.
Definition own_term (i : nat) : R :=
  if cs_periodic s then A i i - ep_hardness P (cel s i) - 1 / (ep_sigma P (cel s i) * ep_eps P) else 0.
Lemma unscreened_gain i st : (i < N)%nat -> phi (derivatives_unscreened P s Q A D i st) =
  phi st + sumn N (fun j => 1 / 2 * Q j * dot (D i j) (v i) + (if Nat.eqb i j then own_term i * Q i else A i j * Q j) * y i).
Proof.
  intros Hi. unfold derivatives_unscreened. rewrite HN. apply loop_gain. intros j [pE dQ] Hj.
  unfold own_term. destruct (Nat.eqb_spec i j) as [E|Hne]; [destruct (cs_periodic s)|]; rewrite ?phi_dQ, ?phi_pE by auto;
    replace (dot (vsub (vadd (pE i) (smul (1 / 2 * Q j) (D i j))) (pE i)) (v i)) with (1 / 2 * Q j * dot (D i j) (v i)) by (unfold dot, vsub, vadd, smul; simpl; ring);
    ring.
Qed.
Definition cvec (i j ei ej : nat) (dr : vec) (rij : R) : vec :=
  let g := ep_gamma P ei ej in
  vdiv (smul (2 / (sqrt PI * g) * exp (- ((rij / g) * (rij / g))) * (sc_f (ep_fs P) rij - 1)
                       + erf (rij / g) * sc_df (ep_fs P) rij - erf (rij / g) * (sc_f (ep_fs P) rij - 1) / rij)
                      (vdiv (smul (Q i * Q j) dr) (rij * rij))) (ep_eps P).
Lemma correction_gain i j ei ej dr rij st : (i < N)%nat -> (j < N)%nat -> phi (screening_correction P Q i j ei ej dr rij st) =
  phi st + (dot (cvec i j ei ej dr rij) (vsub (v i) (v j))
            + (Q j * y i + Q i * y j) * (erf (rij / ep_gamma P ei ej) * (sc_f (ep_fs P) rij - 1) / rij / ep_eps P)).
Proof.
  intros Hi Hj. destruct st as [pE dQ]. unfold screening_correction. cbv zeta. fold (cvec i j ei ej dr rij).
  set (T := cvec i j ei ej dr rij). set (S := erf (rij / ep_gamma P ei ej) * (sc_f (ep_fs P) rij - 1) / rij / ep_eps P).
  rewrite !phi_dQ by auto. rewrite !phi_pE by auto.
  replace (dot (vsub (vadd (pE i) T) (pE i)) (v i)) with (dot T (v i)) by (unfold dot, vsub, vadd, smul; simpl; ring).
  replace (dot (vsub (vsub (upd pE i (vadd (pE i) T) j) T) (upd pE i (vadd (pE i) T) j)) (v j)) with (- dot T (v j)) by (unfold dot, vsub, vadd, smul; simpl; ring).
  rewrite dot_vsub_r. unfold upd at 1 2. ring.
Qed.
(** All together, given the gain of the corrections of every atom. *)
Lemma derivatives_total (gain : nat -> R) pE dQ :
  (forall i st st', (i < N)%nat -> (if cs_periodic s then derivatives_neighbors P s Q i (a_nbs (cna s i)) st else Some (derivatives_pairs P s Q i st)) = Some st' ->
     phi st' = phi st + gain i) ->
  calculateElectrostaticEnergyDerivatives P s Q A D = Some (pE, dQ) ->
  power N pE v + sumn N (fun b => dQ b * y b) = 
  sumn N (fun i => sumn N (fun j => 1 / 2 * Q j * dot (D i j) (v i)) + y i * (sumn N (fun j => if Nat.eqb i j then own_term i * Q i else A i j * Q j)) + gain i).
Proof.
  intros Hg H. unfold calculateElectrostaticEnergyDerivatives in H. rewrite HN in H.
  change (power N pE v + sumn N (fun b => dQ b * y b)) with (phi (pE, dQ)).
  match goal with |- _ = sumn N ?g => assert (G : forall n st st', (n <= N)%nat -> ofold (fun i st =>
    let st := derivatives_unscreened P s Q A D i st in
    if cs_periodic s then derivatives_neighbors P s Q i (a_nbs (cna s i)) st
    else Some (derivatives_pairs P s Q i st)) (seq 0 n) st = Some st' -> phi st' = phi st + sumn n g) end.
  { induction n; intros st st' Hn E.
    - simpl in E. injection E as <-. rewrite sumn_0. ring.
    - rewrite seq_S, UnitsProofs.ofold_app in E. destruct (ofold _ (seq 0 n) st) as [st1|] eqn:E1; [|discriminate].
      specialize (IHn st st1 ltac:(lia) E1). cbn [ofold Nat.add] in E. cbv zeta in E.
      destruct (if cs_periodic s then derivatives_neighbors P s Q n (a_nbs (cna s n)) (derivatives_unscreened P s Q A D n st1)
                else Some (derivatives_pairs P s Q n (derivatives_unscreened P s Q A D n st1))) as [st2|] eqn:E2; [|discriminate].
      injection E as <-. rewrite (Hg n _ _ ltac:(lia) E2), unscreened_gain by lia. rewrite IHn, sumn_S.
      rewrite (sumn_plus N (fun j => 1 / 2 * Q j * dot (D n j) (v n))), sumn_scal_r. ring. }
  rewrite (G N _ _ (le_n _) H). unfold phi; cbn [fst snd].
  rewrite (sumn_zero N (fun a => dot vzero (v a))) by (intros; apply dot_vzero_l). rewrite (sumn_zero N (fun b => 0 * y b)) by (intros; ring). ring.
Qed.
End Functional.

Lemma forces4G_power N lt le pE D dChi fshort v :
  power N (fun i => fst (forces4G N lt le pE D dChi fshort i)) v =
    power N fshort v - power N pE v - sumn N (fun j => lt j * (sumn N (fun a => dot (dChi j a) (v a)) + rowrate N v D j)) /\
  power N (fun i => snd (forces4G N lt le pE D dChi fshort i)) v =
    - power N pE v - sumn N (fun j => le j * (sumn N (fun a => dot (dChi j a) (v a)) + rowrate N v D j)).
Proof.
  assert (F : forall i w, dot (fst (forces4G N lt le pE D dChi fshort i)) w = dot (fshort i) w - dot (pE i) w - sumn N (fun j => lt j * (dot (dChi j i) w + dot (D i j) w)) /\
     dot (snd (forces4G N lt le pE D dChi fshort i)) w = - dot (pE i) w - sumn N (fun j => le j * (dot (dChi j i) w + dot (D i j) w))).
  { intros i w. unfold forces4G. generalize N at 1 2 3 4. intros n. induction n; cbn [for_up].
    - cbn [fst snd]. rewrite !sumn_0, dot_vsub_l. split; [ring|]. unfold vopp, dot, smul; simpl; ring.
    - rewrite !sumn_S. destruct (for_up n _ _) as [f g]. cbn [fst snd] in *. destruct IHn as [E1 E2]. rewrite !dot_vsub_l, !dot_smul_l, !dot_vadd_l, E1, E2. split; ring. }
  assert (S : forall lam, sumn N (fun a => sumn N (fun j => lam j * (dot (dChi j a) (v a) + dot (D a j) (v a)))) =
     sumn N (fun j => lam j * (sumn N (fun a => dot (dChi j a) (v a)) + rowrate N v D j))).
  { intros lam. rewrite sumn_swap. apply sumn_ext. intros j Hj. unfold rowrate. rewrite <- sumn_plus, sumn_scal. auto. }
  unfold power. split.
  - rewrite (sumn_ext N _ (fun a => dot (fshort a) (v a) - dot (pE a) (v a) - sumn N (fun j => lt j * (dot (dChi j a) (v a) + dot (D a j) (v a))))) by (intros; apply F).
    rewrite !sumn_minus, S. auto.
  - rewrite (sumn_ext N _ (fun a => (-1) * dot (pE a) (v a) - sumn N (fun j => le j * (dot (dChi j a) (v a) + dot (D a j) (v a))))).
    2:{ intros i Hi. destruct (F i (v i)) as [_ F2]. rewrite F2. ring. }
    rewrite sumn_minus, S, sumn_scal. ring.
Qed.

(** ** Forces are minus the total derivative *)
Section Main.
Variables (N : nat) (solve : solver) (A : R -> matrix) (U : R -> nat -> nat -> R) (dU : nat -> nat -> R) (J : nat -> R) (self : nat -> R) (cs : nat -> list corr)
  (chi : R -> nat -> R) (dChi : nat -> nat -> vec) (qref : R) (v : nat -> vec) (D : vmatrix) (pE : nat -> vec) (dQ : nat -> R).
Hypothesis Hsol : exact_solver solve.
Let Q t := solve (N + 1)%nat (border N (A t)) (fun i => if Nat.eqb i N then qref else - chi t i).
Hypothesis Hns : nonsingular (N + 1) (border N (A 0)).
Hypothesis HA : forall t i j, (i < N)%nat -> (j < N)%nat -> A t i j = (if Nat.eqb i j then J i else 0) + U t i j.
Hypothesis HU : forall i j, (i < N)%nat -> (j < N)%nat -> is_derive (fun t => U t i j) 0 (dU i j).
Hypothesis HUs : forall i j, (i < N)%nat -> (j < N)%nat -> U 0 i j = U 0 j i.
Hypothesis Hcs : forall i x, (i < N)%nat -> In x (cs i) -> (co_j x < N)%nat /\ is_derive (co_c x) 0 (co_d x).
Hypothesis Hchi : forall j, (j < N)%nat -> is_derive (fun t => chi t j) 0 (sumn N (fun a => dot (dChi j a) (v a))).
Hypothesis HD : forall b, (b < N)%nat -> rowrate N v D b = sumn N (fun k => dU b k * Q 0 k).
Hypothesis Hphi : forall y, power N pE v + sumn N (fun b => dQ b * y b) =
  sumn N (fun i => 1 / 2 * (Q 0 i * sumn N (fun j => dU i j * Q 0 j))
      + y i * (sumn N (fun j => U 0 i j * Q 0 j) - self i * Q 0 i)
      + rsum (map (fun x => Q 0 i * Q 0 (co_j x) * co_d x + (y i * Q 0 (co_j x) + Q 0 i * y (co_j x)) * co_c x 0) (cs i))).
Let chi' j := sumn N (fun a => dot (dChi j a) (v a)).

Lemma A_derive i j : (i < N)%nat -> (j < N)%nat -> is_derive (fun t => A t i j) 0 (dU i j).
Proof.
  intros Hi Hj. apply (is_derive_ext (fun t => (if Nat.eqb i j then J i else 0) + U t i j)). { intros t. symmetry. now apply HA. }
  eapply is_derive_eq. apply (is_derive_plus (fun _ => if Nat.eqb i j then J i else 0) (fun t => U t i j)). apply is_derive_const'. apply HU; auto.
  unfold plus; simpl. ring.
Qed.
Lemma A_sym i j : (i < N)%nat -> (j < N)%nat -> A 0 i j = A 0 j i.
Proof. intros Hi Hj. rewrite !HA, HUs by auto. destruct (Nat.eqb_spec i j), (Nat.eqb_spec j i); subst; auto; congruence. Qed.
Definition rate : nat -> R := solve (N + 1)%nat (border N (A 0)) (response_rhs N solve A dU chi chi' qref).
Lemma rate_solution : solution (N + 1) (border N (A 0)) (response_rhs N solve A dU chi chi' qref) rate.
Proof. apply Hsol, Hns. Qed.
Lemma charges_rate i : (i < N + 1)%nat -> is_derive (fun t => Q t i) 0 (rate i).
Proof.
  intros Hi. refine (response N solve A dU chi chi' qref Hsol Hns A_derive _ rate rate_solution i Hi). exact Hchi.
Qed.
Lemma multiplier (dE : nat -> R) : 
  let lam := solve (N + 1)%nat (border N (A 0)) (fun i => - (if Nat.ltb i N then dE i else 0)) in
  sumn N (fun i => dE i * rate i) = sumn N (fun j => lam j * (chi' j + rowrate N v D j)).
Proof.
  intros lam. rewrite (lagrange N solve A dU chi chi' qref A_sym rate lam dE rate_solution (Hsol _ _ _ Hns)).
  apply sumn_ext. intros j Hj. rewrite HD by auto. reflexivity.
Qed.
Theorem forces_core Es fshort dEs : differentiable_energy N Es (Q 0) (- power N fshort v) dEs ->
  let lt := solve (N + 1)%nat (border N (A 0)) (fun i => - (if Nat.ltb i N then dQ i + dEs i else 0)) in
  let le := solve (N + 1)%nat (border N (A 0)) (fun i => - (if Nat.ltb i N then dQ i else 0)) in
  let F := forces4G N lt le pE D dChi fshort in
  is_derive (fun t => energy N U self cs t (Q t) + Es t (Q t)) 0 (- power N (fun i => fst (F i)) v) /\
  is_derive (fun t => energy N U self cs t (Q t)) 0 (- power N (fun i => snd (F i)) v).
Proof.
  intros HEs lt le F. destruct (forces4G_power N lt le pE D dChi fshort v) as [F1 F2]. fold F in F1, F2.
  assert (E : is_derive (fun t => energy N U self cs t (Q t)) 0 (power N pE v + sumn N (fun b => dQ b * rate b))).
  { eapply is_derive_eq. apply (energy_path N U dU self cs HU HUs Hcs Q rate). intros; apply charges_rate; lia. now rewrite Hphi. }
  split.
  - eapply is_derive_eq.
    + apply (is_derive_plus (fun t => energy N U self cs t (Q t)) (fun t => Es t (Q t))); [exact E|].
      apply (HEs Q rate); auto. intros; apply charges_rate; lia.
    + unfold plus; simpl. rewrite F1. assert (M : sumn N (fun i => (dQ i + dEs i) * rate i) = sumn N (fun j => lt j * (sumn N (fun a => dot (dChi j a) (v a)) + rowrate N v D j))) by exact (multiplier (fun i => dQ i + dEs i)). rewrite <- M.
      rewrite (sumn_ext N (fun i => (dQ i + dEs i) * rate i) (fun i => dQ i * rate i + dEs i * rate i)) by (intros; ring). rewrite sumn_plus. ring.
  - eapply is_derive_eq; [exact E|]. rewrite F2. assert (M : sumn N (fun i => dQ i * rate i) = sumn N (fun j => le j * (sumn N (fun a => dot (dChi j a) (v a)) + rowrate N v D j))) by exact (multiplier dQ). rewrite <- M. ring.
Qed.
End Main.
